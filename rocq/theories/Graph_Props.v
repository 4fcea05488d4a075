(** Theorems for C21. *)
From Coq Require Import Reals Lra.
From Verif Require Import Prelude Prelude_Proofs Scalar RealLib Graph_Model Graph_Spec Graph_Proofs.
Local Open Scope R_scope.

(** ** Building graphs *)
Inductive gop := Add (d : nat) | Conn (a b : nat) (c : R) | Biconn (a b : nat) (c : R).
Definition do_op (G : rgraph) (o : gop) : bool * rgraph :=
  match o with Add d => zGraphAddNode G d | Conn a b c => zGraphConnect G a b c | Biconn a b c => zGraphBiconnect G a b c end.
Definition build (h : list gop) : rgraph := fold_left (fun G o => snd (do_op G o)) h zGraphInit.

Theorem C21_add_node G d : zGraphAddNode G d = (true, snd (zGraphAddNode G d)) /\
  (forall x, node (snd (zGraphAddNode G d)) x <-> node G x \/ x = d) /\ (forall x y c, arc (snd (zGraphAddNode G d)) x y c <-> arc G x y c).
Proof.
  unfold zGraphAddNode. destruct (find_dec G d) as [(n & E & N)|(E & N)]; rewrite E; cbn [snd]; split; auto; split.
  - intros x. split; auto. intros [| ->]; auto.
  - reflexivity.
  - intros x. unfold node. rewrite map_app, in_app_iff. cbn. intuition auto.
  - intros. apply add_arc.
Qed.
Theorem C21_connect G a b c : graph_ok G ->
  (node G a /\ node G b -> fst (zGraphConnect G a b c) = true /\
    forall x y d, arc (snd (zGraphConnect G a b c)) x y d <-> (x = a /\ y = b /\ d = c \/ ~ (x = a /\ y = b) /\ arc G x y d)) /\
  (~ (node G a /\ node G b) -> zGraphConnect G a b c = (false, G)).
Proof.
  intros (N1 & N2 & _). unfold zGraphConnect. split.
  - intros (Na & Nb). destruct (find_dec G a) as [(n & E & _)|(_ & ?)]; [|tauto]. destruct (find_dec G b) as [(m & E' & _)|(_ & ?)]; [|tauto].
    rewrite E, E'. split; auto. intros. cbn [snd]. now apply connect_arc.
  - intros N. destruct (find_dec G a) as [(n & E & ?)|(E & ?)]; rewrite E; auto. destruct (find_dec G b) as [(m & E' & ?)|(E' & ?)]; rewrite E'; auto; tauto.
Qed.
Theorem C21_biconnect G a b c : graph_ok G ->
  (node G a /\ node G b -> fst (zGraphBiconnect G a b c) = true /\
    forall x y d, arc (snd (zGraphBiconnect G a b c)) x y d <->
      ((x = a /\ y = b \/ x = b /\ y = a) /\ d = c \/ ~ (x = a /\ y = b) /\ ~ (x = b /\ y = a) /\ arc G x y d)) /\
  (~ (node G a /\ node G b) -> zGraphBiconnect G a b c = (false, G)).
Proof.
  intros GO. unfold zGraphBiconnect. split.
  - intros (Na & Nb). destruct (find_dec G a) as [(n & E & _)|(_ & ?)]; [|tauto]. destruct (find_dec G b) as [(m & E' & _)|(_ & ?)]; [|tauto].
    rewrite E, E'. split; auto. intros. cbn [snd]. unfold zGraphNodeBiconnect.
    assert (G1 := connect_ok G a b c GO Nb). destruct G1 as (M1 & M2 & _). destruct GO as (N1 & N2 & _).
    rewrite connect_arc by (auto; now apply connect_node). rewrite connect_arc by auto.
    destruct (Nat.eq_dec x a), (Nat.eq_dec y b), (Nat.eq_dec x b), (Nat.eq_dec y a); subst; try tauto; try (intuition congruence).
  - intros N. destruct (find_dec G a) as [(n & E & ?)|(E & ?)]; rewrite E; auto. destruct (find_dec G b) as [(m & E' & ?)|(E' & ?)]; rewrite E'; auto; tauto.
Qed.

Lemma op_graph_ok G o : graph_ok G -> graph_ok (snd (do_op G o)).
Proof.
  intros GO. destruct o as [d|a b c|a b c]; cbn [do_op].
  - unfold zGraphAddNode. destruct (find_dec G d) as [(n & E & N)|(E & N)]; rewrite E; auto. now apply addnode_ok.
  - unfold zGraphConnect. destruct (find_dec G a) as [(n & E & ?)|(E & ?)]; rewrite E; auto. destruct (find_dec G b) as [(m & E' & ?)|(E' & ?)]; rewrite E'; auto.
    now apply connect_ok.
  - unfold zGraphBiconnect. destruct (find_dec G a) as [(n & E & ?)|(E & ?)]; rewrite E; auto. destruct (find_dec G b) as [(m & E' & ?)|(E' & ?)]; rewrite E'; auto.
    cbn [snd]. unfold zGraphNodeBiconnect. apply connect_ok; [now apply connect_ok|]. now apply connect_node.
Qed.
Lemma build_ind (P : rgraph -> Prop) h : P zGraphInit -> (forall G o, In o h -> graph_ok G -> P G -> P (snd (do_op G o))) -> graph_ok (build h) /\ P (build h).
Proof.
  intros P0 PS. unfold build. assert (K : forall h' G, incl h' h -> graph_ok G -> P G -> let G' := fold_left (fun G o => snd (do_op G o)) h' G in graph_ok G' /\ P G').
  { induction h' as [|o h' IH]; cbn [fold_left]; intros G HI GO PG; auto. apply IH.
    - intros x J. apply HI. cbn; auto. - now apply op_graph_ok. - apply PS; auto. apply HI. cbn; auto. }
  apply K; auto. - intros x; auto. - split; [constructor|]. split; [intros x l []|intros x y c (l & [] & _)].
Qed.
(** every graph the interface can build, whatever the history *)
Theorem C21_built_graphs h : graph_ok (build h).
Proof. apply (build_ind (fun _ => True)); auto. Qed.
Theorem C21_built_costs h : (forall a b c, In (Conn a b c) h \/ In (Biconn a b c) h -> 0 <= c) -> costs_ok (build h).
Proof.
  intros H. apply (build_ind costs_ok). { intros x y c (l & [] & _). }
  intros G o Io GO C x y d A. destruct o as [e|a b c|a b c]; cbn [do_op] in A.
  - destruct (C21_add_node G e) as (_ & _ & KA). rewrite KA in A. eauto.
  - destruct (C21_connect G a b c GO) as (K1 & K2).
    destruct (in_dec Nat.eq_dec a (map fst G)), (in_dec Nat.eq_dec b (map fst G)); try (rewrite K2 in A by (unfold node; tauto); cbn in A; eauto).
    destruct K1 as (_ & K1); [split; auto|]. apply K1 in A as [(_ & _ & ->)|(_ & A)]; eauto.
  - destruct (C21_biconnect G a b c GO) as (K1 & K2).
    destruct (in_dec Nat.eq_dec a (map fst G)), (in_dec Nat.eq_dec b (map fst G)); try (rewrite K2 in A by (unfold node; tauto); cbn in A; eauto).
    destruct K1 as (_ & K1); [split; auto|]. apply K1 in A as [(_ & ->)|(_ & _ & A)]; eauto.
Qed.
(** graphs built with zGraphBiconnect alone *)
Theorem C21_built_two_way h : (forall a b c, ~ In (Conn a b c) h) -> two_way (build h).
Proof.
  intros H. apply (build_ind two_way). { intros x y c (l & [] & _). }
  intros G o Io GO C x y d A. destruct o as [e|a b c|a b c]; cbn [do_op] in A |- *.
  - destruct (C21_add_node G e) as (_ & _ & KA). rewrite KA in A |- *. auto.
  - destruct (H _ _ _ Io).
  - destruct (C21_biconnect G a b c GO) as (K1 & K2).
    destruct (in_dec Nat.eq_dec a (map fst G)), (in_dec Nat.eq_dec b (map fst G)); try (rewrite K2 in A |- * by (unfold node; tauto); cbn in A |- *; auto).
    destruct K1 as (_ & K1); [split; auto|]. apply K1. apply K1 in A as [(K & ->)|(N1 & N2 & A)]; [left|right]; [tauto|]. repeat split; auto; intros (-> & ->); tauto.
Qed.

(** ** Searching.  The path is listed from the start to the goal. *)
(** Dijkstra: any nonnegative costs, any earlier searches ([to0]), two-way graph *)
Theorem C21_dijkstra_partial G to0 s g : graph_ok G -> costs_ok G -> two_way G -> node G s -> node G g -> s <> g -> (exists c, walk_from G s g c) ->
  exists v p to', zGraphSearchDijkstra G to0 s g = Ok (Some v, Some p, to') /\
    walk G p v /\ hd_error p = Some s /\ hd_error (rev p) = Some g /\ NoDup p /\ forall w, walk_from G s g w -> v <= w.
Proof.
  intros GO CO TW Ns Ng NE (c & l & W & E1 & E2). unfold zGraphSearchDijkstra.
  destruct (astar_ok G (fun _ _ => 0) to0 s g) as (v & p & to' & E & WP & H1 & H2 & H3 & MIN); auto.
  - intros x y d A. specialize (CO _ _ _ A). lra.
  - exists c, (rev l). rewrite rev_involutive. auto using walk_rev.
  - exists v, p, to'. split; auto. rewrite <- (rev_involutive p) at 1. repeat split; auto using walk_rev.
    intros w (l' & W' & E1' & E2'). apply MIN. exists (rev l'). rewrite rev_involutive. auto using walk_rev.
Qed.
(** A* with a consistent estimate of the remaining cost *)
Theorem C21_astar_partial G h to0 s g : graph_ok G -> consistent G (fun n => h n s) -> two_way G -> node G s -> node G g -> s <> g -> (exists c, walk_from G s g c) ->
  exists v p to', zGraphSearchAStar G h to0 s g = Ok (Some v, Some p, to') /\
    walk G p v /\ hd_error p = Some s /\ hd_error (rev p) = Some g /\ NoDup p /\ forall w, walk_from G s g w -> v <= w.
Proof.
  intros GO CO TW Ns Ng NE (c & l & W & E1 & E2).
  destruct (astar_ok G h to0 s g) as (v & p & to' & E & WP & H1 & H2 & H3 & MIN); auto.
  - exists c, (rev l). rewrite rev_involutive. auto using walk_rev.
  - exists v, p, to'. split; auto. rewrite <- (rev_involutive p) at 1. repeat split; auto using walk_rev.
    intros w (l' & W' & E1' & E2'). apply MIN. exists (rev l'). rewrite rev_involutive. auto using walk_rev.
Qed.
(** any graph: what is found is the cheapest walk from the goal to the start *)
Theorem C21_backward_partial G h to0 s g : graph_ok G -> consistent G (fun n => h n s) -> node G s -> node G g -> s <> g -> (exists c, walk_from G g s c) ->
  exists v p to', zGraphSearchAStar G h to0 s g = Ok (Some v, Some p, to') /\
    walk G (rev p) v /\ hd_error p = Some s /\ hd_error (rev p) = Some g /\ NoDup p /\ forall w, walk_from G g s w -> v <= w.
Proof. apply astar_ok. Qed.
Theorem C21_unknown_node G (h : nat -> nat -> R) to0 s g : ~ node G s \/ ~ node G g -> zGraphSearchAStar G h to0 s g = Ok (None, None, to0).
Proof.
  intros H. unfold zGraphSearchAStar. destruct (Nat.eqb s g); auto. destruct H as [H|H]; apply find_none in H; rewrite H; auto.
  now destruct (zGraphFindNode G s).
Qed.
(** a two-way square with a diagonal *)
Definition square := build [Add 0; Add 1; Add 2; Add 3; Biconn 0 1 1; Biconn 1 2 1; Biconn 0 2 3; Biconn 2 3 (1/2)].
Example C21_case : graph_ok square /\ costs_ok square /\ two_way square /\ node square 0 /\ node square 3 /\ walk_from square 0 3 (5/2).
Proof.
  split; [|split; [|split; [|split; [|split]]]].
  - apply C21_built_graphs.
  - apply C21_built_costs. intros a b c [K|K]; cbn in K; repeat destruct K as [K|K]; try discriminate K; try tauto; inversion K; lra.
  - apply C21_built_two_way. intros a b c K. cbn in K. repeat destruct K as [K|K]; try discriminate K; tauto.
  - cbn. tauto. - cbn. tauto.
  - exists [0; 1; 2; 3]%nat. repeat split. replace (5/2) with (1 + (1 + (1/2 + 0))) by lra.
    constructor. { eexists; split; [left; reflexivity|cbn; tauto]. }
    constructor. { eexists; split; [right; left; reflexivity|cbn; tauto]. }
    constructor. { eexists; split; [right; right; left; reflexivity|cbn; tauto]. }
    constructor.
Qed.
(** ** What fails.  Directed graphs: 0 -> 1 costs 1, 1 -> 0 costs 5; asked for the way
    from 0 to 1 the function answers 5 *)
Definition oneway := build [Add 0; Add 1; Conn 0 1 1; Conn 1 0 5].
Theorem C21_directed_refuted : graph_ok oneway /\ costs_ok oneway /\ walk_from oneway 0 1 1 /\
  exists to', zGraphSearchDijkstra oneway (fun _ => None) 0 1 = Ok (Some 5, Some [0; 1]%nat, to').
Proof.
  split; [apply C21_built_graphs|]. split. { apply C21_built_costs. intros a b c [K|K]; cbn in K; repeat destruct K as [K|K]; try discriminate K; try tauto; inversion K; lra. }
  split. { exists [0; 1]%nat. repeat split. enough (W : walk oneway [0; 1]%nat (1 + 0)) by (now rewrite Rplus_0_r in W). constructor; [|constructor]. eexists. split; cbn; [left; reflexivity|cbn; tauto]. }
  destruct (astar_ok oneway (fun _ _ => 0) (fun _ => None) 0 1) as (v & p & to' & E & WP & H1 & H2 & H3 & MIN).
  - apply C21_built_graphs.
  - intros x y c (l & I & J). cbn in I. repeat destruct I as [I|I]; try tauto; inversion I; subst; cbn in J; repeat destruct J as [J|J]; try tauto; inversion J; lra.
  - cbn; tauto. - cbn; tauto. - lia.
  - exists 5, [1; 0]%nat. repeat split. replace 5 with (5 + 0) by lra. constructor; [|constructor]. eexists. split; cbn; [right; left; reflexivity|cbn; tauto].
  - exists to'. unfold zGraphSearchDijkstra. cbn [s0 RealS]. rewrite E.
    assert (P2 : p = [0; 1]%nat).
    { assert (IN : incl p [0; 1]%nat).
      { assert (forall l c, walk oneway l c -> forall x, In x l -> l = [x] \/ x = 0 \/ x = 1)%nat.
        { induction 1 as [a|a b l c d A W IH]; intros x Ix. { destruct Ix as [->|[]]; auto. }
          destruct A as (la & Ia & Ja). right. cbn in Ia. repeat destruct Ia as [Ia|Ia]; try tauto; inversion Ia; subst; cbn in Ja; destruct Ja as [Ja|[]]; inversion Ja; subst;
          (destruct Ix as [<-|Ix]; [auto|]; destruct (IH x Ix) as [El|]; auto; inversion El; auto). }
        intros x Ix. destruct (H _ _ WP x) as [El|[->| ->]]; cbn; auto. { now apply -> in_rev. }
        apply (f_equal (@rev nat)) in El. rewrite rev_involutive in El. subst p. cbn in *. inversion H1; inversion H2. congruence. }
      assert (length p <= 2)%nat by (apply (NoDup_incl_length H3 IN)).
      destruct p as [|x [|y [|z p]]]; cbn in *; try lia; try congruence; inversion H1; inversion H2; try congruence. }
    subst p. cbn [rev app] in WP. inversion WP as [|x y l c d A W]; subst. inversion W; subst.
    destruct A as (l & I & J). cbn in I. repeat destruct I as [I|I]; try tauto; inversion I; subst; cbn in J; destruct J as [J|[]]; inversion J. now rewrite Rplus_0_r.
Qed.
(** the same node as start and goal: an error and HUGE_VAL instead of 0 *)
Theorem C21_same_node_refuted G (h : nat -> nat -> R) to0 s : zGraphSearchAStar G h to0 s s = Ok (None, None, to0).
Proof. unfold zGraphSearchAStar. now rewrite Nat.eqb_refl. Qed.
(** not connected: NULL is dereferenced while the path is listed *)
Theorem C21_unreachable_refuted : zGraphSearchDijkstra (T := R) (build [Add 0; Add 1]) (fun _ => None) 0 1 = UB.
Proof. reflexivity. Qed.
(** not connected any more, after a search that has set [to]: the earlier path with cost HUGE_VAL *)
Theorem C21_stale_path_refuted : exists to', zGraphSearchDijkstra (T := R) (build [Add 0; Add 1]) (fun n => if Nat.eqb n 0 then Some 1%nat else None) 0 1 = Ok (None, Some [0; 1]%nat, to').
Proof. eexists. reflexivity. Qed.

Print Assumptions C21_dijkstra_partial.
Print Assumptions C21_astar_partial.
Print Assumptions C21_directed_refuted.
Print Assumptions C21_built_two_way.
