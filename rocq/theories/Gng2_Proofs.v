(** Every step of zm_gng.c keeps a network. *)
From Coq Require Import ZArith List Bool Lia Arith.
From Verif Require Import Prelude Scalar Gng_Model Gng_Spec Gng_Proofs.
Import ListNotations.

Section Shape.
  Context {T : Type}.
  Implicit Types g : gng T.
  (** the same but the positions, errors and ages *)
  Definition ushape (u : unit T) := (uid u, eps u).
  Definition eshape (e : edge) := (eid e, eu1 e, eu2 e).
  Definition same_shape g g' := map ushape (units g) = map ushape (units g') /\ map eshape (edges g) = map eshape (edges g') /\ next g = next g'.
  Lemma same_refl g : same_shape g g.
  Proof. split; auto. Qed.
  Lemma same_sym g g' : same_shape g g' -> same_shape g' g.
  Proof. unfold same_shape. intuition. Qed.
  Lemma same_trans g g' g'' : same_shape g g' -> same_shape g' g'' -> same_shape g g''.
  Proof. unfold same_shape. intuition congruence. Qed.
  Lemma shape_u g g' u : same_shape g g' -> In u (units g) -> exists u', In u' (units g') /\ uid u' = uid u /\ eps u' = eps u.
  Proof.
    intros (E & _) H. apply (in_map ushape) in H. rewrite E in H. apply in_map_iff in H. destruct H as (u' & K & H).
    exists u'. unfold ushape in K. inversion K. auto.
  Qed.
  Lemma shape_e g g' e : same_shape g g' -> In e (edges g) -> exists e', In e' (edges g') /\ eid e' = eid e /\ eu1 e' = eu1 e /\ eu2 e' = eu2 e.
  Proof.
    intros (_ & E & _) H. apply (in_map eshape) in H. rewrite E in H. apply in_map_iff in H. destruct H as (u' & K & H).
    exists u'. unfold eshape in K. inversion K. auto.
  Qed.
  Lemma live_shape g g' a : same_shape g g' -> live g a -> live g' a.
  Proof. intros S (u & H & E). destruct (shape_u _ _ _ S H) as (u' & H' & E1 & _). exists u'. split; auto. congruence. Qed.
  Lemma wired_shape g g' : same_shape g g' -> wired g -> wired g'.
  Proof.
    intros S W. pose proof (same_sym _ _ S) as S'. constructor.
    - replace (map uid (units g')) with (map uid (units g)); [apply W|]. destruct S as (S & _).
      transitivity (map fst (map ushape (units g))); [|rewrite S]; rewrite map_map; reflexivity.
    - replace (map eid (edges g')) with (map eid (edges g)); [apply W|]. destruct S as (_ & S & _).
      transitivity (map (fun p => fst (fst p)) (map eshape (edges g))); [|rewrite S]; rewrite map_map; reflexivity.
    - intros u H. destruct (shape_u _ _ _ S' H) as (u' & H' & <- & _). destruct S as (_ & _ & <-). now apply W.
    - intros u H. destruct (shape_e _ _ _ S' H) as (u' & H' & <- & _). destruct S as (_ & _ & <-). now apply W.
    - intros e H. destruct (shape_e _ _ _ S' H) as (e' & H' & _ & <- & <-). destruct (w_ends _ W e' H') as (N & L1 & L2). split; auto. split; eapply live_shape; eauto.
    - intros e1 e2 H1 H2 J. destruct (shape_e _ _ _ S' H1) as (e1' & H1' & <- & A1 & A2). destruct (shape_e _ _ _ S' H2) as (e2' & H2' & <- & B1 & B2).
      apply W; auto. unfold joins in *. rewrite A1, A2, B1, B2. auto.
    - intros u H. destruct (shape_u _ _ _ S' H) as (u' & H' & _ & <-). now apply W.
    - intros u x H. destruct (shape_u _ _ _ S' H) as (u' & H' & <- & <-). rewrite (w_inc _ W) by auto. split; intros (e & He & Ex & Et).
      + destruct (shape_e _ _ _ S He) as (e' & He' & E1 & E2 & E3). exists e'. conjs; auto; try congruence. unfold touches. rewrite E2, E3. auto.
      + destruct (shape_e _ _ _ S' He) as (e' & He' & E1 & E2 & E3). exists e'. conjs; auto; try congruence. unfold touches. rewrite E2, E3. auto.
  Qed.
  Lemma connected_shape g g' : same_shape g g' -> connected g -> connected g'.
  Proof. intros S C u H. destruct (shape_u _ _ _ (same_sym _ _ S) H) as (u' & H' & _ & <-). auto. Qed.
  Lemma length_shape g g' : same_shape g g' -> length (units g) = length (units g') /\ length (edges g) = length (edges g').
  Proof. intros (S1 & S2 & _). split; [rewrite <- (map_length ushape), S1|rewrite <- (map_length eshape), S2]; apply map_length. Qed.
  Lemma same_units g f : (forall u, In u (units g) -> ushape (f u) = ushape u) -> same_shape g (Gng (map f (units g)) (edges g) (next g)).
  Proof. intros H. split; [|split; auto]. cbn. rewrite map_map. apply map_ext_in. intros. symmetry. auto. Qed.
  Lemma same_edges g f : (forall e, In e (edges g) -> eshape (f e) = eshape e) -> same_shape g (Gng (units g) (map f (edges g)) (next g)).
  Proof. intros H. split; [auto|split; [|auto]]. cbn. rewrite map_map. apply map_ext_in. intros. symmetry. auto. Qed.
  Lemma same_on g a f : (forall u, ushape (f u) = ushape u) -> same_shape g (Gng (map (on a f) (units g)) (edges g) (next g)).
  Proof. intros H. apply same_units. intros u _. unfold on. destruct (_ =? _)%nat; auto. Qed.

  (** an edge is added *)
  Definition add x (u : unit T) := Unit (uid u) (uv u) (uerr u) (eps u ++ [x]).
  Definition conn_units (us : list (unit T)) x a b := map (on b (add x)) (map (on a (add x)) us).
  Lemma In_conn us x a b w : a <> b -> In w (conn_units us x a b) ->
    exists u, In u us /\ uid w = uid u /\ uv w = uv u /\ uerr w = uerr u /\ (((uid u = a \/ uid u = b) /\ eps w = eps u ++ [x]) \/ (uid u <> a /\ uid u <> b /\ eps w = eps u)).
  Proof.
    intros N H. unfold conn_units in H. rewrite map_map in H. apply in_map_iff in H. destruct H as (u & E & H). exists u. split; auto. subst w.
    unfold on. destruct (Nat.eqb_spec (uid u) a) as [A|A]; cbn.
    - destruct (Nat.eqb_spec (uid u) b); [congruence|]. cbn. conjs; auto.
    - destruct (Nat.eqb_spec (uid u) b); cbn; conjs; auto.
  Qed.
  Lemma conn_In us x a b u : In u us -> exists w, In w (conn_units us x a b) /\ uid w = uid u.
  Proof.
    intros H. exists (on b (add x) (on a (add x) u)). split; [unfold conn_units; rewrite map_map; now apply (in_map (fun u => on b (add x) (on a (add x) u)))|].
    unfold on. destruct (uid u =? a)%nat; cbn; destruct (uid u =? b)%nat; auto.
  Qed.
  Lemma uid_on a x (u : unit T) : uid (on a (add x) u) = uid u.
  Proof. unfold on. destruct (_ =? _)%nat; auto. Qed.
  Lemma connect_ok g a b : wired g -> live g a -> live g b -> a <> b -> (forall e, In e (edges g) -> ~ joins e a b) ->
    exists g', _zGNGConnect g a b = Ok g' /\ wired g' /\ edges g' = edges g ++ [Edge (next g) 0 a b] /\ units g' = conn_units (units g) (next g) a b /\ next g' = S (next g).
  Proof.
    intros W La Lb N J. unfold _zGNGConnect. rewrite set_unit_ok by exact La. cbn [bind]. rewrite set_unit_ok; cbn [units edges next].
    2:{ apply live_In. cbn. rewrite map_map. apply live_In in Lb. erewrite map_ext; [exact Lb|]. apply uid_on. }
    eexists. split; [reflexivity|]. change (fun u => Unit (uid u) (uv u) (uerr u) (eps u ++ [next g])) with (add (next g)). split; [|auto]. fold (conn_units (units g) (next g) a b).
    constructor; cbn [units edges next].
    - unfold conn_units. rewrite !map_map. erewrite map_ext; [exact (w_units _ W)|]. intros u. now rewrite !uid_on.
    - rewrite map_app. apply NoDup_app_one; [apply W|]. cbn. rewrite in_map_iff. intros (e & E & H). apply W in H. lia.
    - intros w H. apply In_conn in H; auto. destruct H as (u & H & -> & _). apply W in H. lia.
    - intros e H. apply in_app_iff in H. destruct H as [H|[<-|[]]]; [apply W in H|cbn]; lia.
    - assert (LL : forall c, live g c -> live (Gng (conn_units (units g) (next g) a b) (edges g ++ [Edge (next g) 0 a b]) (S (next g))) c).
      { intros c (u & H & E). destruct (conn_In _ (next g) a b u H) as (w & Hw & Ew). exists w. split; auto. congruence. }
      intros e H. apply in_app_iff in H. destruct H as [H|[<-|[]]]; [destruct (w_ends _ W e H) as (N1 & L1 & L2); auto|cbn; auto].
    - intros e1 e2 H1 H2. apply in_app_iff in H1, H2. destruct H1 as [H1|[<-|[]]], H2 as [H2|[<-|[]]]; cbn; auto.
      + now apply W.
      + intros K. now apply J in K.
      + intros K. exfalso. apply (J _ H2). unfold joins in *. cbn in K. intuition.
    - intros w H. apply In_conn in H; auto. destruct H as (u & H & _ & _ & _ & [(_ & ->)|(_ & _ & ->)]); [|now apply W]. apply NoDup_app_one; [now apply W|].
      rewrite (w_inc _ W) by auto. intros (e & He & E & _). apply W in He. lia.
    - intros w x H. apply In_conn in H; auto. destruct H as (u & H & E & _ & _ & [(K & ->)|(K1 & K2 & ->)]); rewrite E.
      + rewrite in_app_iff, (w_inc _ W) by auto. split.
        * intros [(e & He & Ee & Et)|[<-|[]]]; [exists e; rewrite in_app_iff; auto|]. exists (Edge (next g) 0 a b). rewrite in_app_iff. cbn. unfold touches. cbn. intuition.
        * intros (e & He & Ee & Et). apply in_app_iff in He. destruct He as [He|[<-|[]]]; [left; exists e; auto|right; cbn in *; auto].
      + rewrite (w_inc _ W) by auto. split; intros (e & He & Ee & Et).
        * exists e. rewrite in_app_iff. auto.
        * apply in_app_iff in He. destruct He as [He|[<-|[]]]; [exists e; auto|]. unfold touches in Et. cbn in Et. intuition congruence.
  Qed.
  Lemma add_unit_ok g v err : wired g -> let '(a, g') := add_unit g v err in
    wired g' /\ a = next g /\ units g' = units g ++ [Unit a v err []] /\ edges g' = edges g.
  Proof.
    intros W. unfold add_unit. split; [|auto]. constructor; cbn [units edges next].
    - rewrite map_app. apply NoDup_app_one; [apply W|]. cbn. rewrite in_map_iff. intros (u & E & H). apply W in H. lia.
    - apply W.
    - intros u H. apply in_app_iff in H. destruct H as [H|[<-|[]]]; [apply W in H|cbn]; lia.
    - intros e H. apply W in H. lia.
    - assert (LL : forall c, live g c -> live (Gng (units g ++ [Unit (next g) v err []]) (edges g) (S (next g))) c).
      { intros c (u & H & E). exists u. cbn. rewrite in_app_iff. auto. }
      intros e H. destruct (w_ends _ W e H) as (N1 & L1 & L2); auto.
    - apply W.
    - intros u H. apply in_app_iff in H. destruct H as [H|[<-|[]]]; [now apply W|constructor].
    - intros u x H. apply in_app_iff in H. destruct H as [H|[<-|[]]]; [now apply W|]. cbn. split; [tauto|]. intros (e & He & _ & Et).
      destruct (w_ends _ W e He) as (_ & (u1 & Hu1 & E1) & (u2 & Hu2 & E2)). apply W in Hu1, Hu2. unfold touches in Et. lia.
  Qed.
  Lemma joins_dec e a b : joins e a b \/ ~ joins e a b.
  Proof. unfold joins. destruct (Nat.eq_dec (eu1 e) a), (Nat.eq_dec (eu2 e) b), (Nat.eq_dec (eu1 e) b), (Nat.eq_dec (eu2 e) a); tauto. Qed.
  Lemma disconnect_ok g a b : wired g -> exists g', _zGNGDisconnect g a b = Ok g' /\ wired g' /\ (connected g -> connected g') /\ next g' = next g /\
    (forall e, In e (edges g') <-> In e (edges g) /\ ~ joins e a b) /\
    (forall w, In w (units g') -> exists u, In u (units g) /\ uid w = uid u /\ uv w = uv u /\ uerr w = uerr u) /\ (length (units g') <= length (units g))%nat.
  Proof.
    intros W. unfold _zGNGDisconnect. destruct (find _ _) eqn:E.
    - apply find_some in E. destruct E as [He E].
      assert (J : joins e a b) by (unfold joins; rewrite orb_true_iff, !andb_true_iff, !Nat.eqb_eq in E; tauto).
      destruct (purge_ok g e W He) as (g' & -> & W' & C' & Ed & Nx & U & L). exists g'. conjs; auto.
      intros e'. rewrite Ed, filter_In. split.
      + intros [H K]. split; auto. intros J'. assert (eid e' = eid e).
        { apply (w_simple _ W); auto. unfold joins in *. intuition congruence. }
        rewrite H0, Nat.eqb_refl in K. discriminate.
      + intros [H K]. split; auto. destruct (Nat.eqb_spec (eid e') (eid e)); auto. assert (e' = e) by (eapply NoDup_map_inj; eauto; apply W). congruence.
    - exists g. conjs; auto; [|intros w H; exists w; auto]. intros e. split; [|tauto]. intros H. split; auto. intros J. apply find_none with (x := e) in E; auto.
      cbn in E. rewrite orb_false_iff, !andb_false_iff, !Nat.eqb_neq in E. unfold joins in J. tauto.
  Qed.

  (** ** the removal of aged edges *)
  Definition keep (lt : Z) e := (age e <=? lt)%Z.
  Lemma filter_all {A} p (l : list A) : (forall x, In x l -> p x = true) -> filter p l = l.
  Proof. induction l as [|a l IH]; cbn; intros H; auto. rewrite H by auto. f_equal. auto. Qed.
  Lemma aged_ok lt fuel : forall i g, wired g -> connected g -> (length (edges g) <= fuel + i)%nat -> (forall e, In e (firstn i (edges g)) -> (age e <= lt)%Z) ->
    exists g', aged_loop lt fuel i g = Ok g' /\ wired g' /\ connected g' /\ edges g' = filter (keep lt) (edges g) /\ next g' = next g /\
      (forall w, In w (units g') -> exists u, In u (units g) /\ uid w = uid u /\ uv w = uv u /\ uerr w = uerr u) /\ (length (units g') <= length (units g))%nat.
  Proof.
    induction fuel as [|fuel IH]; intros i g W C L Y.
    - cbn. assert (K : nth_error (edges g) i = None) by (apply nth_error_None; lia). rewrite K. exists g. conjs; auto; [|intros w H; exists w; auto].
      symmetry. apply filter_all. intros e H. unfold keep. apply Z.leb_le. apply Y. rewrite firstn_all2 by lia. auto.
    - cbn. destruct (nth_error (edges g) i) as [e|] eqn:E.
      2:{ apply nth_error_None in E. exists g. conjs; auto; [|intros w H; exists w; auto]. symmetry. apply filter_all. intros e H. unfold keep. apply Z.leb_le. apply Y. rewrite firstn_all2 by lia. auto. }
      pose proof (nth_error_In _ _ E) as He. apply nth_error_split in E. destruct E as (l1 & l2 & E & E1).
      destruct (Z.ltb_spec lt (age e)) as [A|A].
      + destruct (purge_ok g e W He) as (g1 & -> & W1 & C1 & Ed & Nx & U & Ln). cbn [bind].
        assert (Ed' : edges g1 = l1 ++ l2).
        { rewrite Ed, E, filter_app. cbn. rewrite Nat.eqb_refl. cbn. pose proof (w_edges _ W) as ND. rewrite E, map_app in ND. cbn in ND. apply NoDup_remove_2 in ND.
          f_equal; apply filter_all; intros x Hx; destruct (Nat.eqb_spec (eid x) (eid e)) as [Q|Q]; auto; exfalso; apply ND; rewrite <- Q, in_app_iff; [left|right]; now apply in_map. }
        destruct (IH i g1) as (g' & -> & W' & C' & Ed2 & Nx' & U' & L'); auto.
        * rewrite Ed'. rewrite E in L. rewrite app_length in *. cbn in L. lia.
        * rewrite Ed'. intros x Hx. apply Y. rewrite E. rewrite firstn_app, <- E1, Nat.sub_diag, firstn_O, app_nil_r in *. auto.
        * exists g'. conjs; auto; try congruence; try lia.
          -- rewrite Ed2, Ed', E, !filter_app. cbn. unfold keep at 4. destruct (Z.leb_spec (age e) lt); [lia|auto].
          -- intros w Hw. destruct (U' w Hw) as (u & Hu & F1 & F2 & F3). destruct (U u Hu) as (u' & Hu' & G1 & G2 & G3). exists u'. conjs; auto; congruence.
      + destruct (IH (S i) g) as (g' & K); auto.
        * lia.
        * intros x Hx. rewrite E in Hx. rewrite firstn_app in Hx. apply in_app_iff in Hx. rewrite <- E1 in Hx. destruct Hx as [Hx|Hx].
          -- apply Y. rewrite E, firstn_app. apply in_app_iff. left. rewrite firstn_all2 in Hx by lia. rewrite firstn_all2 by lia. auto.
          -- replace (S (length l1) - length l1)%nat with 1%nat in Hx by lia. cbn in Hx. destruct Hx as [<-|[]]. lia.
        * exists g'. auto.
  Qed.
End Shape.
