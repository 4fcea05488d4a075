From Coq Require Import Reals Lra Lia Psatz List.
From Verif Require Import Prelude Prelude_Proofs Scalar RealLib Fmat_Proofs Stat_Model Stat2_Proofs Rrt_Model Rrt_Spec.
Import ListNotations.
Local Open Scope R_scope.

Lemma fold_seq_inv {St} (P : nat -> St -> Prop) (f : St -> nat -> St) n s0 : P O s0 -> (forall k s, (k < n)%nat -> P k s -> P (S k) (f s k)) -> P n (fold_left f (List.seq 0 n) s0).
Proof.
  induction n as [|n IH]; intros H0 H; auto. rewrite seq_S, fold_left_app. cbn. apply H; auto.
Qed.
Lemma nth_error_app_last {A} (l : list A) x i : nth_error (l ++ [x]) i = if (i =? length l)%nat then Some x else nth_error l i.
Proof.
  destruct (Nat.eqb_spec i (length l)) as [->|N].
  - rewrite nth_error_app2, Nat.sub_diag by lia. reflexivity.
  - destruct (Nat.lt_ge_cases i (length l)). + now rewrite nth_error_app1.
    + rewrite nth_error_app2 by lia. rewrite (proj2 (nth_error_None l i)) by lia. destruct (i - length l)%nat eqn:E; [lia|]. cbn. now destruct n.
Qed.
Lemma nth_error_lt {A} (l : list A) i x : nth_error l i = Some x -> (i < length l)%nat.
Proof. intros H. apply nth_error_Some. congruence. Qed.
Lemma get_some {A} (l : list A) i x : nth_error l i = Some x -> get l i = Ok x.
Proof. intros H. unfold get. now rewrite H. Qed.

Section Chain.
  Context {V : Type}.
  Implicit Types t : tree R V.
  Inductive chainI t : nat -> list nat -> Prop :=
  | ci_root i n : nth_error t i = Some n -> par n = None -> chainI t i [i]
  | ci_step i n p l : nth_error t i = Some n -> par n = Some p -> chainI t p l -> chainI t i (i :: l).
  Lemma chainI_det t i l l' : chainI t i l -> chainI t i l' -> l = l'.
  Proof.
    intros H. revert l'. induction H as [i n E P|i n p l E P H IH]; intros l' H'; inversion H'; subst; try congruence.
    f_equal. apply IH. assert (n = n0) by congruence. subst. assert (p = p0) by congruence. now subst.
  Qed.
  Lemma chainI_sub t i l j : chainI t i l -> In j l -> exists l', chainI t j l' /\ (length l' <= length l)%nat.
  Proof.
    intros H. induction H as [i n E P|i n p l E P H IH]; intros I.
    - destruct I as [<-|[]]. exists [i]. split; auto. econstructor; eauto.
    - destruct I as [<-|I]. + exists (i :: l). split; auto. econstructor; eauto.
      + destruct (IH I) as (l' & A & B). exists l'. split; auto. cbn. lia.
  Qed.
  Lemma chainI_nodup t i l : chainI t i l -> NoDup l.
  Proof.
    intros H. induction H as [i n E P|i n p l E P H IH].
    - constructor; auto. constructor.
    - constructor; auto. intros I. destruct (chainI_sub t p l i H I) as (l' & A & B).
      assert (l' = i :: l) by (eapply chainI_det; eauto; econstructor; eauto). subst. cbn in B. lia.
  Qed.
  Lemma chainI_in t i l j : chainI t i l -> In j l -> (j < length t)%nat.
  Proof. intros H. induction H as [i n E P|i n p l E P H IH]; intros [<-|I]; eauto using nth_error_lt. destruct I. Qed.
  Lemma chainI_len t i l : chainI t i l -> (length l <= length t)%nat.
  Proof.
    intros H. rewrite <- (seq_length (length t) 0). apply NoDup_incl_length; [eapply chainI_nodup; eauto|].
    intros j I. apply in_seq. pose proof (chainI_in t i l j H I). lia.
  Qed.
  Lemma chain_I t i l c : chain t i l c -> exists is, chainI t i is.
  Proof. intros H. induction H as [i n E P|i n p l c E P H (is & IH)]; eexists; [eapply ci_root|eapply ci_step]; eauto. Qed.
  Lemma I_chain t i is : chainI t i is -> exists l c, chain t i l c.
  Proof. intros H. induction H as [i n E P|i n p is E P H (l & c & IH)]; do 2 eexists; [eapply chain_root|eapply chain_step]; eauto. Qed.
  Lemma walk_chain t i is : chainI t i is -> forall fuel path cost, (length is <= fuel)%nat ->
    exists l c, chain t i l c /\ walk fuel t i path cost = Ok (l ++ path, cost + c).
  Proof.
    intros H. induction H as [i n E P|i n p is E P H IH]; intros fuel path cost F; (destruct fuel as [|fuel]; [cbn in F; lia|]); cbn [walk]; rewrite (get_some _ _ _ E); cbn [bind]; rewrite P.
    - exists [nv n], (cedge n). split; [econstructor; eauto|]. reflexivity.
    - destruct (IH fuel (nv n :: path) (cost + cedge n)) as (l & c & C & W); [cbn in F; lia|]. exists (l ++ [nv n]), (c + cedge n). split; [econstructor; eauto|].
      rs. rewrite W. rewrite <- app_assoc. cbn. do 2 f_equal. lra.
  Qed.
  Lemma walk_full t i l c path cost : chain t i l c -> exists l' c', chain t i l' c' /\ walk (length t) t i path cost = Ok (l' ++ path, cost + c').
  Proof. intros H. destruct (chain_I _ _ _ _ H) as (is & HI). apply (walk_chain t i is HI). eapply chainI_len; eauto. Qed.
  Lemma chain_head t i l c : chain t i l c -> exists n, nth_error t i = Some n /\ last l (nv n) = nv n /\ l <> [].
  Proof. intros H. inversion H; subst; exists n; conjs; auto; try discriminate. - now rewrite last_last. - intros E. apply app_eq_nil in E. destruct E. discriminate. Qed.
  Lemma chain_ext t t' i l c : chain t i l c -> (forall j n, nth_error t j = Some n -> nth_error t' j = Some n) -> chain t' i l c.
  Proof. intros H E. induction H; [eapply chain_root|eapply chain_step]; eauto. Qed.
End Chain.

Section NN.
  Context {V : Type} (dist : V -> V -> R).
  Local Notation NN := (_zRRTListNN dist).
  Local Notation tree := (tree R V).
  Implicit Types t : tree.
  Lemma nn_ok t vr : t <> [] -> exists d i n, NN t vr = Some (d, i) /\ nth_error t i = Some n /\ d = dist vr (nv n) /\
    forall j n', nth_error t j = Some n' -> d <= dist vr (nv n').
  Proof.
    intros NE. unfold _zRRTListNN. match goal with |- context [fold_left ?f _ ?s] => set (F := f) end.
    assert (H : (fun k b => match b with None => k = O | Some (d, i) => exists n, nth_error t i = Some n /\ d = dist vr (nv n) /\
      forall j n', (j < k)%nat -> nth_error t j = Some n' -> d <= dist vr (nv n') end) (length t) (fold_left F (List.seq 0 (length t)) None)).
    { apply fold_seq_inv; auto. intros k b Hk B. unfold F. destruct (nth_error t k) as [n|] eqn:En; [|apply nth_error_None in En; lia].
      destruct b as [(dm & i)|].
      - destruct B as (ni & Ei & Ed & B). rs. destruct (Rltb_spec (dist vr (nv n)) dm) as [X|X].
        + exists n. conjs; auto. intros j n' Hj Ej. assert (j = k \/ (j < k)%nat) as [->|J] by lia; [assert (n' = n) by congruence; subst; lra|]. specialize (B j n' J Ej). lra.
        + exists ni. conjs; auto. intros j n' Hj Ej. assert (j = k \/ (j < k)%nat) as [->|J] by lia; [assert (n' = n) by congruence; subst; lra|]. exact (B j n' J Ej).
      - subst k. exists n. conjs; auto. intros j n' Hj Ej. assert (j = O) by lia. subst. assert (n' = n) by congruence. subst. lra. }
    cbv beta in H. destruct (fold_left F (List.seq 0 (length t)) None) as [(d & i)|].
    - destruct H as (n & E & Ed & B). exists d, i, n. conjs; auto. intros j n' Ej. apply (B j n'); auto. eapply nth_error_lt; eauto.
    - destruct t; [congruence|discriminate].
  Qed.

End NN.
Section Grow.
  Context {V : Type} (tol eps : R) (HT : 0 <= tol) (HE : 0 < eps) (dist : V -> V -> R) (ext : V -> V -> R -> V) (coll : V -> bool).
  Context (HM : metric dist) (HX : towards eps dist ext).
  Local Notation NN := (_zRRTListNN dist).
  Local Notation grow := (_zRRTListExtend tol eps dist ext coll).
  Local Notation tree := (tree R V).
  Local Notation rrt := (rrt_tree eps dist coll).
  Implicit Types t : tree.

  Lemma add_ok t v c p np : nth_error t p = Some np -> _zRRTListAddNode t v c (Some p) = Ok (t ++ [Nd v c (ctotal np + c) (Some p)]).
  Proof. intros E. unfold _zRRTListAddNode. rewrite (get_some _ _ _ E). reflexivity. Qed.

  (** one extension *)
  Lemma grow_ok t vr : t <> [] -> exists ret t', grow t vr = Ok (ret, t') /\
    match ret with
    | NOP => t' = t /\ exists i n, nth_error t i = Some n /\ dist vr (nv n) <= tol
    | TRAPPED => t' = t
    | _ => exists ve i np, nth_error t i = Some np /\ (forall j n, nth_error t j = Some n -> dist vr (nv np) <= dist vr (nv n)) /\
        t' = t ++ [Nd ve (dist (nv np) ve) (ctotal np + dist (nv np) ve) (Some i)] /\ dist (nv np) ve <= eps /\ free coll ve /\
        (ret = REACHED -> ve = vr) /\ (ret = ADVANCED -> eps <= dist vr (nv np) /\ dist vr ve = dist vr (nv np) - eps)
    end.
  Proof.
    intros NE. unfold _zRRTListExtend. destruct (nn_ok dist t vr NE) as (d & i & n & En & Ei & Ed & Min). rewrite En. destruct HM as (M1 & M2 & M3 & M4).
    rewrite is_tol_R. destruct (Rleb_spec (Rabs d) tol) as [X|X].
    - eexists NOP, t. split; [reflexivity|]. split; auto. exists i, n. split; auto. rewrite <- Ed. rewrite Rabs_pos_eq in X; auto. rewrite Ed. auto.
    - rewrite (get_some _ _ _ Ei). cbn [bind]. unfold _zRRTListExtendTest. rs. destruct (Rltb_spec d eps) as [Y|Y].
      + destruct (coll vr) eqn:Ec.
        * eexists TRAPPED, t. split; reflexivity.
        * rewrite (add_ok _ _ _ _ _ Ei). cbn [bind]. eexists REACHED, _. split; [reflexivity|]. exists vr, i, n. rewrite Ed, (M2 vr). rewrite Ed, (M2 vr) in Y. conjs; auto; try lra; try discriminate.
          intros j n' Ej. specialize (Min j n' Ej). rewrite Ed, (M2 vr (nv n)) in Min. exact Min.
      + assert (Dn : dist (nv n) vr = d) by (rewrite Ed; apply M2). destruct (HX (nv n) vr) as (X1 & X2); [lra|].
        rewrite Dn in X1, X2. set (ve := ext (nv n) vr (eps / d)) in *. destruct (coll ve) eqn:Ec.
        * eexists TRAPPED, t. split; reflexivity.
        * rewrite (add_ok _ _ _ _ _ Ei). cbn [bind]. eexists ADVANCED, _. split; [reflexivity|]. exists ve, i, n. rewrite X1, <- Ed. conjs; auto; try lra; try discriminate.
          intros _. split; [lra|]. rewrite (M2 vr ve). lra.
  Qed.
  Lemma rrt_ne start t : rrt start t -> t <> [].
  Proof. intros (H & _) ->. discriminate. Qed.
  Lemma rrt_app start t ve i np : rrt start t -> nth_error t i = Some np -> dist (nv np) ve <= eps -> free coll ve ->
    rrt start (t ++ [Nd ve (dist (nv np) ve) (ctotal np + dist (nv np) ve) (Some i)]).
  Proof.
    intros HR Ei D F. pose proof (rrt_ne _ _ HR) as NE. assert (L : (0 < length t)%nat) by (destruct t; [congruence|cbn; lia]). destruct HR as (R0 & R1). split.
    - rewrite nth_error_app1; auto.
    - intros j n Ej Hj. rewrite nth_error_app_last in Ej. destruct (Nat.eqb_spec j (length t)) as [->|N].
      + injection Ej as <-. exists i, np. pose proof (nth_error_lt _ _ _ Ei). rewrite nth_error_app1 by auto. cbn. conjs; auto.
      + destruct (R1 j n Ej Hj) as (p & n' & A1 & A2 & A3 & A4). exists p, n'. pose proof (nth_error_lt _ _ _ A3). rewrite nth_error_app1 by auto. conjs; auto; apply A4.
  Qed.
  Lemma grow_tree start t vr : rrt start t -> exists ret t', grow t vr = Ok (ret, t') /\ rrt start t' /\ (exists new, t' = t ++ new /\ (length new <= 1)%nat) /\
    match ret with ADVANCED | REACHED => exists n, nth_error t' (length t) = Some n /\ length t' = S (length t) /\ (ret = REACHED -> nv n = vr) | _ => t' = t end.
  Proof.
    intros HR. destruct (grow_ok t vr (rrt_ne _ _ HR)) as (ret & t' & E & H). exists ret, t'. split; auto.
    destruct ret; try destruct H as (ve & i & np & A1 & A2 & -> & A4 & A5 & A6 & A7); try (destruct H as (-> & H)); subst; conjs; auto; try (exists []; rewrite app_nil_r; split; auto; fail).
    all: try (apply rrt_app; auto). all: try (eexists; split; [reflexivity|cbn; lia]).
    all: eexists; rewrite nth_error_app_last, Nat.eqb_refl, app_length; split; [reflexivity|]; split; [cbn; lia|]; intros E'; try discriminate; now apply A6.
  Qed.

  (** chains of such a tree *)
  Definition good_path (start : V) (l : list V) (c : R) : Prop :=
    hd_error l = Some start /\ linked (short eps dist) l /\ c = path_length dist l /\ forall v, In v (tl l) -> free coll v.
  Lemma linked_snoc (L : V -> V -> Prop) l a b : linked L (l ++ [a]) -> L a b -> linked L ((l ++ [a]) ++ [b]).
  Proof. induction l as [|x l IH]; intros H Lb; cbn in *; auto. destruct (l ++ [a]) eqn:E; [destruct l; discriminate|]. destruct H as (H1 & H2). cbn. split; auto. apply IH; auto. Qed.
  Lemma length_snoc l a b : path_length dist ((l ++ [a]) ++ [b]) = path_length dist (l ++ [a]) + dist a b.
  Proof. induction l as [|x l IH]; cbn in *; [lra|]. destruct (l ++ [a]) eqn:E; [destruct l; discriminate|]. cbn. cbn in IH. rewrite IH. lra. Qed.
  Lemma chain_snoc t i l c : chain t i l c -> exists l0 n, nth_error t i = Some n /\ l = l0 ++ [nv n].
  Proof. intros H. inversion H; subst; [exists [], n|exists l0, n]; auto. Qed.
  Lemma chain_good start t i l c : rrt start t -> chain t i l c -> good_path start l c.
  Proof.
    intros (R0 & R1) H. induction H as [i n E P|i n p l c E P H IH].
    - destruct (Nat.eq_dec i 0) as [->|N].
      + assert (n = Nd start 0 0 None) by congruence. subst. split; cbn; auto. conjs; auto. intros v [].
      + destruct (R1 i n E ltac:(lia)) as (p & np & A & _). congruence.
    - destruct (Nat.eq_dec i 0) as [->|N].
      + assert (n = Nd start 0 0 None) by congruence. subst. discriminate.
      + destruct (R1 i n E ltac:(lia)) as (p' & np & A1 & A2 & A3 & A4 & A5 & A6 & A7). assert (p' = p) by congruence. subst p'.
        destruct IH as (I1 & I2 & I3 & I4). destruct (chain_snoc t p l c H) as (l0 & np' & E' & ->). assert (np' = np) by congruence. subst np'. split; [|conjs].
        * destruct l0; auto.
        * apply linked_snoc; auto. unfold short. lra.
        * rewrite length_snoc, <- I3, A4. reflexivity.
        * intros v Iv. destruct l0 as [|x l0]; cbn in Iv. -- destruct Iv as [<-|[]]; auto. -- rewrite in_app_iff in Iv. destruct Iv as [Iv|[<-|[]]]; auto.
  Qed.
  Lemma chain_exists start t i : rrt start t -> (i < length t)%nat -> exists l c, chain t i l c.
  Proof.
    intros (R0 & R1). induction i as [i IH] using lt_wf_ind. intros Hi. destruct (Nat.eq_dec i 0) as [->|N].
    - do 2 eexists. eapply chain_root; eauto.
    - destruct (nth_error t i) as [n|] eqn:E; [|apply nth_error_None in E; lia]. destruct (R1 i n E ltac:(lia)) as (p & np & A1 & A2 & A3 & _).
      destruct (IH p A2 ltac:(lia)) as (l & c & C). do 2 eexists. eapply chain_step; eauto.
  Qed.
  Lemma head_nth t : t <> [] -> exists h, nth_error t (length t - 1) = Some h /\ head t = Ok h.
  Proof. intros NE. destruct (nth_error t (length t - 1)) as [h|] eqn:E. - exists h. split; auto. now apply get_some. - apply nth_error_None in E. destruct t; [congruence|cbn in E; lia]. Qed.
  Lemma last_snoc (l : list V) a d : last (l ++ [a]) d = a.
  Proof. apply last_last. Qed.
  Lemma path_ok start t : rrt start t -> exists l c h, _zRRTPath t = Ok (l, c) /\ good_path start l c /\ nth_error t (length t - 1) = Some h /\ last l start = nv h.
  Proof.
    intros HR. pose proof (rrt_ne _ _ HR) as NE. destruct (head_nth t NE) as (h & Eh & _). pose proof (nth_error_lt _ _ _ Eh) as Lh.
    destruct (chain_exists start t _ HR Lh) as (l & c & C). unfold _zRRTPath. destruct (walk_full _ _ _ _ [] 0 C) as (l' & c' & C' & W). exists l', c', h.
    rs. rewrite W, app_nil_r, Rplus_0_l. conjs; auto. - now apply (chain_good start t (length t - 1)).
    - destruct (chain_snoc _ _ _ _ C') as (l0 & n & En & ->). rewrite last_snoc. congruence.
  Qed.
  Lemma find_ok goalp start samp iter : forall i t, rrt start t -> exists ret t', find_loop goalp grow samp iter i t = Ok (ret, t') /\ rrt start t' /\
    (exists new, t' = t ++ new /\ (length new <= iter)%nat) /\ (ret = true -> exists h, nth_error t' (length t' - 1) = Some h /\ goalp (nv h) = true).
  Proof.
    induction iter as [|iter IH]; intros i t HR; cbn [find_loop].
    - exists false, t. conjs; auto; [|discriminate]. exists []. rewrite app_nil_r. auto.
    - destruct (grow_tree start t (samp i) HR) as (r & t1 & E & HR1 & (new & -> & Ln) & H). rewrite E. cbn [bind].
      destruct (IH (S i) _ HR1) as (ret & t' & E' & HR' & (new' & -> & Ln') & G). destruct (head_nth _ (rrt_ne _ _ HR1)) as (h & Eh & Eh').
      assert (D : exists ret t', find_loop goalp grow samp iter (S i) (t ++ new) = Ok (ret, t') /\ rrt start t' /\
        (exists new, t' = t ++ new /\ (length new <= S iter)%nat) /\ (ret = true -> exists h, nth_error t' (length t' - 1) = Some h /\ goalp (nv h) = true)).
      { exists ret, ((t ++ new) ++ new'). conjs; auto. exists (new ++ new'). rewrite app_assoc, app_length. split; auto. lia. }
      destruct r; auto; rewrite Eh'; cbn [bind]; (destruct (goalp (nv h)) eqn:Gh; auto); exists true, (t ++ new); conjs; auto; try (exists new; split; auto; lia); eauto.
  Qed.
  Lemma init_tree start : rrt start [Nd start 0 0 None].
  Proof. split; auto. intros i n E Hi. destruct i; [lia|]. destruct i; discriminate. Qed.
  Lemma findpath_ok goalp samp start iter : exists ret t l c, zRRTFindPath tol eps dist ext coll goalp samp start iter true = Ok (ret, t, Some (l, c)) /\
    rrt start t /\ (length t <= S iter)%nat /\ good_path start l c /\ (ret = true -> goalp (last l start) = true).
  Proof.
    unfold zRRTFindPath, _zRRTFindPath. cbn [_zRRTListAddNode bind app]. destruct (find_ok goalp start samp iter O _ (init_tree start)) as (ret & t & E & HR & (new & -> & L) & G).
    rs. rewrite E. cbn [bind]. destruct (path_ok start _ HR) as (l & c & h & Ep & GP & Eh & El). rewrite Ep. cbn [bind]. exists ret. do 3 eexists. split; [reflexivity|].
    conjs; auto; [cbn; lia|]. intros Et. destruct (G Et) as (h' & Eh' & Gh). rewrite El. congruence.
  Qed.
End Grow.
