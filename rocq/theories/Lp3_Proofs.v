(** Proofs about Lemke's method (C44), continued. *)
From Coq Require Import Reals Lra Lia List Permutation.
From Verif Require Import Prelude Prelude_Proofs Scalar RealLib Fmat Fmat_Proofs LE_Model IP_Model Vop Stat_Model Stat_Proofs Curve_Proofs Eig4_Proofs Qp_Spec Lp_Model Lp_Proofs Lp2_Proofs.
Import ListNotations.
Local Open Scope R_scope.

Lemma upd_perm (l : list nat) p x : (p < length l)%nat -> Permutation (x :: l) (nth p l O :: upd l p x).
Proof.
  revert p. induction l as [|y l IH]; intros [|p] H; cbn in *; try lia.
  - apply perm_swap.
  - eapply perm_trans; [apply perm_swap|]. eapply perm_trans; [apply perm_skip, (IH p); lia|]. apply perm_swap.
Qed.
Lemma in_upd (l : list nat) p x c : NoDup l -> (p < length l)%nat -> In c (upd l p x) -> c = x \/ (In c l /\ c <> nth p l O).
Proof.
  intros ND Hp H. apply (In_nth _ _ O) in H. destruct H as (k & Hk & E). rewrite upd_length in Hk. rewrite nth_upd in E by auto.
  destruct (Nat.eqb_spec k p); [left; auto|right]. split; [subst; now apply nth_In|]. intros E'. apply n. apply (proj1 (NoDup_nth l O) ND); auto; congruence.
Qed.

Section Lemke.
  Context (n : nat) (Hn : (0 < n)%nat).
  Let N := (2 * n + 1)%nat.
  Definition comp (v : nat) : nat := ((v + n) mod (2 * n))%nat.
  Lemma comp_eq v : (v < 2 * n)%nat -> comp v = if (v <? n)%nat then (v + n)%nat else (v - n)%nat.
  Proof.
    intros H. unfold comp. destruct (Nat.ltb_spec v n).
    - apply Nat.mod_small. lia.
    - replace (v + n)%nat with (v - n + 1 * (2 * n))%nat by lia. rewrite Nat.mod_add by lia. apply Nat.mod_small. lia.
  Qed.
  Lemma comp_lt v : (v < 2 * n)%nat -> (comp v < 2 * n)%nat.
  Proof. intros. unfold comp. apply Nat.mod_upper_bound. lia. Qed.
  Lemma comp_comp v : (v < 2 * n)%nat -> comp (comp v) = v.
  Proof. intros. rewrite (comp_eq (comp v)) by now apply comp_lt. rewrite comp_eq by auto. nbp. Qed.
  Lemma comp_ne v : (v < 2 * n)%nat -> comp v <> v.
  Proof. intros H E. rewrite comp_eq in E by auto. revert E. nbp. Qed.

  Lemma enter_ok inn act ib : In act inn -> exists k, (k < length inn)%nat /\ nth k inn O = act /\ lemke_enter inn act ib = Ok (upd inn k ib).
  Proof.
    intros I. unfold lemke_enter.
    match goal with |- context [forb 0 (length inn) ?f tt] =>
      destruct (forb_inv (fun k (_ : unit) => forall j, (j < k)%nat -> nth j inn O <> act) (fun k => (k < length inn)%nat /\ nth k inn O = act) 0 (length inn) f tt) as (o & E & H); [lia| | |] end.
    - intros j Hj. lia.
    - intros k [] Hk P. rewrite (get_ok _ _ O) by lia. cbn [bind]. destruct (Nat.eqb_spec (nth k inn O) act).
      + eexists. split; [reflexivity|]. cbn. split; auto; lia.
      + eexists. split; [reflexivity|]. cbn. intros j Hj. assert (j = k \/ (j < k)%nat) as [->|] by lia; auto.
    - rewrite E. cbn [bind]. destruct o as [u|k].
      + apply (In_nth _ _ O) in I. destruct I as (k & Hk & E'). exfalso. apply (H k); auto.
      + destruct H as (Hk & E'). rewrite set_ok by auto. eauto.
  Qed.
  Lemma enter_any inn act ib : exists r, lemke_enter inn act ib = Ok r.
  Proof.
    destruct (in_dec Nat.eq_dec act inn) as [I|NI].
    - destruct (enter_ok inn act ib I) as (k & _ & _ & E). eauto.
    - unfold lemke_enter.
      match goal with |- context [forb 0 (length inn) ?f tt] =>
        destruct (forb_inv (fun k (_ : unit) => True) (fun k => (k < length inn)%nat /\ nth k inn O = act) 0 (length inn) f tt) as (o & E & H); [lia|auto| |] end.
      + intros k [] Hk P. rewrite (get_ok _ _ O) by lia. cbn [bind]. destruct (Nat.eqb_spec (nth k inn O) act); eexists; (split; [reflexivity|]); cbn; auto. split; auto; lia.
      + rewrite E. cbn [bind]. destruct o as [u|k]; [eauto|]. destruct H as (Hk & E'). exfalso. apply NI. rewrite <- E'. now apply nth_In.
  Qed.

  Lemma swap_run (l : @lemke R) p : length (lib l) = n -> (p < n)%nat -> exists in',
    _zLemkeSwap l p = Ok (Lemke (ltab l) (lp l) (upd (lib l) p (lact l)) in' (comp (bc (lib l) p)), (S (bc (lib l) p) =? nc (ltab l))%nat) /\
    lemke_enter (lin l) (comp (bc (lib l) p)) (bc (lib l) p) = Ok in'.
  Proof.
    intros L Hp. unfold _zLemkeSwap. rewrite (get_ok _ _ O) by lia. cbn [bind]. rewrite set_ok by lia. cbn [bind]. rewrite L. cbv zeta.
    change (nth p (lib l) O) with (bc (lib l) p). change ((bc (lib l) p + n) mod (2 * n))%nat with (comp (bc (lib l) p)).
    destruct (enter_any (lin l) (comp (bc (lib l) p)) (bc (lib l) p)) as (r & E). rewrite E. cbn [bind]. eauto.
  Qed.

  (** the exchange of a variable other than the artificial one *)
  Lemma swap_perm (l : @lemke R) p in' : lwf n N l -> (p < n)%nat -> In (comp (bc (lib l) p)) (lin l) ->
    lemke_enter (lin l) (comp (bc (lib l) p)) (bc (lib l) p) = Ok in' ->
    Permutation (comp (bc (lib l) p) :: upd (lib l) p (lact l) ++ in') (List.seq 0 N).
  Proof.
    intros W Hp I E. destruct (enter_ok (lin l) (comp (bc (lib l) p)) (bc (lib l) p) I) as (k & Hk & Ek & E'). rewrite E in E'. injection E' as ->.
    eapply perm_trans; [|apply (w_perm _ _ _ W)]. symmetry.
    pose proof (w_b _ _ _ W) as L.
    change (lact l :: lib l ++ lin l) with ((lact l :: lib l) ++ lin l).
    eapply perm_trans; [apply Permutation_app_tail, (upd_perm (lib l) p (lact l)); lia|].
    change (nth p (lib l) O) with (bc (lib l) p). set (v := bc (lib l) p) in *.
    change ((v :: upd (lib l) p (lact l)) ++ lin l) with (v :: upd (lib l) p (lact l) ++ lin l).
    eapply perm_trans; [apply Permutation_middle|].
    eapply perm_trans; [apply Permutation_app_head, (upd_perm (lin l) k v Hk)|]. rewrite Ek.
    symmetry. apply Permutation_middle.
  Qed.

  Context (tol : R) (Ht : 0 < tol) (T0 : nat -> nat -> R) (p0 : nat -> R).
  Definition pos_p (c0 : nat -> R) (l : @lemke R) : Prop := good n N T0 p0 c0 tol -> forall i, (i < n)%nat -> 0 <= vel (lp l) i.
  Record linv (l : @lemke R) : Prop := {
    l_wf : lwf n N l; l_val : lval n N T0 p0 l; l_art : In (2 * n)%nat (lib l);
    l_comp : forall v, In v (lib l) -> (v < 2 * n)%nat -> ~ In (comp v) (lib l);
    l_act : (lact l < 2 * n)%nat /\ ~ In (comp (lact l)) (lib l) }.
  (** the artificial variable is zero *)
  Record lfin (l : @lemke R) : Prop := {
    f_val : lval n N T0 p0 l; f_p : vlen (lp l) = n; f_art : ~ In (2 * n)%nat (lib l); f_nd : NoDup (lib l);
    f_comp : forall v, In v (lib l) -> (v < 2 * n)%nat -> ~ In (comp v) (lib l) }.

  Lemma step_ok (l : @lemke R) p c0 : linv l -> (p < n)%nat -> el (ltab l) p (lact l) <> 0 ->
    (good n N T0 p0 c0 tol -> (forall i, (i < n)%nat -> 0 <= vel (lp l) i) -> forall i, (i < n)%nat -> 0 <= pivp (el (ltab l)) (vel (lp l)) p (lact l) i) ->
    pos_p c0 l ->
    exists l1 l2 fin, _zLemkeSweep l p = Ok l1 /\ _zLemkeSwap l1 p = Ok (l2, fin) /\ pos_p c0 l2 /\ (if fin : bool then lfin l2 else linv l2).
  Proof.
    intros I Hp D PN PP. destruct I as [W V AR CO (AC & ACN)].
    destruct (sweep_ok n N T0 p0 l p W V Hp D) as (a & b & E & S1 & S2 & S3 & Ea & Eb).
    set (l1 := Lemke a b (lib l) (lin l) (lact l)) in *.
    assert (W1 : lwf n N l1). { destruct W; split; auto. }
    pose proof (lwf_nodup n N _ W) as ND. inversion ND as [|? ? NA ND']; subst. pose proof (nodup_app_l _ _ ND') as NDb.
    destruct (swap_run l1 p (w_b _ _ _ W) Hp) as (in' & E2 & EI). cbn [lib l1 lp ltab lin lact] in E2, EI.
    set (l2 := Lemke a b (upd (lib l) p (lact l)) in' (comp (bc (lib l) p))) in *.
    assert (V2 : lval n N T0 p0 l2).
    { unfold lval, l2. cbn [lib ltab lp]. apply valid_ext with (T := pivT (el (ltab l)) p (lact l)) (p := pivp (el (ltab l)) (vel (lp l)) p (lact l)); auto.
      apply piv_valid; auto. unfold N. lia. }
    assert (P2 : pos_p c0 l2).
    { intros G i Hi. unfold l2. cbn [lp]. rewrite Eb by auto. apply PN; auto. }
    pose proof (w_b _ _ _ W) as L.
    assert (NDu : NoDup (upd (lib l) p (lact l))).
    { eapply (NoDup_cons_iff (bc (lib l) p)). eapply Permutation_NoDup; [apply (upd_perm (lib l) p (lact l)); lia|]. constructor; auto. intros X. apply NA. apply in_or_app; auto. }
    assert (INu : forall c, In c (upd (lib l) p (lact l)) -> c = lact l \/ (In c (lib l) /\ c <> bc (lib l) p)) by (intros; apply in_upd; auto; lia).
    assert (CO2 : forall v, In v (upd (lib l) p (lact l)) -> (v < 2 * n)%nat -> ~ In (comp v) (upd (lib l) p (lact l))).
    { intros v Iv Hv Ic. apply INu in Iv, Ic. destruct Iv as [->|(Iv & Nv)], Ic as [Ec|(Ic & Nc)].
      - now apply comp_ne in Ec.
      - auto.
      - apply ACN. rewrite <- Ec, comp_comp by auto. auto.
      - exact (CO v Iv Hv Ic). }
    exists l1, l2, (S (bc (lib l) p) =? nc a)%nat. conjs; auto.
    destruct (Nat.eqb_spec (S (bc (lib l) p)) (nc a)) as [F|F].
    - assert (Ev : bc (lib l) p = (2 * n)%nat) by (unfold N in *; lia).
      split; auto. unfold l2. cbn [lib]. intros X. apply INu in X. rewrite Ev in X. destruct X as [X|(_ & X)]; lia.
    - assert (Iv : In (bc (lib l) p) (lib l)) by (apply bc_in; lia).
      assert (Hv : (bc (lib l) p < 2 * n)%nat).
      { assert (bc (lib l) p < N)%nat by (apply (lwf_in n N l); auto; right; apply in_or_app; auto). unfold N in *. lia. }
      assert (Ic : In (comp (bc (lib l) p)) (lin l)).
      { pose proof (comp_lt _ Hv). assert (X : In (comp (bc (lib l) p)) (lact l :: lib l ++ lin l)) by (apply (lwf_in n N l); auto; unfold N; lia).
        destruct X as [X|X]. { exfalso. apply ACN. rewrite X, comp_comp; auto. }
        apply in_app_or in X. destruct X as [X|X]; auto. exfalso. now apply (CO _ Iv Hv). }
      split; auto.
      + unfold l2. split; cbn [ltab lp lib lin lact]; auto. { now rewrite upd_length. }
        now apply swap_perm.
      + unfold l2. cbn [lib]. apply (In_nth _ _ O) in AR. destruct AR as (k & Hk & Ek). assert (k <> p). { intros ->. unfold bc in Hv. lia. }
        rewrite <- Ek. rewrite <- (nth_upd_neq (lib l) p k (lact l)) by auto. apply nth_In. now rewrite upd_length.
      + unfold l2. cbn [lact lib]. split; [now apply comp_lt|]. rewrite comp_comp by auto. intros X. apply INu in X. destruct X as [X|(_ & X)]; [|lia].
        apply NA. rewrite <- X. apply in_or_app. auto.
  Qed.

  Lemma pivot_ok (l : @lemke R) : lwf n N l -> exists r, _zLemkePivot tol l = Ok r /\
    match r with None => True | Some p => (p < n)%nat /\ tol <= el (ltab l) p (lact l) /\
      forall i, (i < n)%nat -> tol <= el (ltab l) i (lact l) -> vel (lp l) p / el (ltab l) p (lact l) <= vel (lp l) i / el (ltab l) i (lact l) end.
  Proof.
    intros W. assert (Ha : (lact l < N)%nat) by (apply (lwf_in n N l); auto; now left). destruct W as [W1 W2 W3 W4 _].
    unfold _zLemkePivot.
    match goal with |- context [for_ 0 (vlen (lp l)) ?f None] =>
      destruct (for_inv (fun k (s : option (R * nat)) => match s with
        | None => forall i, (i < k)%nat -> ~ tol <= el (ltab l) i (lact l)
        | Some (pm, p) => (p < k)%nat /\ tol <= el (ltab l) p (lact l) /\ pm = vel (lp l) p / el (ltab l) p (lact l) /\
           forall i, (i < k)%nat -> tol <= el (ltab l) i (lact l) -> pm <= vel (lp l) i / el (ltab l) i (lact l) end) 0 (vlen (lp l)) f None) as (s & E & P); [lia| | |] end.
    - intros i Hi. lia.
    - intros k s Hk P. rewrite mget_ok by lia. cbn [bind]. rs. destruct (Rltb_spec (el (ltab l) k (lact l)) tol) as [Lt|Ge].
      + eexists. split; [reflexivity|]. destruct s as [(pm, p)|].
        * destruct P as (A & B & C & D). conjs; auto. intros i Hi Hti. assert (i = k \/ (i < k)%nat) as [->|] by lia; auto. lra.
        * intros i Hi. assert (i = k \/ (i < k)%nat) as [->|] by lia; auto. lra.
      + rewrite vget_ok by lia. cbn [bind]. cbv zeta. destruct s as [(pm, p)|].
        * destruct P as (A & B & C & D). destruct (Rltb_spec (vel (lp l) k / el (ltab l) k (lact l)) pm) as [L2|G2]; eexists; (split; [reflexivity|]); cbv beta iota; conjs; auto; try lra.
          -- intros i Hi Hti. assert (i = k \/ (i < k)%nat) as [->|] by lia; [lra|]. specialize (D i H Hti). lra.
          -- intros i Hi Hti. assert (i = k \/ (i < k)%nat) as [->|] by lia; [lra|]. now apply D.
        * eexists; split; [reflexivity|]. cbv beta iota. conjs; auto; try lra. intros i Hi Hti. assert (i = k \/ (i < k)%nat) as [->|] by lia; [lra|]. exfalso. now apply (P i).
    - rewrite E. cbn [bind]. exists (option_map snd s). split; auto. destruct s as [(pm, p)|]; cbn; auto.
      destruct P as (A & B & C & D). conjs; auto; try lia. intros i Hi Hti. rewrite <- C. apply D; auto. lia.
  Qed.

  Lemma iter_ok c0 : forall fuel l, linv l -> pos_p c0 l -> exists r, _zLemkeIter tol fuel l = Ok r /\
    match r with Done l' => lfin l' /\ pos_p c0 l' | _ => True end.
  Proof.
    induction fuel as [|fuel IH]; intros l I P; cbn [_zLemkeIter].
    - eexists. split; [reflexivity|]. exact Logic.I.
    - destruct (pivot_ok l (l_wf _ I)) as (r & E & Q). rewrite E. cbn [bind]. destruct r as [p|]; [|eexists; split; [reflexivity|exact Logic.I]].
      destruct Q as (Hp & Q1 & Q2).
      destruct (step_ok l p c0 I Hp) as (l1 & l2 & fin & E1 & E2 & P2 & F); auto; [lra| |].
      { intros G PP. apply piv_nonneg; auto; try lra. intros i Hi Hpos. apply Q2; auto.
        destruct (G _ _ _ (l_val _ I)) as (A & _ & _). destruct (A i (lact l) Hi) as [Z|Z]; try lra.
        - apply (lwf_in n N l (lact l) (l_wf _ I)). now left.
        - rewrite Rabs_pos_eq in Z; lra. }
      rewrite E1. cbn [bind]. rewrite E2. cbn [bind]. destruct fin.
      + eexists. split; [reflexivity|]. split; assumption.
      + now apply IH.
  Qed.
End Lemke.
