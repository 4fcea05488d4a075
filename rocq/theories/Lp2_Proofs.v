(** Proofs about Lemke's method (C44). *)
From Coq Require Import Reals Lra Lia List Permutation.
From Verif Require Import Prelude Prelude_Proofs Scalar RealLib Fmat Fmat_Proofs LE_Model IP_Model Vop Stat_Model Stat_Proofs Curve_Proofs Eig4_Proofs Qp_Spec Lp_Model Lp_Proofs.
Import ListNotations.
Local Open Scope R_scope.

(** a loop that overwrites the columns listed in L of the row q *)
Lemma idx_loop {T} (m : fmat T) q L f (F : nat -> T) : NoDup L -> (forall c, In c L -> (c < nc m)%nat) -> (q < nr m)%nat ->
  (forall j m', (j < length L)%nat -> nr m' = nr m -> nc m' = nc m ->
     (forall r c, r <> q \/ ~ In c (firstn j L) -> el m' r c = el m r c) -> f j m' = mset m' q (nth j L O) (F (nth j L O))) ->
  exists m', for_ 0 (length L) f m = Ok m' /\ nr m' = nr m /\ nc m' = nc m /\
    (forall c, In c L -> el m' q c = F c) /\ (forall r c, r <> q \/ ~ In c L -> el m' r c = el m r c).
Proof.
  intros ND B Hq Hf.
  destruct (for_inv (fun k m' => nr m' = nr m /\ nc m' = nc m /\ (forall c, In c (firstn k L) -> el m' q c = F c) /\
      (forall r c, r <> q \/ ~ In c (firstn k L) -> el m' r c = el m r c)) 0 (length L) f m) as (m' & E & P); [lia| | |].
  - cbn. conjs; auto. intros c [].
  - intros k s Hk (A1 & A2 & A3 & A4). rewrite Hf by (auto; lia).
    assert (Bk : (nth k L O < nc m)%nat) by (apply B; apply nth_In; lia).
    rewrite mset_ok by lia. eexists. split; [reflexivity|]. cbn [nr nc el].
    assert (FS : firstn (S k) L = firstn k L ++ [nth k L O]).
    { clear - Hk. destruct Hk as (_ & Hk). revert k Hk. induction L as [|x L IH]; intros [|k] Hk; cbn in *; try lia; auto. f_equal. apply IH. lia. }
    rewrite FS. conjs; auto.
    + intros c Hc. rewrite Nat.eqb_refl. cbn [andb]. destruct (Nat.eqb_spec c (nth k L O)); [subst; auto|].
      apply in_app_or in Hc. destruct Hc as [Hc|[Hc|[]]]; [auto|congruence].
    + intros r c Hrc. destruct (Nat.eqb_spec r q), (Nat.eqb_spec c (nth k L O)); cbn [andb]; try (apply A4; destruct Hrc as [Hr|Hc]; [left; auto|right; intros I; apply Hc; apply in_or_app; now left]).
      exfalso. destruct Hrc as [Hr|Hc]; [auto|]. apply Hc. apply in_or_app. right. subst. now left.
  - exists m'. split; auto. rewrite firstn_all in P. exact P.
Qed.
Lemma nodup_firstn (L : list nat) j : NoDup L -> (j < length L)%nat -> ~ In (nth j L O) (firstn j L).
Proof.
  intros ND Hj I. apply (In_nth _ _ O) in I. destruct I as (k & Hk & E). rewrite firstn_length in Hk.
  assert (K : forall l (a : nat) b, (b < a)%nat -> nth b (firstn a l) O = nth b l O).
  { induction l as [|x l IH]; intros [|a] [|b] Hb; cbn; try lia; auto. apply IH. lia. }
  rewrite K in E by lia. apply (NoDup_nth L O) in E; auto; lia.
Qed.

Lemma bc_in ib k : (k < length ib)%nat -> In (bc ib k) ib.
Proof. apply nth_In. Qed.
Lemma in_bc ib c : In c ib -> exists k, (k < length ib)%nat /\ bc ib k = c.
Proof. intros H. apply (In_nth _ _ O) in H. exact H. Qed.

Lemma nodup_app_r (l l' : list nat) : NoDup (l ++ l') -> NoDup l'.
Proof. induction l as [|x l IH]; cbn; auto. intros H. inversion H; auto. Qed.
Lemma nodup_app_l (l l' : list nat) : NoDup (l ++ l') -> NoDup l.
Proof.
  induction l as [|x l IH]; cbn; intros H; [constructor|]. inversion H; subst. constructor; auto.
  intros I. apply H2. apply in_or_app; auto.
Qed.
Lemma nodup_app_dis (l l' : list nat) x : NoDup (l ++ l') -> In x l -> ~ In x l'.
Proof.
  induction l as [|y l IH]; cbn; [tauto|]. intros H [->|I] I'; inversion H; subst; auto.
  - apply H2. apply in_or_app; auto.
  - now apply IH in I'.
Qed.

Section Lem.
  Context (n N : nat).

  (** sizes and indices *)
  Record lwf (l : @lemke R) : Prop := {
    w_r : nr (ltab l) = n; w_c : nc (ltab l) = N; w_p : vlen (lp l) = n; w_b : length (lib l) = n;
    w_perm : Permutation (lact l :: lib l ++ lin l) (List.seq 0 N) }.

  Lemma lwf_nodup (l : @lemke R) : lwf l -> NoDup (lact l :: lib l ++ lin l).
  Proof. intros W. eapply Permutation_NoDup; [apply Permutation_sym, (w_perm _ W)|apply seq_NoDup]. Qed.
  Lemma lwf_in (l : @lemke R) c : lwf l -> (In c (lact l :: lib l ++ lin l) <-> (c < N)%nat).
  Proof.
    intros W. split; intros H.
    - apply (Permutation_in _ (w_perm _ W)) in H. apply in_seq in H. lia.
    - apply (Permutation_in _ (Permutation_sym (w_perm _ W))). apply in_seq. lia.
  Qed.

  Context (T0 : nat -> nat -> R) (p0 : nat -> R).
  Definition lval (l : @lemke R) : Prop := valid n N T0 p0 (lib l) (el (ltab l)) (vel (lp l)).

  Lemma sweep_ok l p : lwf l -> lval l -> (p < n)%nat -> el (ltab l) p (lact l) <> 0 ->
    exists a b, _zLemkeSweep l p = Ok (Lemke a b (lib l) (lin l) (lact l)) /\ nr a = n /\ nc a = N /\ vlen b = n /\
      (forall i j, (i < n)%nat -> (j < N)%nat -> el a i j = pivT (el (ltab l)) p (lact l) i j) /\
      (forall i, (i < n)%nat -> vel b i = pivp (el (ltab l)) (vel (lp l)) p (lact l) i).
  Proof.
    intros W V Hp D. pose proof (lwf_nodup _ W) as ND. pose proof (fun c => lwf_in l c W) as IN. destruct W as [W1 W2 W3 W4 W5].
    pose proof (v_unit _ _ _ _ _ _ _ V) as U. clear V W5.
    destruct l as [A b ib inn s]; cbn [ltab lp lib lin lact] in *. set (T := el A) in *.
    inversion ND as [|? ? Ns ND']; subst.
    assert (NDi : NoDup inn) by (eapply nodup_app_r; eauto).
    assert (Li : forall c, In c inn -> (c < nc A)%nat) by (intros c Hc; apply IN; right; apply in_or_app; auto).
    assert (Ls : (s < nc A)%nat) by (apply IN; now left).
    assert (Hpb : (p < length ib)%nat) by lia.
    set (q := bc ib p). assert (Iq : In q ib) by now apply bc_in.
    assert (Lq : (q < nc A)%nat) by (apply IN; right; apply in_or_app; auto).
    assert (Nq : ~ In q inn) by (eapply nodup_app_dis; eauto).
    assert (Nsq : s <> q). { intros E. apply Ns. apply in_or_app. left. now rewrite E. }
    assert (Nsi : ~ In s inn) by (intros I; apply Ns; apply in_or_app; auto).
    (* the columns that are not touched *)
    assert (OT : forall i c, (i < nr A)%nat -> (c < nc A)%nat -> c <> s -> c <> q -> ~ In c inn -> T i c = pivT T p s i c).
    { intros i c Hi Hc N1 N2 N3. assert (I : In c ib). { apply IN in Hc. destruct Hc as [E|Hc]; [congruence|]. apply in_app_or in Hc. tauto. }
      apply in_bc in I. destruct I as (k & Hk & E). assert (k <> p) by (intros ->; apply N2; symmetry; exact E). subst c. unfold pivT. rewrite (U p k) by lia. nbt; try lia.
      - subst i. rewrite (U p k) by lia. nbt; try lia. unfold Rdiv. ring.
      - unfold Rdiv. ring. }
    unfold _zLemkeSweep. cbn [ltab lp lib lin lact].
    rewrite mget_ok by lia. cbn [bind]. fold T.
    match goal with |- context [for_ 0 (length inn) ?f A] => destruct (idx_loop A p inn f (fun c => T p c / T p s)) as (a1 & E1 & S1 & S2 & P1 & P2); auto end.
    { intros j m' Hj R1 R2 R3. rewrite (get_ok _ _ O) by auto. cbn [bind]. assert (In (nth j inn O) inn) by now apply nth_In.
      rewrite mmod_ok by (rewrite ?R1, ?R2; auto). rewrite R3 by (right; now apply nodup_firstn). reflexivity. }
    rewrite E1. cbn [bind]. rewrite (get_ok _ _ O) by auto. cbn [bind]. change (nth p ib O) with q.
    rewrite mmod_ok, mset_ok by lia. cbn [bind]. rewrite mset_ok by (cbn; lia). cbn [bind nr nc el].
    rewrite vmod_ok, vset_ok by lia. cbn [bind].
    match goal with |- context [for_ 0 (vlen b) ?f (?a0, ?b0)] => set (a2 := a0); set (b2 := b0);
      destruct (for_inv (fun k (ab : fmat R * fvec R) => nr (fst ab) = nr A /\ nc (fst ab) = nc A /\ vlen (snd ab) = nr A /\
        (forall i c, (i < nr A)%nat -> (c < nc A)%nat -> el (fst ab) i c = if (i =? p)%nat || (i <? k)%nat then pivT T p s i c else T i c) /\
        (forall i, (i < nr A)%nat -> vel (snd ab) i = if (i =? p)%nat || (i <? k)%nat then pivp T (vel b) p s i else vel b i)) 0 (vlen b) f (a2, b2)) as ((a3 & b3) & E3 & Q); [lia| | |] end.
    - unfold a2, b2. cbn [fst snd nr nc el vlen vel]. conjs; auto.
      + intros i c Hi Hc. destruct (Nat.eqb_spec i p) as [->|Ni]; cbn [andb orb Nat.ltb Nat.leb].
        * destruct (Nat.eqb_spec c s) as [->|Nc]; cbn [andb].
          { unfold pivT. rewrite Nat.eqb_refl. rs. field. auto. }
          destruct (Nat.eqb_spec c q) as [->|Nc2]; cbn [andb].
          { rewrite P2 by (right; auto). unfold pivT. rewrite Nat.eqb_refl. reflexivity. }
          destruct (in_dec Nat.eq_dec c inn).
          { rewrite P1 by auto. unfold pivT. rewrite Nat.eqb_refl. reflexivity. }
          rewrite P2 by (right; auto). now apply OT.
        * rewrite P2 by (left; auto). reflexivity.
      + intros i Hi. unfold pivp. nbt; subst; cbn [orb]; auto; rs; auto; lia.
    - intros k (a & b') Hk (I1 & I2 & I3 & I4 & I5). cbn [fst snd] in *.
      destruct (Nat.eqb_spec k p) as [->|Nk].
      { eexists. split; [reflexivity|]. cbn [fst snd]. conjs; auto.
        - intros i c Hi Hc. rewrite I4 by auto. nbp.
        - intros i Hi. rewrite I5 by auto. nbp. }
      rewrite mget_ok by lia. cbn [bind].
      assert (Ks : el a k s = T k s). { rewrite I4 by (auto; lia). nbp. }
      rewrite Ks.
      match goal with |- context [for_ 0 (length inn) ?f a] => destruct (idx_loop a k inn f (fun c => pivT T p s k c)) as (a4 & E4 & S3 & S4 & P3 & P4); auto end.
      { intros; rewrite I2; auto. } { lia. }
      { intros j m' Hj R1 R2 R3. rewrite (get_ok _ _ O) by auto. cbn [bind]. assert (Ij : In (nth j inn O) inn) by now apply nth_In.
        pose proof (Li _ Ij) as Lj.
        rewrite mget_ok by (rewrite ?R1, ?R2; lia). cbn [bind]. rewrite (R3 p) by (left; auto).
        rewrite mmod_ok by (rewrite ?R1, ?R2; lia). rewrite (R3 k) by (right; now apply nodup_firstn).
        rewrite !I4 by lia. rewrite Nat.eqb_refl. cbn [orb]. unfold pivT. rewrite Nat.eqb_refl. nbp. }
      rewrite E4. cbn [bind]. rewrite mget_ok by lia. cbn [bind]. rewrite mset_ok by lia. cbn [bind]. rewrite mset_ok by (cbn; lia). cbn [bind nr nc el].
      rewrite vget_ok by lia. cbn [bind]. rewrite vmod_ok, vset_ok by lia. cbn [bind].
      eexists. split; [reflexivity|]. cbn [fst snd nr nc el vlen vel]. conjs; auto; try lia.
      + intros i c Hi Hc. destruct (Nat.eqb_spec i k) as [->|Ni]; cbn [andb].
        * replace ((k =? p)%nat || (k <? S k)%nat) with true by nbp.
          destruct (Nat.eqb_spec c s) as [->|Nc].
          { unfold pivT. nbt; try lia. rs. field. auto. }
          destruct (Nat.eqb_spec c q) as [->|Nc2].
          { rewrite P4 by (left; auto). rewrite I4 by lia. rewrite Nat.eqb_refl. cbn [orb]. unfold pivT. rewrite Nat.eqb_refl. unfold q. rewrite (U k p), (U p p) by lia. nbt; try lia. rs. ring. }
          destruct (in_dec Nat.eq_dec c inn).
          { now rewrite P3. }
          rewrite P4 by (right; auto). rewrite I4 by lia. replace ((k =? p)%nat || (k <? k)%nat) with false by nbp. now apply OT.
        * rewrite P4 by (left; auto). rewrite I4 by lia. nbp.
      + intros i Hi. destruct (Nat.eqb_spec i k) as [->|Ni].
        * rewrite !I5 by lia. rewrite Nat.eqb_refl. cbn [orb]. unfold pivp. rewrite Nat.eqb_refl. rs. nbp.
        * rewrite I5 by lia. nbp.
    - rewrite E3. cbn [bind]. exists a3, b3. destruct Q as (I1 & I2 & I3 & I4 & I5). cbn [fst snd] in *. split; [reflexivity|]. conjs; auto; try lia.
      + intros i j Hi Hj. rewrite I4 by lia. replace (i <? vlen b)%nat with true by nbp. now rewrite Bool.orb_true_r.
      + intros i Hi. rewrite I5 by lia. replace (i <? vlen b)%nat with true by nbp. now rewrite Bool.orb_true_r.
  Qed.
End Lem.
