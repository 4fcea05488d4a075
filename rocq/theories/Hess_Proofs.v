(** Householder's reduction to a Hessenberg matrix over the reals. *)
From Coq Require Import Reals Lra Lia Psatz.
From Verif Require Import Prelude Prelude_Proofs Scalar RealLib Fmat Fmat_Proofs LE_Model IP_Model Vop Qp_Spec Qp_Proofs
  Eig_Model Eig_Spec Eig4_Proofs Eig7_Proofs Stab_Proofs Mega5_Proofs Hess_Model.
Local Open Scope R_scope.

(** * one reflection z with |z| = 1 or z = 0 *)
Section Refl.
  Variables (n : nat) (z : nat -> R).
  Definition mz (M : nat -> nat -> R) i := rsum n (fun j => M i j * z j).
  Definition tz (M : nat -> nat -> R) j := rsum n (fun i => M i j * z i).
  Definition zmz M := rsum n (fun i => z i * mz M i).
  Definition both M i j := M i j - 2 * mz M i * z j - 2 * z i * tz M j + 4 * zmz M * z i * z j.
  Definition right_ M i j := M i j - 2 * mz M i * z j.
  Hypothesis Z1 : rsum n (fun i => z i * z i) = 1.

  Lemma tz_z M : rsum n (fun i => z i * tz M i) = zmz M.
  Proof.
    unfold zmz, tz, mz. rewrite (rsum_ext n _ (fun i => rsum n (fun k => z i * (M k i * z k)))) by (intros; now rewrite rsum_scal).
    rewrite rsum_swap. apply rsum_ext. intros k _. rewrite <- rsum_scal. apply rsum_ext. intros; ring.
  Qed.
  Lemma mz_row P M i : rsum n (fun k => P i k * mz M k) = mz (mmul n P M) i.
  Proof.
    unfold mz, mmul. rewrite (rsum_ext n _ (fun k => rsum n (fun j => P i k * M k j * z j))) by (intros; rewrite <- rsum_scal; apply rsum_ext; intros; ring).
    rewrite rsum_swap. apply rsum_ext. intros j _. now rewrite rsum_scal_r.
  Qed.
  Lemma mmul_right A B i j : mmul n A (right_ B) i j = right_ (mmul n A B) i j.
  Proof.
    unfold mmul at 1, right_.
    rewrite (rsum_ext n _ (fun k => A i k * B k j - 2 * z j * (A i k * mz B k))) by (intros; ring).
    rewrite rsum_sub, rsum_scal, mz_row. unfold mmul. ring.
  Qed.
  Lemma z_both M j : rsum n (fun k => z k * both M k j) = - tz M j + 2 * zmz M * z j.
  Proof.
    unfold both.
    rewrite (rsum_ext n _ (fun k => M k j * z k - 2 * z j * (z k * mz M k) - 2 * tz M j * (z k * z k) + 4 * zmz M * z j * (z k * z k))) by (intros; ring).
    rewrite rsum_add, !rsum_sub, !rsum_scal, Z1. fold (tz M j). fold (zmz M). ring.
  Qed.
  Lemma right_both P M i j : mmul n (right_ P) (both M) i j = right_ (mmul n P M) i j.
  Proof.
    unfold mmul at 1. unfold right_ at 1.
    rewrite (rsum_ext n _ (fun k => P i k * both M k j - 2 * mz P i * (z k * both M k j))) by (intros; ring).
    rewrite rsum_sub, rsum_scal, z_both. unfold both.
    rewrite (rsum_ext n _ (fun k => P i k * M k j - 2 * z j * (P i k * mz M k) - 2 * tz M j * (P i k * z k) + 4 * zmz M * z j * (P i k * z k))) by (intros; ring).
    rewrite rsum_add, !rsum_sub, !rsum_scal, mz_row. fold (mz P i). unfold right_. unfold mmul at 2. ring.
  Qed.
  Lemma mz_pp P i : (i < n)%nat -> orthonormal_cols n n P -> rsum n (fun k => P k i * mz P k) = z i.
  Proof.
    intros Hi O. unfold mz. rewrite (rsum_ext n _ (fun k => rsum n (fun l => z l * (P k i * P k l)))) by (intros; rewrite <- rsum_scal; apply rsum_ext; intros; ring).
    rewrite rsum_swap. rewrite (rsum_ext n _ (fun l => z l * delta i l)); [now apply delta_sum|].
    intros l Hl. rewrite rsum_scal. f_equal. now apply O.
  Qed.
  Lemma right_orth P : orthogonal n P -> orthogonal n (right_ P).
  Proof.
    intros [C W]. split; intros a b Ha Hb.
    - rewrite <- (C a b Ha Hb). unfold cdot, right_.
      rewrite (rsum_ext n _ (fun k => P k a * P k b - 2 * z b * (P k a * mz P k) - 2 * z a * (P k b * mz P k) + 4 * z a * z b * (mz P k * mz P k))) by (intros; ring).
      rewrite rsum_add, !rsum_sub, !rsum_scal, !mz_pp by auto.
      replace (rsum n (fun i => mz P i * mz P i)) with 1; [ring|].
      rewrite <- Z1. transitivity (rsum n (fun i => rsum n (fun l => z l * (P i l * mz P i)))).
      + rewrite rsum_swap. apply rsum_ext. intros l Hl. rewrite rsum_scal, mz_pp by auto. ring.
      + apply rsum_ext. intros i Hi. unfold mz at 2. rewrite (rsum_ext n _ (fun l => mz P i * (P i l * z l))) by (intros; ring). now rewrite rsum_scal.
    - rewrite <- (W a b Ha Hb). unfold rdot, right_.
      rewrite (rsum_ext n _ (fun k => P a k * P b k - 2 * mz P b * (P a k * z k) - 2 * mz P a * (P b k * z k) + 4 * mz P a * mz P b * (z k * z k))) by (intros; ring).
      rewrite rsum_add, !rsum_sub, !rsum_scal, Z1. fold (mz P a). fold (mz P b). ring.
  Qed.
End Refl.

(** * the model's step *)
Lemma acc_sum_R cnt : forall from (f : nat -> R) acc, acc_sum from cnt f acc = acc + rsum cnt (fun k => f (from + k)%nat).
Proof.
  induction cnt as [|c IH]; intros from f acc; cbn [acc_sum]; [cbn; lra|].
  rewrite IH, rsum_S_l. cbn [sadd RealS]. rewrite Nat.add_0_r.
  rewrite (rsum_ext c (fun k => f (S from + k)%nat) (fun i => f (from + S i)%nat)) by (intros; f_equal; lia). lra.
Qed.
Definition cut (from : nat) (u : nat -> R) i := if (from <=? i)%nat then u i else 0.
Lemma acc_cut n from f (u : nat -> R) : (from <= n)%nat ->
  acc_sum from (n - from) (fun j => f j * u j)%S 0 = rsum n (fun j => f j * cut from u j).
Proof.
  intros H. rewrite acc_sum_R, Rplus_0_l. etransitivity; [exact (rsum_tail n from (fun j => f j * u j) H)|].
  apply rsum_ext. intros j _. unfold cut. destruct (from <=? j)%nat; ring.
Qed.
Lemma house_ok n (m : fmat R) p from u : nr m = n -> (from <= n)%nat ->
  let z := cut from u in
  exists h, house m p from u = (h, option_map (fun p => FM (nr p) (nc p) (fun i j => if (from <=? j)%nat then
              (el p i j - (acc_sum from (n - from) (fun k => el p i k * u k)%S 0 * 2) * u j) else el p i j)) p)
    /\ nr h = nr m /\ nc h = nc m /\ forall i j, el h i j = both n z (el m) i j.
Proof.
  intros E Hf z. eexists. unfold house. rewrite E. split; [reflexivity|]. split; [reflexivity|]. split; [reflexivity|].
  intros i j. cbn [el]. rewrite ksum_R.
  cbn [sadd ssub smul s0 sofZ RealS].
  assert (A : rsum (n - from) (fun k => acc_sum from (n - from) (fun j0 => el m (from + k) j0 * u j0)%S 0 * 2 * u (from + k)%nat) = 2 * zmz n z (el m)).
  { etransitivity; [exact (rsum_tail n from (fun k => acc_sum from (n - from) (fun j0 => el m k j0 * u j0)%S 0 * 2 * u k) Hf)|].
    unfold zmz. rewrite <- rsum_scal. apply rsum_ext. intros b _. pose proof (acc_cut n from (el m b) u Hf) as A. cbn [smul RealS s0] in A |- *. rewrite A.
    unfold mz, z, cut. destruct (from <=? b)%nat; ring. }
  cbn [smul RealS s0] in A. rewrite A. clear A.
  pose proof (fun i => acc_cut n from (el m i) u Hf) as A1. pose proof (fun i => acc_cut n from (fun j => el m j i) u Hf) as A2.
  cbn [smul RealS s0] in A1, A2. rewrite !A1, !A2.
  change (rsum n (fun j0 => el m i j0 * cut from u j0)) with (mz n z (el m) i).
  change (rsum n (fun j0 => el m j0 j * cut from u j0)) with (tz n z (el m) j).
  unfold both, z, cut. destruct (from <=? i)%nat eqn:Ei, (from <=? j)%nat eqn:Ej; [destruct (j <? i)%nat|..]; ring.
Qed.
Lemma house_p n (m p : fmat R) from u : nr m = n -> (from <= n)%nat ->
  let z := cut from u in
  exists h p', house m (Some p) from u = (h, Some p') /\ nr p' = nr p /\ nc p' = nc p /\ forall i j, el p' i j = right_ n z (el p) i j.
Proof.
  intros E Hf z. destruct (house_ok n m (Some p) from u E Hf) as (h & A & _). exists h. eexists. rewrite A.
  split; [reflexivity|]. split; [reflexivity|]. split; [reflexivity|]. intros i j. cbn [el].
  pose proof (acc_cut n from (el p i) u Hf) as A1. cbn [smul RealS s0] in A1 |- *. rewrite A1.
  unfold right_, mz, z, cut. destruct (from <=? j)%nat; ring.
Qed.
Lemma house_h (m : fmat R) p from u : fst (house m p from u) = fst (house m None from u).
Proof. reflexivity. Qed.

(** * the vector of the reflection, tolerance 0 *)
Lemma cut_in from (u : nat -> R) i : (from <= i)%nat -> cut from u i = u i.
Proof. intros. unfold cut. rewrite (proj2 (Nat.leb_le _ _)) by lia. auto. Qed.
Lemma cut_out from (u : nat -> R) i : (i < from)%nat -> cut from u i = 0.
Proof. intros. unfold cut. rewrite (proj2 (Nat.leb_gt _ _)) by lia. auto. Qed.
Lemma house_vec_ok n (m : fmat R) col from u : nr m = n -> (col < from)%nat -> (from < n)%nat ->
  let z := cut from (house_vec 0 m col from u) in
  ((forall i, (i < n)%nat -> z i = 0) /\ (forall i, (from <= i < n)%nat -> el m i col = 0)) \/
  (rsum n (fun i => z i * z i) = 1 /\ forall i, (from < i < n)%nat -> el m i col - 2 * z i * tz n z (el m) col = 0).
Proof.
  intros E Hc Hf z. set (X := cut from (fun i => el m i col)).
  assert (SS : acc_sum from (n - from) (fun i => (if (from <=? i)%nat then el m i col else u i) * (if (from <=? i)%nat then el m i col else u i))%S s0 = rsum n (fun i => X i * X i)).
  { rewrite acc_sum_R. change (@s0 R RealS) with 0. rewrite Rplus_0_l. etransitivity; [exact (rsum_tail n from (fun i => (if (from <=? i)%nat then el m i col else u i) * (if (from <=? i)%nat then el m i col else u i)) (Nat.lt_le_incl _ _ Hf))|].
    apply rsum_ext. intros i _. unfold X, cut. destruct (from <=? i)%nat; ring. }
  unfold z, house_vec. rewrite E. cbv zeta. rewrite SS. set (ss := rsum n (fun i => X i * X i)) in *.
  destruct (is_tol 0 ss) eqn:Et.
  - left. apply is_tol_0 in Et.
    assert (ZX : forall i, (i < n)%nat -> X i = 0).
    { intros i Hi. assert (Q : X i * X i = 0) by (apply (rsum_nonneg_0 n (fun i => X i * X i)); auto; intros; nra). nra. }
    split; intros i Hi.
    + specialize (ZX i Hi). unfold X in ZX. unfold cut in *. destruct (from <=? i)%nat; auto.
    + rewrite <- (ZX i) by lia. unfold X. now rewrite cut_in by lia.
  - right.
    assert (ss0 : 0 < ss).
    { assert (0 <= ss) by (apply rsum_nonneg; intros; nra). assert (ss <> 0) by (intros Q; apply is_tol_0 in Q; congruence). lra. }
    set (x0 := el m from col). set (s := (- sgn x0 * ssqrt ss)%S).
    assert (s2 : s * s = ss). { unfold s, sgn. cbn [sopp smul ssqrt sle s0 s1 RealS]. pose proof (sqrt_sqrt ss ltac:(lra)). destruct (Rleb 0 x0); nra. }
    assert (sx : s * x0 <= 0). { unfold s, sgn. cbn [sopp smul ssqrt sle s0 s1 RealS]. pose proof (sqrt_pos ss). destruct (Rleb_spec 0 x0); nra. }
    set (D := (2 * (s - x0) * s)%R). assert (D0 : 0 < D) by (unfold D; nra).
    set (k := (1 / ssqrt (sofZ 2%Z * (s - x0) * s))%S).
    assert (kD : k * k * D = 1).
    { unfold k. cbn [sdiv s1 ssqrt sofZ smul ssub RealS]. fold D. pose proof (sqrt_sqrt D ltac:(lra)). assert (0 < sqrt D) by (apply sqrt_lt_R0; auto). rewrite <- H at 3. field. lra. }
    assert (zv : forall i, cut from (fun i0 => (if (from <=? i0)%nat then ((if (i0 =? from)%nat then (if (from <=? i0)%nat then el m i0 col else u i0) - s else if (from <=? i0)%nat then el m i0 col else u i0) * k)%S else if (from <=? i0)%nat then el m i0 col else u i0)) i = k * (X i - s * delta from i)).
    { intros i. unfold X, cut, delta. rewrite (Nat.eqb_sym i from). destruct (from <=? i)%nat eqn:Q, (Nat.eqb_spec from i); cbn [ssub smul RealS]; try ring. apply Nat.leb_gt in Q. lia. }
    cbv beta iota zeta.
    assert (Xd : rsum n (fun i => X i * delta from i) = x0) by (rewrite delta_sum by lia; unfold X; now rewrite cut_in by lia).
    assert (dd : rsum n (fun i => delta from i * delta from i) = 1) by (rewrite (delta_sum n from (delta from)) by lia; unfold delta; now rewrite Nat.eqb_refl).
    split.
    + rewrite (rsum_ext n _ (fun i => k * k * (X i * X i) - 2 * s * (k * k) * (X i * delta from i) + s * s * (k * k) * (delta from i * delta from i))) by (intros i Hi; rewrite zv; ring).
      rewrite rsum_add, rsum_sub, !rsum_scal, Xd, dd. fold ss. transitivity (k * k * D); [unfold D; rewrite <- s2; ring|exact kD].
    + intros i Hi. rewrite zv.
      assert (T : forall zz, (forall i, zz i = k * (X i - s * delta from i)) -> tz n zz (el m) col = k * (ss - s * x0)).
      { intros zz Hz. unfold tz. rewrite (rsum_ext n _ (fun i => k * (X i * X i) - s * k * (X i * delta from i))).
        - rewrite rsum_sub, !rsum_scal, Xd. fold ss. ring.
        - intros j Hj. rewrite Hz. unfold X, cut, delta. destruct (from <=? j)%nat eqn:Q, (Nat.eqb_spec from j); try ring. apply Nat.leb_gt in Q. lia. }
      rewrite (T _ zv). unfold delta. replace (from =? i)%nat with false by (symmetry; apply Nat.eqb_neq; lia).
      replace (el m i col) with (X i) by (unfold X; now rewrite cut_in by lia).
      replace (X i - 2 * (k * (X i - s * 0)) * (k * (ss - s * x0))) with (X i * (1 - k * k * (2 * (ss - s * x0)))) by ring.
      replace (2 * (ss - s * x0)) with D by (unfold D; rewrite <- s2; ring). rewrite kD. ring.
Qed.

(** * the invariant of the reduction *)
Record hinv (n : nat) (M : nat -> nat -> R) (c : nat) (h p : fmat R) : Prop := {
  hi_n : nr h = n; hi_pn : nr p = n; hi_pc : nc p = n; hi_nc : nc h = n;
  hi_orth : orthogonal n (el p);
  hi_sim : forall i j, (i < n)%nat -> (j < n)%nat -> mmul n (el p) (el h) i j = mmul n M (el p) i j;
  hi_zero : forall i j, (i < n)%nat -> (j < c)%nat -> (j + 1 < i)%nat -> el h i j = 0 }.

Lemma rdelta_l n (M : nat -> nat -> R) i j : (i < n)%nat -> rsum n (fun k => delta i k * M k j) = M i j.
Proof. intros H. rewrite (rsum_ext n _ (fun k => M k j * delta i k)) by (intros; ring). now rewrite (delta_sum n i (fun k => M k j)). Qed.

Lemma zero_both n z M i j : (forall i, (i < n)%nat -> z i = 0) -> (i < n)%nat -> (j < n)%nat -> both n z M i j = M i j.
Proof. intros Z Hi Hj. unfold both. rewrite (Z i), (Z j) by auto. ring. Qed.
Lemma zero_right n z M i j : (forall i, (i < n)%nat -> z i = 0) -> (j < n)%nat -> right_ n z M i j = M i j.
Proof. intros Z Hj. unfold right_. rewrite (Z j) by auto. ring. Qed.

Lemma hinv_step n M c h p u : (c + 2 < n)%nat -> hinv n M c h p ->
  exists h' p', house h (Some p) (S c) (house_vec 0 h c (S c) u) = (h', Some p') /\ hinv n M (S c) h' p'.
Proof.
  intros Hc [E En Ec Enc O SM Z]. set (v := house_vec 0 h c (S c) u).
  destruct (house_p n h p (S c) v E ltac:(lia)) as (h1 & p' & A & A1 & A2 & A3).
  destruct (house_ok n h (Some p) (S c) v E ltac:(lia)) as (h' & B & B1 & B1c & B2).
  assert (Q : h1 = h') by (rewrite A in B; congruence). subst h1. exists h', p'. split; [exact A|].
  pose proof (house_vec_ok n h c (S c) u E ltac:(lia) ltac:(lia)) as HV. cbv zeta in HV, A3, B2. fold v in HV. set (z := cut (S c) v) in *.
  destruct HV as [[Z0 C0]|[Z1 C1]].
  - assert (Bh : forall i j, (i < n)%nat -> (j < n)%nat -> el h' i j = el h i j) by (intros; rewrite B2; now apply zero_both).
    assert (Bp : forall i j, (i < n)%nat -> (j < n)%nat -> el p' i j = el p i j) by (intros; rewrite A3; now apply zero_right).
    constructor; try congruence.
    + destruct O as [O1 O2]. split; intros a b Ha Hb; [rewrite <- (O1 a b Ha Hb)|rewrite <- (O2 a b Ha Hb)]; unfold cdot, rdot; apply rsum_ext; intros; now rewrite !Bp.
    + intros i j Hi Hj. transitivity (mmul n (el p) (el h) i j); [apply rsum_ext; intros; now rewrite Bp, Bh|].
      rewrite (SM i j Hi Hj). apply rsum_ext. intros. now rewrite Bp.
    + intros i j Hi Hj L. rewrite Bh by lia. destruct (Nat.eq_dec j c) as [->|]; [apply C0; lia|apply Z; lia].
  - constructor; try congruence.
    + destruct (right_orth n z Z1 (el p) O) as [O1 O2].
      split; intros a b Ha Hb; [rewrite <- (O1 a b Ha Hb)|rewrite <- (O2 a b Ha Hb)]; unfold cdot, rdot; apply rsum_ext; intros; now rewrite !A3.
    + intros i j Hi Hj. transitivity (mmul n (right_ n z (el p)) (both n z (el h)) i j); [apply rsum_ext; intros; now rewrite A3, B2|].
      rewrite right_both by auto. transitivity (mmul n M (right_ n z (el p)) i j); [|apply rsum_ext; intros; now rewrite A3].
      rewrite mmul_right. unfold right_. rewrite SM by auto. f_equal. f_equal. f_equal. unfold mz. apply rsum_ext. intros k Hk. now rewrite SM by auto.
    + intros i j Hi Hj L. rewrite B2. unfold both. replace (z j) with 0 by (unfold z; now rewrite cut_out by lia).
      destruct (Nat.eq_dec j c) as [->|Nj]; [pose proof (C1 i ltac:(lia)); lra|].
      rewrite (Z i j) by lia. replace (tz n z (el h) j) with 0; [ring|]. symmetry. apply rsum_0. intros k Hk.
      destruct (Nat.lt_ge_cases k (S c)) as [L1|L1]; [unfold z; rewrite cut_out by lia; ring|rewrite (Z k j) by lia; ring].
Qed.

Lemma hess_col_0 fuel n M c h p u : (c + 2 < n)%nat -> hinv n M c h p ->
  exists h' p' u', hess_col 0 (S fuel) c h (Some p) u = Some (h', Some p', u') /\ hinv n M (S c) h' p'.
Proof.
  intros Hc I. destruct (hinv_step n M c h p u Hc I) as (h' & p' & A & I'). exists h', p'. eexists. split; [|exact I'].
  cbn [hess_col]. rewrite A. replace (forallb _ _) with true; [reflexivity|]. symmetry. apply forallb_forall. intros i Hi.
  apply in_seq in Hi. rewrite (hi_n _ _ _ _ _ I') in Hi. apply is_tol_0. apply (hi_zero _ _ _ _ _ I'); lia.
Qed.
Lemma hess_cols_0 fuel n M cnt : forall c h p u, (c + cnt + 2 = n \/ cnt = 0 /\ n <= c + 2)%nat -> hinv n M c h p ->
  exists h' p', hess_cols 0 (S fuel) cnt c h (Some p) u = Some (h', Some p') /\ hinv n M (c + cnt) h' p'.
Proof.
  induction cnt as [|cnt IH]; intros c h p u Hc I.
  - exists h, p. rewrite Nat.add_0_r. split; auto.
  - destruct (hess_col_0 fuel n M c h p u ltac:(lia) I) as (h' & p' & u' & A & I').
    cbn [hess_cols]. rewrite A. destruct (IH (S c) h' p' u' ltac:(lia) I') as (h2 & p2 & A2 & I2). exists h2, p2. split; auto.
    now replace (c + S cnt)%nat with (S c + cnt)%nat by lia.
Qed.
(** without the transformation the same matrix *)
Lemma house_none {T} {ST : Scalar T} (h p : fmat T) c u : exists h1 p1, house h None c u = (h1, None) /\ house h (Some p) c u = (h1, Some p1).
Proof. unfold house. eexists. eexists. split; reflexivity. Qed.
Lemma hess_col_none {T} {ST : Scalar T} (t : T) fuel : forall c h p u,
  match hess_col t fuel c h (Some p) u with
  | Some (h', Some _, u') => hess_col t fuel c h None u = Some (h', None, u')
  | Some (h', None, u') => False
  | None => hess_col t fuel c h None u = None
  end.
Proof.
  induction fuel as [|fuel IH]; intros c h p u; [reflexivity|]. cbn [hess_col].
  set (v := house_vec t h c (S c) u). destruct (house_none h p (S c) v) as (h1 & p1 & E1 & E2). rewrite E1, E2.
  destruct (forallb _ _); [reflexivity|]. apply IH.
Qed.
Lemma hess_cols_none {T} {ST : Scalar T} (t : T) fuel cnt : forall c h p u,
  match hess_cols t fuel cnt c h (Some p) u with
  | Some (h', Some _) => hess_cols t fuel cnt c h None u = Some (h', None)
  | Some (h', None) => False
  | None => hess_cols t fuel cnt c h None u = None
  end.
Proof.
  induction cnt as [|cnt IH]; intros c h p u; [reflexivity|]. cbn [hess_cols].
  pose proof (hess_col_none t fuel c h p u) as Q.
  destruct (hess_col t fuel c h (Some p) u) as [[[h1 [p1|]] u1]|]; [|contradiction|]; rewrite Q; [apply IH|reflexivity].
Qed.

(** * the tolerance *)
Lemma st_forallb {A} (F : R -> A -> bool) l : (forall a, st (fun t => F t a)) -> st (fun t => forallb (F t) l).
Proof. intros H. induction l as [|a l IH]; cbn [forallb]; [apply st_const|]. apply st_and; auto. Qed.
Lemma st_house_vec (m : fmat R) c f u : st (fun t => house_vec t m c f u).
Proof. unfold house_vec. cbv zeta. apply st_if; [apply st_is_tol|apply st_const|apply st_const]. Qed.
Lemma st_hess_col fuel : forall c (h : fmat R) p u, st (fun t => hess_col t fuel c h p u).
Proof.
  induction fuel as [|fuel IH]; intros c h p u; cbn [hess_col]; [apply st_const|].
  apply (st_comp (fun t => house_vec t h c (S c) u) (fun t v => let '(h, p) := house h p (S c) v in
    if forallb (fun i => is_tol t (el h i c)) (List.seq (c + 2) (nr h - (c + 2))) then Some (h, p, v) else hess_col t fuel c h p v)); [apply st_house_vec|].
  intros v. destruct (house h p (S c) v) as [h1 p1]. apply st_if; [|apply st_const|apply IH].
  apply (st_forallb (fun t i => is_tol t (el h1 i c))). intros; apply st_is_tol.
Qed.
Lemma st_hess_cols fuel cnt : forall c (h : fmat R) p u, st (fun t => hess_cols t fuel cnt c h p u).
Proof.
  induction cnt as [|cnt IH]; intros c h p u; cbn [hess_cols]; [apply st_const|].
  apply (st_comp (fun t => hess_col t fuel c h p u) (fun t o => match o with None => None | Some (h, p, u) => hess_cols t fuel cnt (S c) h p u end)); [apply st_hess_col|].
  intros [[[h1 p1] u1]|]; [apply IH|apply st_const].
Qed.
Lemma st_hess fuel (m : fmat R) h p : st (fun t => zMatToHessenberg t fuel m h p).
Proof.
  unfold zMatToHessenberg. repeat (apply st_if; [apply st_const|apply st_const|]).
  apply (st_map (fun o => match o with None => HessEndless | Some (h, p) => Hess h p end)). apply st_hess_cols.
Qed.

Lemma hinv_0 n (m : fmat R) : nr m = n -> nc m = n -> hinv n (el m) 0 m (ident n).
Proof.
  intros E Ec. constructor; auto; try reflexivity; change (el (ident n)) with delta.
  - split; intros a b Ha Hb; unfold cdot, rdot.
    + rewrite (rsum_ext n _ (fun k => delta k b * delta a k)) by (intros; unfold delta; rewrite (Nat.eqb_sym i a); ring). now rewrite (delta_sum n a (fun k => delta k b)).
    + rewrite (rsum_ext n _ (fun k => delta b k * delta a k)) by (intros; ring). rewrite (delta_sum n a (fun k => delta b k)) by auto. unfold delta. now rewrite Nat.eqb_sym.
  - intros i j Hi Hj. unfold mmul. rewrite rdelta_l by auto.
    rewrite (rsum_ext n _ (fun k => el m i k * delta j k)) by (intros; unfold delta; now rewrite Nat.eqb_sym). now rewrite (delta_sum n j).
  - intros; lia.
Qed.

Theorem hess_ok fuel (m : fmat R) h0 p0 : nr m = nc m ->
  (forall h, h0 = Some h -> nr h = nr m /\ nc h = nc m) -> (forall p, p0 = Some p -> nr p = nr m /\ nc p = nc m) ->
  exists h p, zMatToHessenberg 0 (S fuel) m h0 p0 = Hess h (option_map (fun _ => p) p0) /\ hinv (nr m) (el m) (nr m - 2) h p.
Proof.
  intros E H0 P0. unfold zMatToHessenberg. rewrite E, Nat.eqb_refl. cbn [negb].
  replace (match h0 with Some h => _ | None => false end) with false
    by (destruct h0 as [h|]; auto; destruct (H0 h eq_refl) as [-> ->]; now rewrite E, Nat.eqb_refl).
  replace (match p0 with Some h => _ | None => false end) with false
    by (destruct p0 as [p|]; auto; destruct (P0 p eq_refl) as [-> ->]; now rewrite E, Nat.eqb_refl).
  destruct (hess_cols_0 fuel (nc m) (el m) (nc m - 2) 0 m (ident (nc m)) (fun _ => 0) ltac:(lia) (hinv_0 _ m E eq_refl)) as (h & p & A & I).
  cbn [Nat.add] in I. exists h, p. split; [|exact I].
  destruct p0 as [p0|]; cbn [option_map].
  - change (fun _ : nat => @s0 R RealS) with (fun _ : nat => 0). now rewrite A.
  - pose proof (hess_cols_none 0 (S fuel) (nc m - 2) 0 m (ident (nc m)) (fun _ => 0)) as Q. rewrite A in Q.
    change (fun _ : nat => @s0 R RealS) with (fun _ : nat => 0). now rewrite Q.
Qed.
