(** Convex combinations, end points, default knots, change of the parameter. *)
From Coq Require Import Reals Lra Lia.
From Coquelicot Require Import Coquelicot.
From Verif Require Import Prelude Prelude_Proofs Scalar RealLib Fmat Fmat_Proofs Misc_Model Misc_Proofs IP_Model IP_Proofs Nurbs_Model Nurbs_Spec Nurbs_Proofs Nurbs2_Proofs Nurbs3_Proofs Nurbs4_Proofs.
Local Open Scope R_scope.
Local Notation U n := (vel (bp_knot (nb_param n))).
Local Notation ord n := (bp_order (nb_param n)).

Definition lam n s (t : R) (i : nat) := span (U n) s (ord n) i t.
Lemma lam_weights n nc m s t : cgood n nc m -> (ord n <= s < nc)%nat -> U n s < U n (S s) -> U n s <= t <= U n (S s) -> weights nc (lam n s t).
Proof.
  intros G Hs L Ht. pose proof (good_K _ _ _ G) as EK. destruct G as ((_ & M & _) & _). split.
  - intros i Hi. eapply span_nonneg; eauto; lia.
  - rewrite (window nc (s - ord n) (S (ord n))); [|lia|intros i Hi; apply span_out; lia].
    eapply span_sum; eauto; lia.
Qed.
Lemma bval_lam n nc m s c t : cgood n nc m -> (ord n <= s < nc)%nat -> bval n s 0 c t = rsum nc (fun i => lam n s t i * cp n c i).
Proof.
  intros G Hs. rewrite (window nc (s - ord n) (S (ord n))); [reflexivity|lia|]. intros i Hi. unfold lam. rewrite span_out by lia. ring.
Qed.
Lemma den_lam n nc m s t : cgood n nc m -> (ord n <= s < nc)%nat -> den n s 0 t = rsum nc (fun i => wt n i * lam n s t i).
Proof.
  intros G Hs. rewrite (window nc (s - ord n) (S (ord n))); [reflexivity|lia|]. intros i Hi. unfold lam. rewrite span_out by lia. ring.
Qed.
Lemma num_lam n nc m s c t : cgood n nc m -> (ord n <= s < nc)%nat -> num n s 0 c t = rsum nc (fun i => wt n i * lam n s t i * cp n c i).
Proof.
  intros G Hs. rewrite (window nc (s - ord n) (S (ord n))); [|lia|].
  - apply rsum_ext. intros. unfold lam. cbn [dspan]. ring.
  - intros i Hi. unfold lam. rewrite span_out by lia. ring.
Qed.
Lemma weights_delta nc l k f : weights nc l -> (k < nc)%nat -> l k = 1 -> rsum nc (fun i => l i * f i) = f k.
Proof.
  intros [P S1] Hk E. assert (Z : forall i, (i < nc)%nat -> i <> k -> l i = 0).
  { intros i Hi N.
    assert (Z0 : rsum nc (fun q => if (q =? k)%nat then 0 else l q) = 0).
    { rewrite (rsum_ext nc _ (fun q => l q - if (q =? k)%nat then l k else 0)).
      - rewrite rsum_sub, S1. rewrite (rsum_delta nc k); auto; [rewrite Nat.eqb_refl, E; ring|]. intros q Hq Nq. destruct (Nat.eqb_spec q k); tauto.
      - intros q Hq. destruct (Nat.eqb_spec q k) as [->|]; ring. }
    pose proof (rsum_nonneg_0 nc (fun q => if (q =? k)%nat then 0 else l q) ltac:(intros q Hq; cbv beta; destruct (q =? k)%nat; [apply Rle_refl|auto]) Z0 i Hi) as G. cbv beta in G.
    destruct (Nat.eqb_spec i k); [tauto|auto]. }
  rewrite (rsum_delta nc k); auto; [rewrite E; ring|]. intros i Hi N. rewrite Z by auto. ring.
Qed.
(** ** default knots *)
Definition defk (order nc j : nat) : R := INR (Nat.min j nc - order).
Lemma setknot_ok (p : @bparam R) i x : (i < vlen (bp_knot p))%nat ->
  setknot p i x = Ok (BP (bp_order p) (FV (vlen (bp_knot p)) (fun k => if (k =? i)%nat then x else vel (bp_knot p) k))).
Proof. intros H. unfold setknot. rewrite vset_ok by auto. reflexivity. Qed.
Lemma knot_init_ok order nc : (order < nc)%nat -> exists p : bparam, zBSplineParamKnotInit (zBSplineParamAlloc order nc) = Ok p /\
  bp_order p = order /\ vlen (bp_knot p) = (nc + order + 1)%nat /\ forall j, (j < nc + order + 1)%nat -> vel (bp_knot p) j = defk order nc j.
Proof.
  intros H. unfold zBSplineParamKnotInit.
  assert (EC : @cpnum R (zBSplineParamAlloc order nc) = nc) by (unfold cpnum; cbn; lia). rewrite EC. cbn [bp_order zBSplineParamAlloc].
  rewrite Nat.max_r by lia. set (K := (nc + order + 1)%nat).
  set (P := fun k (p : @bparam R) => bp_order p = order /\ vlen (bp_knot p) = K /\ forall j, (j < k)%nat -> (j < K)%nat -> vel (bp_knot p) j = defk order nc j).
  assert (ST : forall k p x, (k < K)%nat -> P k p -> x = defk order nc k -> exists p', setknot p k x = Ok p' /\ P (S k) p').
  { intros k p x Hk (O & L & Q) ->. rewrite setknot_ok by lia. eexists. split; [reflexivity|]. split; [exact O|]. split; [exact L|].
    intros j H1 H2. cbn [bp_knot vel]. destruct (Nat.eqb_spec j k) as [->|]; auto. apply Q; lia. }
  destruct (for_inv P 0 (S order) (fun j p => setknot p j 0) (zBSplineParamAlloc order nc)) as (p1 & E1 & Q1); [lia| | |].
  { split; [reflexivity|]. split; [reflexivity|]. intros; lia. }
  { intros k p Hk Hp. apply ST; auto; [unfold K; lia|]. unfold defk. replace (Nat.min k nc - order)%nat with 0%nat by lia. reflexivity. }
  change (@s0 R RealS) with 0. rewrite E1. cbn [bind].
  match goal with |- context [for_ (S order) (S nc) ?f p1] => destruct (for_inv P (S order) (S nc) f p1) as (p2 & E2 & Q2) end; [lia|auto| |].
  { intros k p Hk Hp. rewrite knot_ok by (destruct Hp as (_ & L & _); rewrite L; unfold K; lia). cbn [bind sadd s1 RealS]. apply ST; auto; [unfold K; lia|].
    destruct Hp as (_ & L & Q). rewrite Q by (unfold K; lia). unfold defk. rewrite <- S_INR. f_equal. lia. }
  rewrite E2. cbn [bind]. assert (LK : vlen (bp_knot p2) = K) by apply Q2. rewrite LK.
  match goal with |- context [for_ (S nc) K ?f p2] => destruct (for_inv P (S nc) K f p2) as (p3 & E3 & Q3) end; [unfold K; lia|auto| |].
  { intros k p Hk Hp. rewrite knot_ok by (destruct Hp as (_ & L & _); rewrite L; lia). cbn [bind]. apply ST; auto; [lia|].
    destruct Hp as (_ & L & Q). rewrite Q by lia. unfold defk. f_equal. lia. }
  exists p3. split; auto. destruct Q3 as (A & B & Q). split; [|split]; auto.
Qed.
Lemma defk_mono order nc i : defk order nc i <= defk order nc (S i).
Proof. apply le_INR. lia. Qed.
(** ** change of the parameter *)
Section Affine.
  Variables (p p' : @bparam R) (a b : R).
  Hypothesis (Hb : 0 < b) (HO : bp_order p' = bp_order p) (HL : vlen (bp_knot p') = vlen (bp_knot p)).
  Hypothesis HU : forall i, (i < vlen (bp_knot p))%nat -> vel (bp_knot p') i = a + b * vel (bp_knot p) i.
  Lemma knot_aff i : knot p' i = rmap (fun x => a + b * x) (knot p i).
  Proof. unfold knot, vget. rewrite HL. destruct (Nat.ltb_spec i (vlen (bp_knot p))); [|reflexivity]. cbn [rmap]. rewrite HU by auto. reflexivity. Qed.
  Lemma aff_lt x y : Rltb (a + b * x) (a + b * y) = Rltb x y.
  Proof. destruct (Rltb_spec x y); destruct (Rltb_spec (a + b * x) (a + b * y)); auto; exfalso; nra. Qed.
  Lemma aff_eq x y : Reqb (a + b * x) (a + b * y) = Reqb x y.
  Proof. destruct (Reqb_spec x y); destruct (Reqb_spec (a + b * x) (a + b * y)); auto; exfalso; nra. Qed.
  Lemma skip_up_aff f i : skip_up f p' i = skip_up f p i.
  Proof.
    revert i. induction f as [|f IH]; intros i; [reflexivity|]. cbn [skip_up]. rewrite !knot_aff.
    destruct (knot p (S i)); [|reflexivity]. cbn [rmap bind]. destruct (knot p i); [|reflexivity]. cbn [rmap bind seq RealS]. rewrite aff_eq, IH. reflexivity.
  Qed.
  Lemma skip_down_aff f i : skip_down f p' i = skip_down f p i.
  Proof.
    revert i. induction f as [|f IH]; intros i; [reflexivity|]. destruct i as [|i]; [reflexivity|]. cbn [skip_down]. rewrite !knot_aff.
    destruct (knot p i); [|reflexivity]. cbn [rmap bind]. destruct (knot p (S i)); [|reflexivity]. cbn [rmap bind seq RealS]. rewrite aff_eq, IH. reflexivity.
  Qed.
  Lemma seg_aff t : zBSplineParamSeg p' (a + b * t) = zBSplineParamSeg p t.
  Proof.
    unfold zBSplineParamSeg, cpnum. rewrite HL, HO. generalize (bp_order p) (vlen (bp_knot p) - bp_order p - 1)%nat.
    assert (G : forall f i j, seg_loop f p' (a + b * t) i j = seg_loop f p t i j); [|auto].
    induction f as [|f IH]; intros i j; [reflexivity|]. cbn [seg_loop]. rewrite HL, skip_up_aff.
    destruct (skip_up _ p i) as [i'|]; [|reflexivity]. cbn [bind]. rewrite skip_down_aff. destruct (skip_down _ p j) as [j'|]; [|reflexivity]. cbn [bind].
    destruct (j' <=? i' + 1)%nat; auto. rewrite knot_aff. destruct (knot p ((i' + j') / 2)); [|reflexivity]. cbn [rmap bind slt RealS]. rewrite aff_lt, !IH. reflexivity.
  Qed.
  Lemma quot_aff x y : quot (b * x) (b * y) = quot x y.
  Proof.
    unfold quot. destruct (Req_EM_T y 0) as [->|N]; [rewrite Rmult_0_r; destruct (Req_EM_T 0 0); lra|].
    destruct (Req_EM_T (b * y) 0) as [E|]; [exfalso; apply Rmult_integral in E; lra|]. field. lra.
  Qed.
  Lemma span_aff s r i t : (i + r + 1 < vlen (bp_knot p))%nat -> span (vel (bp_knot p')) s r i (a + b * t) = span (vel (bp_knot p)) s r i t.
  Proof.
    revert i. induction r as [|r IH]; intros i H; [reflexivity|]. cbn [span]. rewrite !IH by lia. rewrite !HU by lia.
    rewrite <- (quot_aff (t - _)), <- (quot_aff (_ - t)). f_equal; f_equal; f_equal; ring.
  Qed.
End Affine.
Lemma normalize_ok tol p : (0 < vlen (bp_knot p))%nat -> let k := vel (bp_knot p) in let w := k (vlen (bp_knot p) - 1)%nat - k 0%nat in tol < Rabs w ->
  zBSplineParamKnotNormalize tol p = Ok (BP (bp_order p) (FV (vlen (bp_knot p)) (fun i => (k i + - k 0%nat) * (1 / w)))).
Proof.
  intros L k w Hw. unfold zBSplineParamKnotNormalize. rewrite knot_ok by auto. cbn [bind sadd sopp RealS]. rewrite vop1_ok by auto. cbn [bind].
  rewrite vget_ok by (cbn; lia). cbn [bind vel vlen]. fold k. replace (k (vlen (bp_knot p) - 1)%nat + - k 0%nat) with w by (unfold w; ring).
  rewrite finish_ok by auto. reflexivity.
Qed.
Lemma scale_ok tol p ks ke : (0 < vlen (bp_knot p))%nat -> let k := vel (bp_knot p) in let w := k (vlen (bp_knot p) - 1)%nat - k 0%nat in tol < Rabs w ->
  zBSplineParamKnotScale tol p ks ke = Ok (BP (bp_order p) (FV (vlen (bp_knot p)) (fun i => ks + (k i + - k 0%nat) * (1 / w) * (ke - ks)))).
Proof.
  intros L k w Hw. unfold zBSplineParamKnotScale. rewrite normalize_ok by auto. cbn [bind bp_knot sadd smul ssub RealS]. rewrite vop1_ok by auto. reflexivity.
Qed.
