(** Derivatives of rational curves; bounds, end points, change of the parameter. *)
From Coq Require Import Reals Lra Lia.
From Coquelicot Require Import Coquelicot.
From Verif Require Import Prelude Prelude_Proofs Scalar RealLib Fmat Fmat_Proofs Misc_Model Misc_Proofs IP_Model IP_Proofs Nurbs_Model Nurbs_Spec Nurbs_Proofs Nurbs2_Proofs Nurbs3_Proofs.
Local Open Scope R_scope.
Local Notation U n := (vel (bp_knot (nb_param n))).
Local Notation ord n := (bp_order (nb_param n)).

Lemma convex_gt k (N w : nat -> R) b : (forall i, (i < k)%nat -> 0 <= N i) -> rsum k N = 1 -> (forall i, (i < k)%nat -> b < w i) -> b < rsum k (fun i => w i * N i).
Proof.
  intros HN H1 Hw. assert (E : rsum k (fun i => (w i - b) * N i) = rsum k (fun i => w i * N i) - b).
  { rewrite (rsum_ext k _ (fun i => w i * N i - b * N i)) by (intros; ring). rewrite rsum_sub, rsum_scal, H1. ring. }
  assert (Z : forall i, (i < k)%nat -> 0 <= (w i - b) * N i) by (intros i Hi; specialize (Hw i Hi); apply Rmult_le_pos; auto; lra).
  pose proof (rsum_nonneg _ _ Z) as G. destruct (Req_dec (rsum k (fun i => (w i - b) * N i)) 0) as [E0|]; [|lra].
  exfalso. pose proof (rsum_nonneg_0 _ _ Z E0) as Z0. assert (rsum k N = 0); [|lra]. apply rsum_0. intros i Hi. specialize (Z0 i Hi). specialize (Hw i Hi).
  apply Rmult_integral in Z0. destruct Z0; auto; lra.
Qed.
Lemma convex_le k (N w : nat -> R) b : (forall i, (i < k)%nat -> 0 <= N i) -> rsum k N = 1 -> (forall i, (i < k)%nat -> b <= w i) -> b <= rsum k (fun i => w i * N i).
Proof.
  intros HN H1 Hw. rewrite <- (Rmult_1_r b), <- H1, <- rsum_scal. apply rsum_le. intros i Hi. apply Rmult_le_compat_r; auto.
Qed.
Lemma den_gt n nc m s t tol : cgood n nc m -> (ord n <= s < nc)%nat -> U n s < U n (S s) -> U n s <= t <= U n (S s) -> (forall i, (i < nc)%nat -> tol < wt n i) -> tol < den n s 0 t.
Proof.
  intros G Hs L Ht Hw. pose proof (good_K _ _ _ G) as EK. destruct G as ((_ & M & _) & _).
  apply (convex_gt _ (fun k => span (U n) s (ord n) (s - ord n + k) t)).
  - intros i Hi. eapply span_nonneg; eauto; lia.
  - eapply span_sum; eauto; lia.
  - intros i Hi. apply Hw. lia.
Qed.
Lemma nurbsdiff_ok tol n nc m t s d fuel v : cgood n nc m -> vlen v = m -> (ord n <= s < nc)%nat -> U n s < t < U n (S s) ->
  0 <= tol -> (forall i, (i < nc)%nat -> tol < wt n i) -> (d <= fuel)%nat -> (d <= ord n + 1)%nat ->
  exists v', nurbs_diff tol fuel n t d v = Ok (Some v') /\ vlen v' = m /\ forall c, vel v' c = Derive_n (fun u => num n s 0 c u / den n s 0 u) d t.
Proof.
  intros G Lv Hs Ht Ht0 Hw. pose proof (good_K _ _ _ G) as EK. pose proof G as (GG & LC & LM).
  assert (Es : zBSplineParamSeg (nb_param n) t = Ok s) by (eapply seg_unique; eauto; lra).
  assert (HD : tol < Rabs (den n s 0 t)).
  { assert (tol < den n s 0 t) by (eapply den_gt; eauto; lra). rewrite Rabs_right; lra. }
  revert d v Lv. induction fuel as [|f IH]; intros d v Lv Hf Hd.
  { assert (d = 0%nat) by lia. subst d. cbn [nurbs_diff Nat.eqb]. destruct (nurbsvec_ok tol n nc m t s v) as (v' & E & L & Q); auto. rewrite E. exists v'. auto. }
  cbn [nurbs_diff]. destruct (Nat.eqb_spec d 0) as [->|Nd].
  { destruct (nurbsvec_ok tol n nc m t s v) as (v' & E & L & Q); auto. rewrite E. exists v'. auto. }
  destruct (Nat.ltb_spec (ord n + 1) d); [lia|]. rewrite ctrl_ok by lia. cbn [bind]. rewrite Es. cbn [bind].
  match goal with |- context [for_ ?lo (S s) ?g ?s0] =>
    destruct (for_inv (fun k (dv : R * fvec R) => fst dv = rsum (k - lo) (fun k => wt n (lo + k) * span (U n) s (ord n) (lo + k) t) /\ vlen (snd dv) = m /\
       forall c, vel (snd dv) c = rsum (k - lo) (fun k => wt n (lo + k) * cp n c (lo + k) * dspan (U n) d s (ord n) (lo + k) t)) lo (S s) g s0) as ((dn & v') & E & P1 & L & P2) end; [lia| | |].
  { rewrite Nat.sub_diag. cbn [fst snd]. split; [reflexivity|]. split; [exact Lv|]. intros. reflexivity. }
  { intros k [dn w] Hk (P1 & L & P2). cbn [fst snd] in *. rewrite weight_ok, basis_ok, basis_diff_ok, ctrl_ok by lia. cbn [bind smul sadd RealS].
    rewrite catNCDRC_ok by (rewrite L; apply LM; lia). cbn [bind]. eexists. split; [reflexivity|]. cbn [fst snd vlen vel].
    replace (S k - (s - ord n))%nat with (S (k - (s - ord n))) by lia. cbn [rsum]. replace (s - ord n + (k - (s - ord n)))%nat with k by lia.
    split; [rewrite P1; ring|]. split; auto. intros c. rewrite P2. unfold cp. ring. }
  rewrite E. cbn [bind fst snd] in *. replace (S s - (s - ord n))%nat with (S (ord n)) in * by lia.
  change (dn = den n s 0 t) in P1. change (forall c, vel v' c = num n s d c t) in P2. subst dn. clear E.
  set (Fc := fun c d => Derive_n (fun u => num n s 0 c u / den n s 0 u) d t).
  match goal with |- context [for_ 1 (d + 1) ?g ?s0] =>
    destruct (for_inv (fun k (vt : fvec R * fvec R) => vlen (fst vt) = m /\ vlen (snd vt) = m /\
       forall c, vel (fst vt) c = num n s d c t - rsum (k - 1) (fun q => Binomial.C d (S q) * (den n s (S q) t * Fc c (d - S q)%nat))) 1%nat (d + 1)%nat g s0) as ((v2 & tm) & E & L2 & _ & P3) end; [lia| | |].
  { cbn [fst snd vlen]. split; auto. split; [apply LM; lia|]. intros c. rewrite P2. cbn [Nat.sub rsum]. ring. }
  { intros k [w tm] Hk (Lw & Lt & Q). cbn [fst snd] in *.
    destruct (IH (d - k)%nat tm) as (tm' & Et & Lt' & Qt); auto; try lia. rewrite Et. cbn [bind].
    rewrite (den_diff_ok n nc m) by (auto; lia). cbn [bind smul sopp RealS]. rewrite zCombination_correct by lia.
    rewrite catNCDRC_ok by congruence. cbn [bind]. eexists. split; [reflexivity|]. cbn [fst snd vlen vel].
    split; [auto|]. split; auto. intros c. rewrite Q, Qt. replace (S k - 1)%nat with (S (k - 1)) by lia. cbn [rsum].
    replace (S (k - 1)) with k by lia. unfold Fc. ring. }
  rewrite E. cbn [bind fst snd] in *. rewrite is_tol_R, Rleb_false by lra. rewrite (finish_ok tol v2 _ HD). cbn [rmap].
  eexists. split; [reflexivity|]. split; [exact L2|]. intros c. cbn [vel]. rewrite P3. replace (d + 1 - 1)%nat with d by lia.
  set (Pd := fun u => U n s < u < U n (S s)).
  assert (OP : open Pd) by apply open_span.
  assert (DN : forall u, Pd u -> den n s 0 u <> 0).
  { intros u Hu. unfold Pd in Hu. assert (tol < den n s 0 u) by (eapply den_gt; eauto; lra). lra. }
  assert (HA : forall k u, Pd u -> is_derive (fun u => num n s k c u) u (num n s (S k) c u)) by (intros; eapply wsumd_derive; eauto).
  assert (HDn : forall k u, Pd u -> is_derive (den n s k) u (den n s (S k) u)) by (intros; eapply wsumd_derive; eauto).
  pose proof (leibniz Pd OP (fun d u => num n s d c u) (den n s) (fun d u => Derive_n (fun u => num n s 0 c u / den n s 0 u) d u) HA HDn) as Lb.
  rewrite (Lb) with (d := d) (u := t); [| | |exact Ht].
  - rewrite rsum_S_l. rewrite C_n_0, Nat.sub_0_r. fold (Fc c d). unfold Fc.
    assert (den n s 0 t <> 0) by (intros Z; rewrite Z, Rabs_R0 in HD; lra). field. auto.
  - intros k u Pu. apply (smooth_derive_n Pd OP k (fun u => num n s 0 c u / den n s 0 u)); auto.
    apply smooth_mult; auto; [|apply smooth_inv; auto].
    + apply (smooth_chain Pd _ (fun d u => num n s d c u)). auto.
    + apply (smooth_chain Pd _ (den n s)). auto.
  - intros u Pu. cbn [Derive_n]. field. auto.
Qed.
Lemma rcurve_span n nc m s c t : cgood n nc m -> (ord n <= s < nc)%nat ->  U n s <= t < U n (S s) ->
  rcurve (U n) (ord n) nc (wt n) (cp n c) t = num n s 0 c t / den n s 0 t.
Proof.
  intros G Hs Ht. unfold rcurve. f_equal; [|f_equal].
  - rewrite (rsum_ext nc _ (fun i => bspline (U n) (ord n) i t * (wt n i * cp n c i))) by (intros; ring).
    rewrite (wwindow n nc m s t (fun i => wt n i * cp n c i)) by auto. apply rsum_ext. intros. ring.
  - rewrite (rsum_ext nc _ (fun i => bspline (U n) (ord n) i t * wt n i)) by (intros; ring).
    rewrite (wwindow n nc m s) by auto. apply rsum_ext. intros. ring.
Qed.
