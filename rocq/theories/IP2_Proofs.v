(** Piecewise functions over the segments; cubic Hermite pieces; splines and Akima curves. *)
From Coq Require Import Reals Lra Lia.
From Verif Require Import Prelude Prelude_Proofs Scalar RealLib Fmat Fmat_Proofs LE_Model IP_Model IP_Spec IP_Proofs.
Local Open Scope R_scope.
Local Notation points := (list (R * fvec R)).

(** ** gluing *)
Lemma glue_derive (f g h : R -> R) a l e : 0 < e -> (forall t, Rabs (t - a) < e -> t < a -> h t = f t) -> (forall t, Rabs (t - a) < e -> a <= t -> h t = g t) ->
  f a = g a -> derivable_pt_lim f a l -> derivable_pt_lim g a l -> derivable_pt_lim h a l.
Proof.
  intros He Hf Hg E Df Dg eps Heps. destruct (Df eps Heps) as (d1 & D1). destruct (Dg eps Heps) as (d2 & D2).
  assert (Hd : 0 < Rmin e (Rmin d1 d2)) by (repeat apply Rmin_pos; auto; apply cond_pos).
  exists (mkposreal _ Hd). cbn. intros x Hx Hxd. pose proof (Rmin_l e (Rmin d1 d2)). pose proof (Rmin_r e (Rmin d1 d2)).
  pose proof (Rmin_l d1 d2). pose proof (Rmin_r d1 d2).
  assert (Ha : h a = g a) by (apply Hg; [rewrite Rminus_diag_eq, Rabs_R0; lra|lra]).
  destruct (Rlt_dec x 0).
  - rewrite Ha, <- E, Hf; [apply D1; auto; lra|replace (a + x - a) with x by ring; lra|lra].
  - rewrite Ha, Hg; [apply D2; auto; lra|replace (a + x - a) with x by ring; lra|lra].
Qed.
Lemma local_derive (f h : R -> R) a l e : 0 < e -> (forall t, Rabs (t - a) < e -> h t = f t) -> derivable_pt_lim f a l -> derivable_pt_lim h a l.
Proof. intros He H D. eapply (glue_derive f f h a l e); auto. Qed.

Section Pieces.
Variables (s : points) (e : R).
Hypothesis (He : 0 <= e) (A : apart e s) (Hn : (2 <= length s)%nat).
Let n := length s.
(** around a point: one piece, or the two pieces that meet at an interior knot *)
Lemma around t i : in_seg s t i ->
  (exists r, 0 < r /\ forall u, Rabs (u - t) < r -> in_seg s u i) \/
  (exists p, i = S p /\ t = knot s i /\ exists r, 0 < r /\ (forall u, Rabs (u - t) < r -> u < t -> in_seg s u p) /\ (forall u, Rabs (u - t) < r -> t <= u -> in_seg s u i)).
Proof.
  intros (H1 & H2 & H3).
  assert (UP : exists r, 0 < r /\ forall u, Rabs (u - t) < r -> (S (S i) = length s \/ u < knot s (S i))).
  { destruct H3 as [H3|H3]; [exists 1; split; [lra|auto]|]. exists (knot s (S i) - t). split; [lra|]. intros u Hu. right. apply Rabs_def2 in Hu. lra. }
  destruct UP as (r1 & R1 & U1).
  destruct i as [|p].
  - left. exists r1. split; auto. intros u Hu. split; auto.
  - destruct H2 as [H2|H2]; [lia|]. destruct (Req_EM_T t (knot s (S p))) as [E|N].
    + right. exists p. split; auto. split; auto.
      assert (K : knot s p < knot s (S p)) by (eapply knot_lt; eauto; lia).
      exists (Rmin r1 (knot s (S p) - knot s p)). split; [apply Rmin_pos; lra|].
      pose proof (Rmin_l r1 (knot s (S p) - knot s p)). pose proof (Rmin_r r1 (knot s (S p) - knot s p)).
      split; intros u Hu Hut.
      * split; [lia|]. apply Rabs_def2 in Hu. split; [right; lra|]. right. lra.
      * split; [lia|]. split; [right; lra|]. apply U1. lra.
    + left. exists (Rmin r1 (t - knot s (S p))). split; [apply Rmin_pos; lra|].
      pose proof (Rmin_l r1 (t - knot s (S p))). pose proof (Rmin_r r1 (t - knot s (S p))).
      intros u Hu. split; [lia|]. split; [right; apply Rabs_def2 in Hu; lra|]. apply U1. lra.
Qed.
Variables (F : R -> R) (P : nat -> R -> R).
Hypothesis HF : forall t i, in_seg s t i -> F t = P i t.
Hypothesis J : forall i, (S (S i) < n)%nat -> P i (knot s (S i)) = P (S i) (knot s (S i)).
Lemma piece_derive (D : nat -> R -> R) : (forall i t, (S i < n)%nat -> derivable_pt_lim (P i) t (D i t)) ->
  (forall i, (S (S i) < n)%nat -> D i (knot s (S i)) = D (S i) (knot s (S i))) ->
  forall t i, in_seg s t i -> derivable_pt_lim F t (D i t).
Proof.
  intros HD JD t i Hi. destruct (around t i Hi) as [(r & Hr & U)|(p & -> & E & r & Hr & U1 & U2)].
  - eapply local_derive; [exact Hr| |apply HD, Hi]. intros u Hu. apply HF. auto.
  - pose proof Hi as (K & _). eapply (glue_derive (P p) (P (S p))); [exact Hr| | | | |].
    + intros u Hu Hut. apply HF. auto.
    + intros u Hu Hut. apply HF. auto.
    + rewrite E. apply J. lia.
    + replace (D (S p) t) with (D p t) by (rewrite E; apply JD; unfold n; lia). apply HD. unfold n; lia.
    + apply HD. unfold n; lia.
Qed.
Lemma piece_continuous : (forall i t, (S i < n)%nat -> continuity_pt (P i) t) -> forall t i, in_seg s t i -> continuity_pt F t.
Proof.
  intros HC t i Hi. destruct (around t i Hi) as [(r & Hr & U)|(p & -> & E & r & Hr & U1 & U2)].
  - intros eps Heps. destruct (HC i t (proj1 Hi) eps Heps) as (al & Hal & Q). exists (Rmin al r). split; [apply Rmin_pos; auto|].
    intros u [Hu1 Hu2]. cbn in *. unfold R_dist in *. pose proof (Rmin_l al r). pose proof (Rmin_r al r).
    rewrite (HF u i), (HF t i); auto; [|apply U; lra]. apply Q. split; auto. lra.
  - pose proof Hi as (K & _). intros eps Heps.
    destruct (HC p t) with (eps := eps) as (al & Hal & Q); [unfold n; lia|auto|].
    destruct (HC (S p) t) with (eps := eps) as (al2 & Hal2 & Q2); [unfold n; lia|auto|].
    exists (Rmin (Rmin al al2) r). split; [repeat apply Rmin_pos; auto|].
    intros u [Hu1 Hu2]. cbn in *. unfold R_dist in *.
    pose proof (Rmin_l (Rmin al al2) r). pose proof (Rmin_r (Rmin al al2) r). pose proof (Rmin_l al al2). pose proof (Rmin_r al al2).
    rewrite (HF t (S p)) by auto. destruct (Rlt_dec u t).
    + rewrite (HF u p) by (apply U1; lra). replace (P (S p) t) with (P p t) by (rewrite E; apply J; unfold n; lia). apply Q. split; auto. lra.
    + rewrite (HF u (S p)) by (apply U2; lra). apply Q2. split; auto. lra.
Qed.
End Pieces.

(** ** cubic Hermite pieces *)
Definition herm (x0 x1 v0 v1 h u : R) : R :=
  x0 + v0 * u + (3 * (x1 - x0) / h ^ 2 - (2 * v0 + v1) / h) * u ^ 2 + (2 * (x0 - x1) / h ^ 3 + (v0 + v1) / h ^ 2) * u ^ 3.
Definition hermd (x0 x1 v0 v1 h u : R) : R :=
  v0 + 2 * (3 * (x1 - x0) / h ^ 2 - (2 * v0 + v1) / h) * u + 3 * (2 * (x0 - x1) / h ^ 3 + (v0 + v1) / h ^ 2) * u ^ 2.
Definition hermdd (x0 x1 v0 v1 h u : R) : R :=
  2 * (3 * (x1 - x0) / h ^ 2 - (2 * v0 + v1) / h) + 6 * (2 * (x0 - x1) / h ^ 3 + (v0 + v1) / h ^ 2) * u.
Lemma poly_lim a b c d k t : derivable_pt_lim (fun t => a + b * (t - k) + c * (t - k) ^ 2 + d * (t - k) ^ 3) t (b + 2 * c * (t - k) + 3 * d * (t - k) ^ 2).
Proof.
  assert (E : derivable_pt_lim (fun t => t - k) t 1).
  { replace 1 with (1 - 0) by ring. apply derivable_pt_lim_minus; [apply derivable_pt_lim_id|apply derivable_pt_lim_const]. }
  assert (E2 : derivable_pt_lim (fun t => (t - k) ^ 2) t (2 * (t - k))).
  { replace (2 * (t - k)) with (INR 2 * (t - k) ^ 1 * 1) by (cbn; ring). apply (derivable_pt_lim_comp (fun t => t - k) (fun x => x ^ 2)); auto. apply derivable_pt_lim_pow. }
  assert (E3 : derivable_pt_lim (fun t => (t - k) ^ 3) t (3 * (t - k) ^ 2)).
  { replace (3 * (t - k) ^ 2) with (INR 3 * (t - k) ^ 2 * 1) by (cbn; ring). apply (derivable_pt_lim_comp (fun t => t - k) (fun x => x ^ 3)); auto. apply derivable_pt_lim_pow. }
  replace (b + 2 * c * (t - k) + 3 * d * (t - k) ^ 2) with (0 + b * 1 + c * (2 * (t - k)) + d * (3 * (t - k) ^ 2)) by ring.
  repeat apply derivable_pt_lim_plus; try (apply derivable_pt_lim_scal; auto). apply derivable_pt_lim_const.
Qed.
Lemma herm_lim x0 x1 v0 v1 h k t : derivable_pt_lim (fun t => herm x0 x1 v0 v1 h (t - k)) t (hermd x0 x1 v0 v1 h (t - k)).
Proof. apply poly_lim. Qed.
Lemma hermd_lim x0 x1 v0 v1 h k t : derivable_pt_lim (fun t => hermd x0 x1 v0 v1 h (t - k)) t (hermdd x0 x1 v0 v1 h (t - k)).
Proof.
  eapply (local_derive (fun t => v0 + 2 * (3 * (x1 - x0) / h ^ 2 - (2 * v0 + v1) / h) * (t - k) + 3 * (2 * (x0 - x1) / h ^ 3 + (v0 + v1) / h ^ 2) * (t - k) ^ 2 + 0 * (t - k) ^ 3) _ _ _ 1); [lra| |].
  - intros. unfold hermd. ring.
  - replace (hermdd x0 x1 v0 v1 h (t - k)) with (2 * (3 * (x1 - x0) / h ^ 2 - (2 * v0 + v1) / h) + 2 * (3 * (2 * (x0 - x1) / h ^ 3 + (v0 + v1) / h ^ 2)) * (t - k) + 3 * 0 * (t - k) ^ 2) by (unfold hermdd; ring).
    apply poly_lim.
Qed.
Lemma herm_0 x0 x1 v0 v1 h : herm x0 x1 v0 v1 h 0 = x0. Proof. unfold herm. ring. Qed.
Lemma hermd_0 x0 x1 v0 v1 h : hermd x0 x1 v0 v1 h 0 = v0. Proof. unfold hermd. ring. Qed.
Lemma herm_h x0 x1 v0 v1 h : h <> 0 -> herm x0 x1 v0 v1 h h = x1. Proof. intros. unfold herm. field. auto. Qed.
Lemma hermd_h x0 x1 v0 v1 h : h <> 0 -> hermd x0 x1 v0 v1 h h = v1. Proof. intros. unfold hermd. field. auto. Qed.

(** ** evaluation of the curves *)
Section Eval.
Variables (s : points) (m : nat) (V : nat -> nat -> R) (d : ipdata R) (e : R).
Hypothesis Hd : repr s m V d.
Hypothesis Dm : dim s m.
Hypothesis (He : 0 <= e) (A : apart e s) (Hn : (2 <= length s)%nat).
Definition hp (f : R -> R -> R -> R -> R -> R -> R) i j t := f (pt s i j) (pt s (S i) j) (V i j) (V (S i) j) (gap s (S i)) (t - knot s i).
Lemma spline_eval_ok k1 k2 k3 k4 t v : vlen v = m -> exists i w, in_seg s t i /\ spline_eval k1 k2 k3 k4 d t v = Ok w /\ vlen w = m /\
  forall j, (j < m)%nat -> let h := gap s (S i) in let dt1 := (knot s (S i) - t) / h in let dt2 := (t - knot s i) / h in
    vel w j = pt s i j * k1 h dt1 dt2 + pt s (S i) j * k2 h dt1 dt2 + V i j * k3 h dt1 dt2 + V (S i) j * k4 h dt1 dt2.
Proof.
  intros Lv. unfold spline_eval. destruct (seg_ok _ _ _ _ _ t Hd He A Hn) as (i & -> & Hi). exists i. cbn [bind]. pose proof Hi as (Hi1 & _).
  replace (i + 1)%nat with (S i) by lia.
  rewrite (repr_dt _ _ _ _ Hd) by lia. rewrite !(repr_time _ _ _ _ Hd) by lia. cbn [bind].
  destruct (repr_vec _ _ _ _ Hd Dm i) as (x0 & -> & L0 & E0); [lia|].
  destruct (repr_vec _ _ _ _ Hd Dm (S i)) as (x1 & -> & L1 & E1); [lia|].
  destruct (repr_va _ _ _ _ Hd i) as (v0 & -> & La & Ea); [lia|].
  destruct (repr_va _ _ _ _ Hd (S i)) as (v1 & -> & Lb & Eb); [lia|]. cbn [bind].
  rewrite catDRC_ok by (cbn; congruence). cbn [bind]. rewrite catDRC_ok by (cbn; congruence). cbn [bind].
  rewrite catDRC_ok by (cbn; congruence). cbn [bind]. rewrite catDRC_ok by (cbn; congruence).
  eexists. split; [exact Hi|]. split; [reflexivity|]. split; [exact Lv|]. intros j Hj. cbn [vel]. rewrite E0, E1, Ea, Eb by auto. unfold zVecZero, vzero; cbn [vel]. rs. ring.
Qed.
Lemma gap_pos i : (S i < length s)%nat -> gap s (S i) <> 0.
Proof. intros Hi. assert (e < gap s (S i)) by (apply A; lia). lra. Qed.
Ltac hsolve i Hi1 := pose proof (gap_pos i Hi1); rewrite ?knot_S; unfold hp, herm, hermd, hermdd, fb1, fb2, fbv1, fbv2, fba1, fba2, sqr; rs; field; auto.
Lemma spline_vec t v : vlen v = m -> exists i w, in_seg s t i /\ zIPVecSpline d t v = Ok w /\ vlen w = m /\ forall j, (j < m)%nat -> vel w j = hp herm i j t.
Proof.
  intros Lv. destruct (spline_eval_ok (fun _ dt1 _ => fb1 dt1) (fun _ _ dt2 => fb1 dt2) (fun dt dt1 _ => (- dt * fb2 dt1)%S) (fun dt _ dt2 => (dt * fb2 dt2)%S) t v Lv) as (i & w & Hi & E & L & H).
  exists i, w. split; [auto|]. split; [exact E|]. split; auto. intros j Hj. rewrite H by auto. pose proof Hi as (Hi1 & _). hsolve i Hi1.
Qed.
Lemma spline_vel t v : vlen v = m -> exists i w, in_seg s t i /\ zIPVelSpline d t v = Ok w /\ vlen w = m /\ forall j, (j < m)%nat -> vel w j = hp hermd i j t.
Proof.
  intros Lv. destruct (spline_eval_ok (fun dt dt1 _ => (- fbv1 dt1 / dt)%S) (fun dt _ dt2 => (fbv1 dt2 / dt)%S) (fun _ dt1 _ => fbv2 dt1) (fun _ _ dt2 => fbv2 dt2) t v Lv) as (i & w & Hi & E & L & H).
  exists i, w. split; [auto|]. split; [exact E|]. split; auto. intros j Hj. rewrite H by auto. pose proof Hi as (Hi1 & _). hsolve i Hi1.
Qed.
Lemma spline_acc t v : vlen v = m -> exists i w, in_seg s t i /\ zIPAccSpline d t v = Ok w /\ vlen w = m /\ forall j, (j < m)%nat -> vel w j = hp hermdd i j t.
Proof.
  intros Lv. destruct (spline_eval_ok (fun dt dt1 _ => (fba1 dt1 / sqr dt)%S) (fun dt _ dt2 => (fba1 dt2 / sqr dt)%S) (fun dt dt1 _ => (- fba2 dt1 / dt)%S) (fun dt _ dt2 => (fba2 dt2 / dt)%S) t v Lv) as (i & w & Hi & E & L & H).
  exists i, w. split; [auto|]. split; [exact E|]. split; auto. intros j Hj. rewrite H by auto. pose proof Hi as (Hi1 & _). hsolve i Hi1.
Qed.
Ltac aki t := destruct (seg_ok _ _ _ _ _ t Hd He A Hn) as (i & -> & Hi); exists i; cbn [bind]; pose proof Hi as (Hi1 & _);
  replace (i + 1)%nat with (S i) by lia; rewrite (repr_dt _ _ _ _ Hd) by lia; rewrite !(repr_time _ _ _ _ Hd) by lia; cbn [bind];
  destruct (repr_vec _ _ _ _ Hd Dm (S i)) as (x1 & -> & L1 & E1); [lia|]; destruct (repr_vec _ _ _ _ Hd Dm i) as (x0 & -> & L0 & E0); [lia|];
  destruct (repr_va _ _ _ _ Hd i) as (v0 & -> & La & Ea); [lia|]; destruct (repr_va _ _ _ _ Hd (S i)) as (v1 & -> & Lb & Eb); [lia|]; cbn [bind];
  unfold zVecSubNC; rewrite vop2_ok by congruence; cbn [bind]; unfold zVecMulDRC, zVecMulNC; rewrite vop1_ok by reflexivity; cbn [bind];
  rewrite catNCDRC_ok by (cbn; congruence); cbn [bind]; rewrite catNCDRC_ok by (cbn; congruence); cbn [bind].
Lemma akima_vec t v : vlen v = m -> exists i w, in_seg s t i /\ zIPVecAkima d t v = Ok w /\ vlen w = m /\ forall j, (j < m)%nat -> vel w j = hp herm i j t.
Proof.
  intros Lv. unfold zIPVecAkima. aki t. unfold zVecAddNC. rewrite vop2_ok by (cbn; congruence).
  eexists. split; [exact Hi|]. split; [reflexivity|]. split; [exact Lv|]. intros j Hj. cbn [vel]. rewrite E0, E1, Ea, Eb by auto. hsolve i Hi1.
Qed.
Lemma akima_vel t v : vlen v = m -> exists i w, in_seg s t i /\ zIPVelAkima d t v = Ok w /\ vlen w = m /\ forall j, (j < m)%nat -> vel w j = hp hermd i j t.
Proof.
  intros Lv. unfold zIPVelAkima. aki t.
  eexists. split; [exact Hi|]. split; [reflexivity|]. split; [exact Lv|]. intros j Hj. cbn [vel]. rewrite E0, E1, Ea, Eb by auto. hsolve i Hi1.
Qed.
Lemma akima_acc t v : vlen v = m -> exists i w, in_seg s t i /\ zIPAccAkima d t v = Ok w /\ vlen w = m /\ forall j, (j < m)%nat -> vel w j = hp hermdd i j t.
Proof.
  intros Lv. unfold zIPAccAkima. aki t.
  eexists. split; [exact Hi|]. split; [reflexivity|]. split; [exact Lv|]. intros j Hj. cbn [vel]. rewrite E0, E1, Ea, Eb by auto. hsolve i Hi1.
Qed.

(** consequences for the component functions *)
Lemma hp_join i j : (S (S i) < length s)%nat -> hp herm i j (knot s (S i)) = hp herm (S i) j (knot s (S i)) /\ hp hermd i j (knot s (S i)) = hp hermd (S i) j (knot s (S i)).
Proof.
  intros Hi. unfold hp. replace (knot s (S i) - knot s i) with (gap s (S i)) by (rewrite knot_S; ring).
  rewrite Rminus_diag_eq by reflexivity. rewrite herm_h, hermd_h, herm_0, hermd_0 by (apply gap_pos; lia). auto.
Qed.
Variables (F G : R -> R) (j : nat).
Hypothesis HF : forall t i, in_seg s t i -> F t = hp herm i j t.
Hypothesis HG : forall t i, in_seg s t i -> G t = hp hermd i j t.
Lemma hermite_curve : (forall i, (i < length s)%nat -> F (knot s i) = pt s i j /\ G (knot s i) = V i j) /\
  (forall t, derivable_pt_lim F t (G t)) /\ (forall t, continuity_pt G t).
Proof.
  assert (SG : forall t, exists i, in_seg s t i) by (intros t; destruct (seg_ok _ _ _ _ _ t Hd He A Hn) as (i & _ & Hi); eauto).
  split; [|split].
  - intros i Hi. destruct (Nat.eq_dec (S i) (length s)) as [E|N].
    + destruct i as [|p]; [lia|]. assert (I : in_seg s (knot s (S p)) p).
      { split; [lia|]. split; [right; left; eapply knot_lt; eauto; lia|left; auto]. }
      rewrite (HF _ _ I), (HG _ _ I). unfold hp. replace (knot s (S p) - knot s p) with (gap s (S p)) by (rewrite knot_S; ring).
      rewrite herm_h, hermd_h by (apply gap_pos; lia). auto.
    + assert (I : in_seg s (knot s i) i).
      { split; [lia|]. split; [right; lra|]. right. eapply knot_lt; eauto; lia. }
      rewrite (HF _ _ I), (HG _ _ I). unfold hp. rewrite Rminus_diag_eq by reflexivity. rewrite herm_0, hermd_0. auto.
  - intros t. destruct (SG t) as (i & Hi). rewrite (HG _ _ Hi).
    apply (piece_derive s e He A Hn F (fun i t => hp herm i j t) HF) with (D := fun i t => hp hermd i j t); auto.
    + intros k Hk. apply hp_join. auto.
    + intros k u Hk. apply herm_lim.
    + intros k Hk. apply hp_join. auto.
  - intros t. destruct (SG t) as (i & Hi).
    apply (piece_continuous s e He A Hn G (fun i t => hp hermd i j t) HG) with (i := i); auto.
    + intros k Hk. apply hp_join. auto.
    + intros k u Hk. apply derivable_continuous_pt. exists (hp hermdd k j u). apply hermd_lim.
Qed.
End Eval.
