(** C121: the nearest neighbour on a NURBS curve (zNURBSVecNN).  Curves: Nurbs_Spec.v. *)
From Coq Require Import Reals Lra QArith.
From Verif Require Import Prelude Prelude_Proofs Scalar RealLib Fmat Fmat_Proofs Misc_Model IP_Model IP_Proofs Nurbs_Model Nurbs_Spec Nurbs2_Proofs Nurbs_Props Near_Model Near_Proofs.
From Coq Require Import List.
Import ListNotations.
Local Open Scope list_scope.
Local Open Scope R_scope.
Local Notation Un n := (vel (bp_knot (nb_param n))).
Local Notation ord n := (bp_order (nb_param n)).

(** [D t] is the distance of [v] from the point of the curve at the parameter [t], for all parameters of the curve *)
Definition distance_from tol (n : @nurbs R) nc m (v : fvec R) (D : R -> R) : Prop :=
  forall t, Un n (ord n) <= t <= Un n nc -> exists w, zNURBSVec tol n t (vzero m) = Ok w /\ vlen w = m /\ D t = sqrt (rsum m (fun i => (vel v i - vel w i) * (vel v i - vel w i))).
(** [D] falls up to [k] and grows from there *)
Definition unimodal (D : R -> R) a b k : Prop :=
  a <= k <= b /\ (forall x y, a <= x -> x < y -> y <= k -> D y < D x) /\ (forall x y, k <= x -> x < y -> y <= b -> D x < D y).

Lemma vdist_ok v w m : vlen v = m -> vlen w = m -> vdist v w = Ok (sqrt (rsum m (fun i => (vel v i - vel w i) * (vel v i - vel w i)))).
Proof.
  intros Lv Lw. unfold vdist. rewrite Lv.
  destruct (for_inv (fun k d => d = rsum k (fun i => (vel v i - vel w i) * (vel v i - vel w i))) 0 m
    (fun i d => a <- vget v i ;; b <- vget w i ;; Ok (d + (a - b) * (a - b))%S) 0%S) as (d & -> & ->).
  - lia.
  - reflexivity.
  - intros k d Hk ->. rewrite !vget_ok by lia. cbn [bind]. eexists. split; [reflexivity|]. rs. reflexivity.
  - reflexivity.
Qed.
(** there is a distance for every curve *)
Theorem C121_distance tol n nc m v : cgood n nc m -> 0 <= tol -> (forall i, (i < nc)%nat -> tol < wt n i) -> exists D, distance_from tol n nc m v D.
Proof.
  intros G H0 Hw. exists (fun t => match zNURBSVec tol n t (vzero m) with Ok w => sqrt (rsum m (fun i => (vel v i - vel w i) * (vel v i - vel w i))) | UB => 0 end).
  intros t Ht. destruct (C41_convex_hull tol n nc m t (vzero m) G eq_refl Ht) as (_ & H). destruct (H H0 Hw) as (w & _ & _ & E & L & _).
  exists w. rewrite E. auto.
Qed.
(** a parameter of the curve and its point are returned; the parameter is the middle of two, the first of which is as
    near as each point of the uniform grid of 31 points; if the distance is unimodal, the parameter is within a
    fifteenth of the range from the nearest one *)
Theorem C121_nearest_partial tol iter n nc m v nn D : cgood n nc m -> 0 <= tol -> (forall i, (i < nc)%nat -> tol < wt n i) ->
  vlen v = m -> vlen nn = m -> (0 < iter)%nat -> distance_from tol n nc m v D ->
  let a := Un n (ord n) in let b := Un n nc in
  exists r w s1 s2, zNURBSVecNN tol (/ 2) iter n v nn = Ok (r, w) /\ a <= r <= b /\ zNURBSVec tol n r (vzero m) = Ok w /\
    r = (s1 + s2) / 2 /\ a <= s1 <= b /\ a <= s2 <= b /\ (forall i, (i <= 30)%nat -> D s1 <= D (a + (b - a) * INR i / 30)) /\
    (forall k, unimodal D a b k -> Rabs (r - k) <= (b - a) / 15).
Proof.
  intros G H0 Hw Lv Ln Hi HD a b. pose proof G as ((LK & _ & LT) & _). destruct (good_lt _ _ (proj1 G)) as (LO & EC).
  unfold zNURBSVecNN. rewrite (knot_ok (nb_param n) (ord n)) by lia. cbn [bind]. rewrite EC, (knot_ok (nb_param n) nc) by lia. cbn [bind].
  match goal with |- context [nearest _ _ _ ?f _ _] => destruct (nearest_ok tol f D a b ltac:(unfold a, b; lra)) with (iter := iter) as (r & s1 & s2 & E & Er & B1 & B2 & M & U); auto end.
  { intros x Hx. destruct (HD x Hx) as (w & Ew & Lw & ->). rewrite Lv, Ew. cbn [bind]. now apply vdist_ok. }
  unfold a, b in E. rewrite E. cbn [bind].
  assert (a <= r <= b) as B by lra. destruct (HD r B) as (w & Ew & _).
  assert (zNURBSVec tol n r nn = Ok w) as En by (rewrite <- Ew; unfold zNURBSVec; rewrite <- Ln; reflexivity).
  rewrite En. cbn [bind]. exists r, w, s1, s2. split; auto. split; auto. split; auto. split; auto. split; auto. split; auto. split; [exact M|].
  intros k (K1 & K2 & K3). now apply U.
Qed.

(** a case: the segment from 0 to 1, and the point 1/3 *)
Example C121_case : exists n, zNURBSCreate [FV 1 (fun _ => 0); FV 1 (fun _ => 1)] 1 = Ok (Some n) /\ cgood n 2 1 /\
  (forall i, (i < 2)%nat -> wt n i = 1) /\ distance_from (/ 1000) n 2 1 (FV 1 (fun _ => 1/3)) (fun t => Rabs (t - 1/3)) /\
  unimodal (fun t => Rabs (t - 1/3)) (Un n (ord n)) (Un n 2) (1/3).
Proof.
  pose proof (C41_create [FV 1 (fun _ => 0); FV 1 (fun _ => 1)] 1 1) as H. cbn [length Nat.leb] in H.
  destruct H as (n & E & EO & G & CF & CL & HW & HU). { intros v [<-|[<-|[]]]; reflexivity. }
  exists n. split; auto. split; auto. split; [intros i Hi; now apply HW|].
  assert (Un n 0%nat = 0) as U0 by (rewrite HU by lia; reflexivity). assert (Un n 1%nat = 0) as U1 by (rewrite HU by lia; reflexivity).
  assert (Un n 2%nat = 1) as U2 by (rewrite HU by lia; reflexivity). assert (Un n 3%nat = 1) as U3 by (rewrite HU by lia; reflexivity).
  assert (forall i, (i < 2)%nat -> / 1000 < wt n i) as HT. { intros i Hi. destruct (HW i Hi) as (-> & _). lra. }
  assert (wt n 0%nat = 1 /\ cp n 0%nat 0%nat = 0) as (W0 & P0). { destruct (HW 0%nat ltac:(lia)) as (A & B). split; auto. apply B. }
  assert (wt n 1%nat = 1 /\ cp n 0%nat 1%nat = 1) as (W1 & P1). { destruct (HW 1%nat ltac:(lia)) as (A & B). split; auto. apply B. }
  split.
  - intros t Ht. rewrite EO, U1, U2 in Ht.
    assert (exists w, zNURBSVec (/ 1000) n t (vzero 1) = Ok w /\ vlen w = 1%nat /\ vel w 0%nat = t) as (w & Ew & Lw & Vw).
    { destruct (Rlt_le_dec t 1) as [L|L].
      - destruct (C41_nurbs_curve (/ 1000) n 2 1 t (vzero 1) G eq_refl ltac:(lra) HT) as (w & Ew & Lw & Q); [rewrite EO, U1, U2; lra|].
        exists w. split; auto. split; auto. rewrite (Q 0%nat) by lia. unfold rcurve. rewrite EO. cbn [rsum bspline Nat.add].
        rewrite U0, U1, U2, U3, W0, W1, P0, P1. unfold quot.
        destruct (Req_EM_T (0 - 0) 0); [|lra]. destruct (Req_EM_T (1 - 0) 0); [lra|]. destruct (Req_EM_T (1 - 1) 0); [|lra].
        destruct (Rle_dec 0 t); [|lra]. destruct (Rlt_dec t 0); [lra|]. destruct (Rlt_dec t 1); [|lra]. destruct (Rle_dec 1 t); [lra|]. field; lra.
      - assert (t = 1) as -> by lra. rewrite <- U2. destruct (C41_last_point (/ 1000) n 2 1 (vzero 1) G eq_refl CL) as (_ & H).
        destruct (H ltac:(lra) HT) as (w & Ew & Lw & Q). exists w. split; auto. split; auto. rewrite (Q 0%nat) by lia. cbn [Nat.sub]. rewrite P1, U2. reflexivity. }
    exists w. split; auto. split; auto. cbn [rsum vel]. rewrite Vw, Rplus_0_l. rewrite <- Rabs_Ropp. symmetry.
    replace (- (t - 1/3)) with (1/3 - t) by ring. apply sqrt_Rsqr_abs.
  - rewrite EO, U1, U2. split; [lra|]. split; intros x y A B C; [rewrite !Rabs_left1 by lra|rewrite !Rabs_pos_eq by lra]; lra.
Qed.

(** ** what the function does not do *)
(** the two parameters need not be neighbours: on the line 1 - 5 - 1 the point farthest from 0 is returned *)
Definition line (l : list Q) := zNURBSCreate (map (fun x => vec_of 0%Q [x]) l) 1.
Theorem C121_farthest_refuted : (n <- line [1; 5; 1]%Q ;;
   match n with Some n => r <- zNURBSVecNN (1#1000000)%Q (1#2)%Q 20 n (vec_of 0%Q [0%Q]) (vzero 1) ;;
      p <- zNURBSVec (1#1000000)%Q n 0%Q (vzero 1) ;; Ok (Qred (fst r), map Qred (to_list (snd r)), map Qred (to_list p)) | None => UB end) = Ok (1, [5], [1])%Q.
Proof. vm_compute. reflexivity. Qed.
(** also for a unimodal distance the search may stop on the grid: the nearest point has the parameter 1 and distance 0 *)
Theorem C121_precision_refuted : (n <- line [-10; 0; 1; 2; 3; 4; 5; 6]%Q ;;
   match n with Some n => r <- zNURBSVecNN (1#1000000)%Q (1#2)%Q 20 n (vec_of 0%Q [0%Q]) (vzero 1) ;;
      p <- zNURBSVec (1#1000000)%Q n 1%Q (vzero 1) ;; Ok (Qred (fst r), map Qred (to_list (snd r)), map Qred (to_list p)) | None => UB end) = Ok (7#6, [1#6], [0])%Q.
Proof. vm_compute. reflexivity. Qed.

Print Assumptions C121_distance.
Print Assumptions C121_nearest_partial.
Print Assumptions C121_farthest_refuted.
