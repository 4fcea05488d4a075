(** B-spline and NURBS curves: properties C41, C73 and C74.
    Spec: [bspline] is the Cox-de Boor recursion, [bcurve] and [rcurve] the textbook curves. *)
From Coq Require Import Reals Lra Lia QArith.
From Coquelicot Require Import Coquelicot.
From Verif Require Import Prelude Prelude_Proofs Scalar RealLib Fmat Fmat_Proofs Misc_Model IP_Model IP_Proofs Nurbs_Model Nurbs_Spec Nurbs_Proofs Nurbs2_Proofs Nurbs3_Proofs Nurbs4_Proofs Nurbs5_Proofs.
Local Open Scope R_scope.
Local Notation U p := (vel (bp_knot p)).
Local Notation Un n := (vel (bp_knot (nb_param n))).
Local Notation ord n := (bp_order (nb_param n)).

(** ** C41 *)
Theorem C41_segment (p : bparam) nc t : good p nc -> U p (bp_order p) <= t < U p nc ->
  exists s, zBSplineParamSeg p t = Ok s /\ (bp_order p <= s < nc)%nat /\ U p s <= t < U p (S s).
Proof.
  intros G Ht. destruct (seg_ok p nc t G) as (s & E & B & _ & L1 & L2 & _). exists s. split; [auto|split; [auto|split]]; [apply L1; lra|apply L2; lra].
Qed.
(** outside the domain the first or the last span that is not empty is used *)
Theorem C41_segment_outside (p : bparam) nc t : good p nc ->
  exists s, zBSplineParamSeg p t = Ok s /\ (bp_order p <= s < nc)%nat /\ U p s < U p (S s) /\
    (t < U p (bp_order p) -> U p s = U p (bp_order p)) /\ (U p nc <= t -> U p (S s) = U p nc).
Proof. intros G. destruct (seg_ok p nc t G) as (s & E & B & L & _ & _ & L3 & L4). exists s. auto. Qed.
Theorem C41_basis (p : bparam) nc t s r i : good p nc -> U p (bp_order p) <= t < U p nc -> zBSplineParamSeg p t = Ok s -> (i + r < nc + bp_order p)%nat ->
  zBSplineParamBasis p t i r s = Ok (bspline (U p) r i t).
Proof.
  intros G Ht Es Hi. destruct (C41_segment p nc t G Ht) as (s' & E & B & L). rewrite E in Es. injection Es as ->.
  destruct G as (EK & M & _). rewrite basis_ok by lia. rewrite (bspline_span _ _ M s) by (auto; lia). reflexivity.
Qed.
Theorem C41_basis_properties (p : bparam) nc t : good p nc -> U p (bp_order p) <= t < U p nc ->
  (forall i, (i < nc)%nat -> 0 <= bspline (U p) (bp_order p) i t) /\
  (forall i, (i < nc)%nat -> t < U p i \/ U p (i + bp_order p + 1)%nat <= t -> bspline (U p) (bp_order p) i t = 0) /\
  rsum nc (fun i => bspline (U p) (bp_order p) i t) = 1.
Proof.
  intros G Ht. destruct (C41_segment p nc t G Ht) as (s & E & B & L). destruct G as (EK & M & _).
  assert (Q : forall i, (i < nc)%nat -> bspline (U p) (bp_order p) i t = span (U p) s (bp_order p) i t) by (intros i Hi; eapply bspline_span; eauto; lia).
  split; [|split].
  - intros i Hi. rewrite Q by auto. eapply span_nonneg; eauto; try lia; lra.
  - intros i Hi H. rewrite Q by auto. apply span_out. destruct (le_lt_dec i s) as [L1|]; [|lia]. destruct (le_lt_dec s (i + bp_order p)) as [L2|]; [|lia]. exfalso.
    assert (U p i <= U p s) by (eapply mono; eauto; lia). assert (U p (S s) <= U p (i + bp_order p + 1)%nat) by (eapply mono; eauto; lia). lra.
  - rewrite (rsum_ext nc _ (fun i => span (U p) s (bp_order p) i t)) by auto.
    rewrite (window nc (s - bp_order p) (S (bp_order p))); [|lia|intros i Hi; apply span_out; lia]. eapply span_sum; eauto; try lia; lra.
Qed.
(** the curves are the textbook ones *)
Theorem C41_bspline_curve n nc m t v : cgood n nc m -> vlen v = m -> Un n (ord n) <= t < Un n nc ->
  exists v', zBSplineVec n t v = Ok v' /\ vlen v' = m /\ forall c, (c < m)%nat -> vel v' c = bcurve (Un n) (ord n) nc (cp n c) t.
Proof.
  intros G Lv Ht. destruct (C41_segment _ nc t (proj1 G) Ht) as (s & E & B & L).
  destruct (bsplinevec_ok n nc m t s v) as (v' & Ev & L' & Q); auto. exists v'. split; [auto|split; [auto|]]. intros c Hc. rewrite Q. eapply bval_curve; eauto.
Qed.
Theorem C41_nurbs_curve tol n nc m t v : cgood n nc m -> vlen v = m -> 0 <= tol -> (forall i, (i < nc)%nat -> tol < wt n i) -> Un n (ord n) <= t < Un n nc ->
  exists v', zNURBSVec tol n t v = Ok v' /\ vlen v' = m /\ forall c, (c < m)%nat -> vel v' c = rcurve (Un n) (ord n) nc (wt n) (cp n c) t.
Proof.
  intros G Lv H0 Hw Ht. destruct (C41_segment _ nc t (proj1 G) Ht) as (s & E & B & L).
  destruct (nurbsvec_ok tol n nc m t s v) as (v' & Ev & L' & Q); auto.
  { assert (tol < den n s 0 t) by (eapply den_gt; eauto; lra). rewrite Rabs_right; lra. }
  exists v'. split; [auto|split; [auto|]]. intros c Hc. rewrite Q. symmetry. eapply rcurve_span; eauto.
Qed.
Lemma closed_span n nc m t : cgood n nc m -> Un n (ord n) <= t <= Un n nc ->
  exists s, zBSplineParamSeg (nb_param n) t = Ok s /\ (ord n <= s < nc)%nat /\ Un n s < Un n (S s) /\ Un n s <= t <= Un n (S s).
Proof.
  intros (G & _) Ht. destruct (seg_ok (nb_param n) nc t G) as (s & E & B & L & L1 & L2 & _ & L4). exists s. repeat split; auto; try lia; [apply L1; lra|].
  destruct (Rlt_le_dec t (Un n nc)); [specialize (L2 r); lra|]. specialize (L4 r). lra.
Qed.
(** also at the last knot, the curve is a convex combination of at most order+1 consecutive
    control points *)
Theorem C41_convex_hull tol n nc m t v : cgood n nc m -> vlen v = m -> Un n (ord n) <= t <= Un n nc ->
  (exists v' l s, zBSplineVec n t v = Ok v' /\ vlen v' = m /\ weights nc l /\ (forall i, (i + ord n < s \/ s < i)%nat -> l i = 0) /\
     forall c, (c < m)%nat -> vel v' c = rsum nc (fun i => l i * cp n c i)) /\
  (0 <= tol -> (forall i, (i < nc)%nat -> tol < wt n i) ->
   exists v' l s, zNURBSVec tol n t v = Ok v' /\ vlen v' = m /\ weights nc l /\ (forall i, (i + ord n < s \/ s < i)%nat -> l i = 0) /\
     forall c, (c < m)%nat -> vel v' c = rsum nc (fun i => l i * cp n c i)).
Proof.
  intros G Lv Ht. destruct (closed_span n nc m t G Ht) as (s & E & B & L & Hs). pose proof (lam_weights n nc m s t G B L Hs) as W. split.
  - destruct (bsplinevec_ok n nc m t s v) as (v' & Ev & L' & Q); auto. exists v', (lam n s t), s. do 3 (split; [auto|]).
    split; [intros i Hi; apply span_out; lia|]. intros c Hc. rewrite Q. eapply bval_lam; eauto.
  - intros H0 Hw. assert (HD : tol < den n s 0 t) by (eapply den_gt; eauto).
    destruct (nurbsvec_ok tol n nc m t s v) as (v' & Ev & L' & Q); auto; [rewrite Rabs_right; lra|].
    exists v', (fun i => wt n i * lam n s t i / den n s 0 t), s. split; [auto|]. split; [auto|]. split; [split|split].
    + intros i Hi. apply Rmult_le_pos; [apply Rmult_le_pos; [specialize (Hw i Hi); lra|apply W; auto]|]. apply Rlt_le, Rinv_0_lt_compat. lra.
    + unfold Rdiv. rewrite rsum_scal_r, <- (den_lam n nc m s t) by auto. field. lra.
    + intros i Hi. unfold lam. rewrite span_out by lia. unfold Rdiv. ring.
    + intros c Hc. rewrite Q, (num_lam n nc m) by auto. unfold Rdiv. rewrite <- rsum_scal_r. apply rsum_ext. intros. ring.
Qed.
(** clamped knots: the order+1 first knots of a span coincide except the very first, which does
    not matter; the same at the end *)
Definition clamped_first (n : @nurbs R) : Prop := (forall k, (1 <= k <= ord n)%nat -> Un n k = Un n (ord n)) /\ Un n (ord n) < Un n (S (ord n)).
Definition clamped_last (n : @nurbs R) (nc : nat) : Prop := (forall k, (nc <= k < nc + ord n)%nat -> Un n k = Un n nc) /\ Un n (nc - 1)%nat < Un n nc.
Lemma ends n nc m t s k tol v : cgood n nc m -> vlen v = m -> zBSplineParamSeg (nb_param n) t = Ok s -> (ord n <= s < nc)%nat -> Un n s < Un n (S s) -> Un n s <= t <= Un n (S s) -> (k < nc)%nat -> lam n s t k = 1 ->
  (exists v', zBSplineVec n t v = Ok v' /\ vlen v' = m /\ forall c, (c < m)%nat -> vel v' c = cp n c k) /\
  (0 <= tol -> (forall i, (i < nc)%nat -> tol < wt n i) -> exists v', zNURBSVec tol n t v = Ok v' /\ vlen v' = m /\ forall c, (c < m)%nat -> vel v' c = cp n c k).
Proof.
  intros G Lv Es B L Hs Hk E1. pose proof (lam_weights n nc m s t G B L Hs) as W. split.
  - destruct (bsplinevec_ok n nc m t s v) as (v' & Ev & L' & Q); auto. exists v'. split; [auto|split; [auto|]]. intros c Hc.
    rewrite Q, (bval_lam n nc m) by auto. apply weights_delta; auto.
  - intros H0 Hw. assert (HD : tol < den n s 0 t) by (eapply den_gt; eauto).
    destruct (nurbsvec_ok tol n nc m t s v) as (v' & Ev & L' & Q); auto; [rewrite Rabs_right; lra|]. exists v'. split; [auto|split; [auto|]]. intros c Hc.
    rewrite Q, (num_lam n nc m), (den_lam n nc m) by auto.
    rewrite (rsum_ext nc _ (fun i => lam n s t i * (wt n i * cp n c i))) by (intros; ring). rewrite (rsum_ext nc (fun i => wt n i * lam n s t i) (fun i => lam n s t i * wt n i)) by (intros; ring).
    rewrite !(weights_delta nc _ k) by auto. specialize (Hw k Hk). field. lra.
Qed.
Theorem C41_first_point tol n nc m v : cgood n nc m -> vlen v = m -> clamped_first n ->
  (exists v', zBSplineVec n (Un n (ord n)) v = Ok v' /\ vlen v' = m /\ forall c, (c < m)%nat -> vel v' c = cp n c 0) /\
  (0 <= tol -> (forall i, (i < nc)%nat -> tol < wt n i) -> exists v', zNURBSVec tol n (Un n (ord n)) v = Ok v' /\ vlen v' = m /\ forall c, (c < m)%nat -> vel v' c = cp n c 0).
Proof.
  intros G Lv [C1 C2]. destruct (good_lt _ _ (proj1 G)) as [Ho _]. pose proof (good_K _ _ _ G) as EK.
  assert (Es : zBSplineParamSeg (nb_param n) (Un n (ord n)) = Ok (ord n)) by (eapply seg_unique; [apply G|lia|lra]).
  eapply (ends n nc m _ (ord n)); eauto; try lia; try lra. unfold lam. replace 0%nat with (ord n - ord n)%nat by lia.
  apply (span_first _ (vlen (bp_knot (nb_param n)))); [lia|lia|auto|]. intros k H1 H2. apply C1. lia.
Qed.
Theorem C41_last_point tol n nc m v : cgood n nc m -> vlen v = m -> clamped_last n nc ->
  (exists v', zBSplineVec n (Un n nc) v = Ok v' /\ vlen v' = m /\ forall c, (c < m)%nat -> vel v' c = cp n c (nc - 1)) /\
  (0 <= tol -> (forall i, (i < nc)%nat -> tol < wt n i) -> exists v', zNURBSVec tol n (Un n nc) v = Ok v' /\ vlen v' = m /\ forall c, (c < m)%nat -> vel v' c = cp n c (nc - 1)).
Proof.
  intros G Lv [C1 C2]. destruct (good_lt _ _ (proj1 G)) as [Ho _]. pose proof (good_K _ _ _ G) as EK.
  destruct (closed_span n nc m (Un n nc) G) as (s & Es & B & L & Hs); [split; [destruct G as ((_ & _ & ?) & _); lra|lra]|].
  assert (s = nc - 1)%nat.
  { destruct (Nat.eq_dec s (nc - 1)) as [|N]; auto. exfalso. assert (Un n (S s) <= Un n (nc - 1)%nat) by (eapply mono; [apply G|lia]). lra. }
  eapply (ends n nc m _ s); eauto; try lia. unfold lam. subst s. replace (S (nc - 1)) with nc in * by lia.
  replace (Un n nc) with (Un n (S (nc - 1))) by (f_equal; lia).
  apply (span_last _ (vlen (bp_knot (nb_param n)))); [lia|replace (S (nc - 1)) with nc by lia; auto|]. intros k H1 H2. replace (S (nc - 1)) with nc by lia. apply C1. lia.
Qed.
(** a created curve is clamped with weights 1 *)
Theorem C41_create (seq : list (fvec R)) order m : (forall v, In v seq -> vlen v = m) ->
  if (length seq <=? order)%nat then zNURBSCreate seq order = Ok None
  else exists n, zNURBSCreate seq order = Ok (Some n) /\ ord n = order /\ cgood n (length seq) m /\ clamped_first n /\ clamped_last n (length seq) /\
    (forall i, (i < length seq)%nat -> wt n i = 1 /\ forall c, cp n c i = vel (nth i seq (vzero 0)) c) /\
    forall j, (j < length seq + order + 1)%nat -> Un n j = INR (Nat.min j (length seq) - order).
Proof.
  intros HV. unfold zNURBSCreate. destruct (Nat.leb_spec (length seq) order) as [|H]; auto.
  destruct (knot_init_ok order (length seq) H) as (p & E & O & L & Q). rewrite E. cbn [bind]. eexists. split; [reflexivity|]. cbn [nb_param nb_cp].
  set (d := (1%S, vzero 0)). set (q := map (fun v => (1%S, v)) seq). assert (Lq : length q = length seq) by apply map_length.
  assert (NQ : forall i, (i < length seq)%nat -> nth i q d = (1, nth i seq (vzero 0))).
  { intros i Hi. rewrite (nth_indep q d (1%S, vzero 0)) by lia. unfold q. rewrite (map_nth (fun v => (1%S, v))). reflexivity. }
  split; [auto|]. split; [|split; [|split; [|split]]].
  - split; [|split; cbn [nb_cp vec_of vlen vel]].
    + split; [cbn [nb_param]; congruence|]. split; cbn [nb_param].
      * intros i Hi. rewrite L in Hi. rewrite !Q by lia. apply defk_mono.
      * rewrite O, !Q by lia. apply lt_INR. lia.
    + auto.
    + intros i Hi. rewrite NQ by auto. apply HV. apply nth_In. auto.
  - split; cbn [nb_param]; rewrite ?O.
    + intros k Hk. rewrite !Q by lia. unfold defk. f_equal. lia.
    + rewrite !Q by lia. apply lt_INR. lia.
  - split; cbn [nb_param]; rewrite ?O.
    + intros k Hk. rewrite !Q by lia. unfold defk. f_equal. lia.
    + rewrite !Q by lia. apply lt_INR. lia.
  - intros i Hi. unfold wt, cp. cbn [nb_cp vec_of vel]. rewrite NQ by auto. auto.
  - intros j Hj. rewrite Q by lia. reflexivity.
Qed.
(** equal knots: the search runs past the end of the knots.  They are obtained from a created
    curve by scaling to an empty interval. *)
Theorem C41_flat_refuted : exists (seq : list (fvec Q)) order,
  (n <- zNURBSCreate seq order ;;
   match n with
   | Some n => p <- zBSplineParamKnotScale (1#1000)%Q (nb_param n) 5%Q 5%Q ;;
       match zBSplineVec (NB p (nb_cp n)) 5%Q (vzero 1) with UB => Ok true | Ok _ => Ok false end
   | None => Ok false
   end) = Ok true.
Proof. exists [vec_of 0 [1]; vec_of 0 [2]; vec_of 0 [3]]%Q, 1%nat. vm_compute. reflexivity. Qed.
(** four control points of order 2 *)
Definition ql (r : res (fvec Q)) : res (list Q) := rmap (fun v => map Qred (to_list v)) r.
Definition four : res (option nurbs) := zNURBSCreate [vec_of 0 [1; 0]; vec_of 0 [2; 5]; vec_of 0 [4; 5]; vec_of 0 [8; 0]]%Q 2.
Example C41_case : rmap (option_map (fun n => (to_list (bp_knot (nb_param n)),
    [ql (zBSplineVec n 0%Q (vzero 2)); ql (zBSplineVec n (1#2) (vzero 2)); ql (zNURBSVec (1#1000000) n (1#2) (vzero 2)); ql (zBSplineVec n 2%Q (vzero 2))]))) four
  = Ok (Some ([0; 0; 0; 1; 2; 2; 2], [Ok [1; 0]; Ok [2; 15#4]; Ok [2; 15#4]; Ok [8; 0]]))%Q.
Proof. vm_compute. reflexivity. Qed.

(** ** C73 *)
(** between two knots *)
Theorem C73_basis_derivative (p : bparam) nc t s d i : good p nc -> (bp_order p <= s < nc)%nat -> U p s < t < U p (S s) -> (i < nc)%nat -> (d <= bp_order p + 1)%nat ->
  zBSplineParamSeg p t = Ok s /\ zBSplineParamBasisDiff p t i (bp_order p) s d = Ok (Derive_n (bspline (U p) (bp_order p) i) d t).
Proof.
  intros G Hs Ht Hi Hd. split; [eapply seg_unique; eauto; lra|]. destruct G as (EK & M & _).
  rewrite basis_diff_ok by (auto; lia). f_equal. symmetry.
  rewrite (Derive_n_ext_loc _ (span (U p) s (bp_order p) i)).
  - apply (chain_derive_n (fun _ => True) (fun d => dspan (U p) d s (bp_order p) i)); auto; [apply open_true|]. intros k u _. eapply dspan_derive; eauto. lia.
  - generalize (open_span (U p s) (U p (S s)) t Ht). apply filter_imp. intros u Hu. eapply bspline_span; eauto; try lia; lra.
Qed.
(** any order of differentiation *)
Theorem C73_bspline_derivative n nc m t s d v : cgood n nc m -> vlen v = m -> (ord n <= s < nc)%nat -> Un n s < t < Un n (S s) ->
  exists v', zBSplineVecDiff n t d v = Ok v' /\ vlen v' = m /\ forall c, (c < m)%nat -> vel v' c = Derive_n (bcurve (Un n) (ord n) nc (cp n c)) d t.
Proof.
  intros G Lv Hs Ht. destruct (bsplinediff_ok n nc m t s d v) as (v' & E & L & Q); auto; [eapply seg_unique; eauto; [apply G|lra]|].
  exists v'. split; [auto|split; [auto|]]. intros c Hc. rewrite Q. symmetry. eapply bcurve_derive; eauto.
Qed.
(** the rational curve up to order+1 derivatives, the rest is rejected *)
Theorem C73_nurbs_derivative tol n nc m t s d v : cgood n nc m -> vlen v = m -> (ord n <= s < nc)%nat -> Un n s < t < Un n (S s) ->
  0 <= tol -> (forall i, (i < nc)%nat -> tol < wt n i) ->
  if (ord n + 1 <? d)%nat then zNURBSVecDiff tol n t d v = Ok None
  else exists v', zNURBSVecDiff tol n t d v = Ok (Some v') /\ vlen v' = m /\ forall c, (c < m)%nat -> vel v' c = Derive_n (rcurve (Un n) (ord n) nc (wt n) (cp n c)) d t.
Proof.
  intros G Lv Hs Ht H0 Hw. destruct (Nat.ltb_spec (ord n + 1) d) as [H|H].
  { unfold zNURBSVecDiff. destruct d as [|d]; [lia|]. cbn [nurbs_diff]. cbn [Nat.eqb]. destruct (Nat.ltb_spec (ord n + 1) (S d)); [auto|lia]. }
  destruct (nurbsdiff_ok tol n nc m t s d d v) as (v' & E & L & Q); auto. exists v'. split; [exact E|split; [auto|]]. intros c Hc. rewrite Q. symmetry.
  apply Derive_n_ext_loc. generalize (open_span (Un n s) (Un n (S s)) t Ht). apply filter_imp. intros u Hu. eapply rcurve_span; eauto. lra.
Qed.
Example C73_case : rmap (option_map (fun n =>
    ([ql (zBSplineVecDiff n (1#2) 1 (vzero 2)); ql (zBSplineVecDiff n (1#2) 2 (vzero 2))],
     [rmap (option_map (fun v => map Qred (to_list v))) (zNURBSVecDiff (1#1000000) n (1#2) 2 (vzero 2)); rmap (option_map (fun v => map Qred (to_list v))) (zNURBSVecDiff (1#1000000) n (1#2) 4 (vzero 2))]))) four
  = Ok (Some ([Ok [2; 5]; Ok [0; -10]], [Ok (Some [0; -10]); Ok None]))%Q.
Proof. vm_compute. reflexivity. Qed.

(** ** C74 *)
(** knots with a range above the tolerance *)
Theorem C74_scale tol (p : bparam) nc ks ke : good p nc -> 0 <= tol -> tol < U p (nc + bp_order p)%nat - U p 0%nat -> ks < ke ->
  exists p' a b, zBSplineParamKnotScale tol p ks ke = Ok p' /\ 0 < b /\ bp_order p' = bp_order p /\ vlen (bp_knot p') = vlen (bp_knot p) /\
    (forall i, (i < vlen (bp_knot p))%nat -> U p' i = a + b * U p i) /\ U p' 0%nat = ks /\ U p' (nc + bp_order p)%nat = ke /\
    forall cps, let n := NB p cps in let n' := NB p' cps in forall m t v, vlen v = m -> vlen cps = nc -> (forall i, (i < nc)%nat -> vlen (snd (vel cps i)) = m) ->
    (exists v1 v2, zBSplineVec n t v = Ok v1 /\ zBSplineVec n' (a + b * t) v = Ok v2 /\ forall c, vel v2 c = vel v1 c) /\
    ((forall i, (i < nc)%nat -> tol < fst (vel cps i)) -> U p (bp_order p) <= t <= U p nc ->
     exists v1 v2, zNURBSVec tol n t v = Ok v1 /\ zNURBSVec tol n' (a + b * t) v = Ok v2 /\ forall c, vel v2 c = vel v1 c).
Proof.
  intros G H0 Hr Hk. pose proof G as (EK & M & L). set (w := U p (nc + bp_order p)%nat - U p 0%nat) in *.
  assert (EW : U p (vlen (bp_knot p) - 1)%nat - U p 0%nat = w) by (replace (vlen (bp_knot p) - 1)%nat with (nc + bp_order p)%nat by lia; reflexivity).
  pose proof (scale_ok tol p ks ke ltac:(lia)) as E. cbv zeta in E. rewrite EW in E. specialize (E ltac:(rewrite Rabs_right; lra)).
  assert (Hb : 0 < (ke - ks) / w) by (apply Rdiv_lt_0_compat; lra).
  eexists. exists (ks - U p 0%nat * ((ke - ks) / w)), ((ke - ks) / w). split; [exact E|]. split; [exact Hb|]. split; [reflexivity|]. split; [reflexivity|].
  set (p' := BP _ _). set (a := ks - _). set (b := (ke - ks) / w) in *.
  assert (HU : forall i, (i < vlen (bp_knot p))%nat -> U p' i = a + b * U p i) by (intros i Hi; unfold a, b; cbn [p' bp_knot vel]; field; lra).
  split; [exact HU|]. split; [cbn [p' bp_knot vel]; field; lra|]. split; [cbn [p' bp_knot vel]; fold w; unfold w; field; unfold w in *; lra|].
  intros cps n n' m t v Lv Lc LM.
  assert (G' : good p' nc).
  { split; [exact EK|]. split.
    - intros i Hi. cbn [p' bp_knot vlen] in Hi. rewrite !HU by lia. specialize (M i Hi). nra.
    - change (bp_order p') with (bp_order p). rewrite !HU by lia. nra. }
  assert (C : cgood n nc m) by (split; auto). assert (C' : cgood n' nc m) by (split; auto).
  destruct (seg_ok p nc t G) as (s & Es & B & Ls & L1 & L2 & _ & L4).
  assert (Es' : zBSplineParamSeg p' (a + b * t) = Ok s) by (rewrite <- Es; apply seg_aff; auto).
  assert (SA : forall i, (i < nc)%nat -> span (U p') s (bp_order p) i (a + b * t) = span (U p) s (bp_order p) i t) by (intros i Hi; apply span_aff; auto; lia).
  split.
  - destruct (bsplinevec_ok n nc m t s v) as (v1 & E1 & _ & Q1); auto. destruct (bsplinevec_ok n' nc m (a + b * t) s v) as (v2 & E2 & _ & Q2); auto.
    exists v1, v2. split; [auto|split; [auto|]]. intros c. rewrite Q1, Q2, (bval_lam n nc m), (bval_lam n' nc m) by auto.
    apply rsum_ext. intros i Hi. unfold lam. cbn [n n' nb_param] in *. change (bp_order p') with (bp_order p). rewrite SA by auto. reflexivity.
  - intros Hw Ht.
    assert (D : den n' s 0 (a + b * t) = den n s 0 t).
    { rewrite (den_lam n nc m), (den_lam n' nc m) by auto. apply rsum_ext. intros i Hi. unfold lam. cbn [n n' nb_param]. change (bp_order p') with (bp_order p). rewrite SA by auto. reflexivity. }
    assert (Hs : U p s <= t <= U p (S s)).
    { split; [apply L1; lra|]. destruct (Rlt_le_dec t (U p nc)); [specialize (L2 r); lra|]. specialize (L4 r). lra. }
    assert (HD : tol < den n s 0 t) by (eapply den_gt; eauto).
    destruct (nurbsvec_ok tol n nc m t s v) as (v1 & E1 & _ & Q1); auto; [rewrite Rabs_right; lra|].
    destruct (nurbsvec_ok tol n' nc m (a + b * t) s v) as (v2 & E2 & _ & Q2); auto; [rewrite D, Rabs_right; lra|].
    exists v1, v2. split; [auto|split; [auto|]]. intros c. rewrite Q1, Q2, D, (num_lam n nc m), (num_lam n' nc m) by auto. f_equal.
    apply rsum_ext. intros i Hi. unfold lam. cbn [n n' nb_param]. change (bp_order p') with (bp_order p). rewrite SA by auto. reflexivity.
Qed.
Theorem C74_normalize tol (p : bparam) nc : good p nc -> 0 <= tol -> tol < U p (nc + bp_order p)%nat - U p 0%nat ->
  exists p', zBSplineParamKnotNormalize tol p = Ok p' /\ bp_order p' = bp_order p /\ vlen (bp_knot p') = vlen (bp_knot p) /\ U p' 0%nat = 0 /\ U p' (nc + bp_order p)%nat = 1 /\
    forall i, (i < vlen (bp_knot p))%nat -> U p' i = (U p i - U p 0%nat) / (U p (nc + bp_order p)%nat - U p 0%nat).
Proof.
  intros (EK & M & L) H0 Hr. pose proof (normalize_ok tol p ltac:(lia)) as E. cbv zeta in E. replace (vlen (bp_knot p) - 1)%nat with (nc + bp_order p)%nat in E by lia.
  rewrite E by (rewrite Rabs_right; lra). eexists. split; [reflexivity|]. cbn [bp_order bp_knot vlen vel]. repeat split.
  - field; lra.
  - field; lra.
  - intros i Hi. field. lra.
Qed.
(** a range within the tolerance is shifted but not stretched *)
Theorem C74_tiny_range_refuted : exists p : @bparam Q, bp_order p = 1%nat /\ to_list (bp_knot p) = [0; 0; 1#2000; 1#2000]%Q /\
  rmap (fun p' => Qred (vel (bp_knot p') 3)) (zBSplineParamKnotNormalize (1#1000)%Q p) = Ok (1#2000)%Q.
Proof. exists (BP 1 (vec_of 0 [0; 0; 1#2000; 1#2000]))%Q. split; [reflexivity|]. split; [reflexivity|]. vm_compute. reflexivity. Qed.
Example C74_case : (n <- zNURBSCreate [vec_of 0 [1]; vec_of 0 [2]; vec_of 0 [4]; vec_of 0 [8]]%Q 2 ;;
   match n with Some n => rmap (fun p => map Qred (to_list (bp_knot p))) (zBSplineParamKnotScale (1#1000)%Q (nb_param n) 5%Q 7%Q) | None => Ok [] end)
  = Ok [5; 5; 5; 6; 7; 7; 7]%Q.
Proof. vm_compute. reflexivity. Qed.

Print Assumptions C41_segment.
Print Assumptions C41_segment_outside.
Print Assumptions C41_basis.
Print Assumptions C41_basis_properties.
Print Assumptions C41_bspline_curve.
Print Assumptions C41_nurbs_curve.
Print Assumptions C41_convex_hull.
Print Assumptions C41_first_point.
Print Assumptions C41_last_point.
Print Assumptions C41_create.
Print Assumptions C41_flat_refuted.
Print Assumptions C73_basis_derivative.
Print Assumptions C73_bspline_derivative.
Print Assumptions C73_nurbs_derivative.
Print Assumptions C74_scale.
Print Assumptions C74_normalize.
Print Assumptions C74_tiny_range_refuted.
