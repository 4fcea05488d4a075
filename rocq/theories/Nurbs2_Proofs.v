(** The model of zm_nurbs.c against the textbook B-splines. *)
From Coq Require Import Reals Lra Lia.
From Coquelicot Require Import Coquelicot.
From Verif Require Import Prelude Prelude_Proofs Scalar RealLib Fmat Fmat_Proofs Misc_Model IP_Model IP_Proofs Nurbs_Model Nurbs_Spec Nurbs_Proofs.
Local Open Scope R_scope.
Local Notation U p := (vel (bp_knot p)).
Local Notation K p := (vlen (bp_knot p)).

Lemma knot_ok (p : @bparam R) i : (i < K p)%nat -> knot p i = Ok (U p i).
Proof. apply vget_ok. Qed.
Lemma good_lt p nc : good p nc -> (bp_order p < nc)%nat /\ cpnum p = nc.
Proof.
  intros (E & M & L). split; [|unfold cpnum; lia].
  destruct (le_lt_dec nc (bp_order p)) as [H|]; auto. assert (U p nc <= U p (bp_order p)) by (eapply mono; eauto; lia). lra.
Qed.
Lemma skip_up_ok p m fuel i : nondecreasing (U p) (K p) -> (i < m < K p)%nat -> U p i < U p m -> (m - i <= fuel)%nat ->
  exists i', skip_up fuel p i = Ok i' /\ (i <= i' < m)%nat /\ U p i' = U p i /\ U p i' < U p (S i').
Proof.
  intros M. revert i. induction fuel as [|f IH]; intros i Hi L Hf; [lia|]. cbn [skip_up].
  rewrite !knot_ok by lia. cbn [bind seq RealS]. destruct (Reqb_spec (U p (S i)) (U p i)) as [E|N].
  - destruct (Nat.eq_dec (S i) m) as [<-|]; [lra|].
    destruct (IH (S i)) as (i' & R1 & R2 & R3 & R4); [lia|lra|lia|]. exists i'. rewrite R1. repeat split; auto; try lia; lra.
  - exists i. repeat split; auto; try lia. specialize (M i). assert (U p i <= U p (S i)) by (apply M; lia). lra.
Qed.
Lemma skip_down_ok p m fuel j : nondecreasing (U p) (K p) -> (m < j < K p)%nat -> U p m < U p j -> (j - m <= fuel)%nat ->
  exists j', skip_down fuel p j = Ok j' /\ (m < j' <= j)%nat /\ U p j' = U p j /\ U p (j' - 1)%nat < U p j'.
Proof.
  intros M. revert j. induction fuel as [|f IH]; intros j Hi L Hf; [lia|]. destruct j as [|j]; [lia|]. cbn [skip_down].
  rewrite !knot_ok by lia. cbn [bind seq RealS]. destruct (Reqb_spec (U p j) (U p (S j))) as [E|N].
  - destruct (Nat.eq_dec j m) as [<-|]; [lra|].
    destruct (IH j) as (i' & R1 & R2 & R3 & R4); [lia|lra|lia|]. exists i'. rewrite R1. repeat split; auto; try lia; lra.
  - exists (S j). repeat split; auto; try lia. specialize (M j). assert (U p j <= U p (S j)) by (apply M; lia).
    replace (S j - 1)%nat with j by lia. lra.
Qed.
Lemma seg_loop_ok p nc t fuel i j : nondecreasing (U p) (K p) -> (bp_order p <= i)%nat -> (i < j <= nc)%nat -> (nc < K p)%nat -> U p i < U p j -> (j - i <= fuel)%nat ->
  (U p (bp_order p) <= t -> U p i <= t) -> (t < U p nc -> t < U p j) -> (t < U p (bp_order p) -> U p i = U p (bp_order p)) -> (U p nc <= t -> U p j = U p nc) ->
  exists s, seg_loop fuel p t i j = Ok s /\ (bp_order p <= s < nc)%nat /\ U p s < U p (S s) /\
    (U p (bp_order p) <= t -> U p s <= t) /\ (t < U p nc -> t < U p (S s)) /\ (t < U p (bp_order p) -> U p s = U p (bp_order p)) /\ (U p nc <= t -> U p (S s) = U p nc).
Proof.
  intros M. revert i j. induction fuel as [|f IH]; intros i j Hi Hj Hn L Hf H1 H2 H3 H4; [lia|]. cbn [seg_loop].
  destruct (skip_up_ok p j (K p) i) as (i' & E1 & I1 & I2 & I3); auto; try lia. rewrite E1. cbn [bind].
  destruct (skip_down_ok p i' (K p) j) as (j' & E2 & J1 & J2 & J3); auto; try lia; [lra|]. rewrite E2. cbn [bind].
  destruct (Nat.leb_spec j' (i' + 1)).
  { assert (j' = S i') by lia. subst j'. exists i'. repeat split; auto; try lia; intros; rewrite ?I2, ?J2; auto. }
  assert (Hk : (i' < (i' + j') / 2 < j')%nat).
  { pose proof (Nat.div_mod (i' + j') 2 ltac:(lia)). pose proof (Nat.mod_upper_bound (i' + j') 2 ltac:(lia)). lia. }
  set (k := ((i' + j') / 2)%nat) in *. rewrite knot_ok by lia. cbn [bind slt RealS].
  assert (U p (S i') <= U p k) by (eapply mono; eauto; lia). assert (U p k <= U p (j' - 1)%nat) by (eapply mono; eauto; lia).
  assert (U p (bp_order p) <= U p k) by (eapply mono; eauto; lia). assert (U p k <= U p nc) by (eapply mono; eauto; lia).
  destruct (Rltb_spec t (U p k)) as [B|B]; apply IH; try lia; try lra; auto; intros; try lra; rewrite ?I2, ?J2; auto.
Qed.
Lemma seg_ok p nc t : good p nc -> exists s, zBSplineParamSeg p t = Ok s /\ (bp_order p <= s < nc)%nat /\ U p s < U p (S s) /\
    (U p (bp_order p) <= t -> U p s <= t) /\ (t < U p nc -> t < U p (S s)) /\ (t < U p (bp_order p) -> U p s = U p (bp_order p)) /\ (U p nc <= t -> U p (S s) = U p nc).
Proof.
  intros G. destruct (good_lt p nc G) as [L E]. destruct G as (EK & M & H). unfold zBSplineParamSeg. rewrite E.
  apply seg_loop_ok; auto; try lia; lra.
Qed.
(** a span determines the segment *)
Lemma seg_unique p nc s t : good p nc -> (bp_order p <= s < nc)%nat -> U p s <= t < U p (S s) -> zBSplineParamSeg p t = Ok s.
Proof.
  intros G Hs Ht. destruct (seg_ok p nc t G) as (s' & E & B & _ & L1 & L2 & _). rewrite E. f_equal.
  destruct G as (EK & M & H).
  assert (U p (bp_order p) <= U p s) by (eapply mono; eauto; lia). assert (U p (S s) <= U p nc) by (eapply mono; eauto; lia).
  specialize (L1 ltac:(lra)). specialize (L2 ltac:(lra)).
  destruct (lt_eq_lt_dec s s') as [[C|C]|C]; auto; exfalso.
  - assert (U p (S s) <= U p s') by (eapply mono; eauto; lia). lra.
  - assert (U p (S s') <= U p s) by (eapply mono; eauto; lia). lra.
Qed.

Lemma basis_ok p t i r s : (i + r + 1 < K p)%nat -> zBSplineParamBasis p t i r s = Ok (span (U p) s r i t).
Proof.
  revert i. induction r as [|r IH]; intros i H; [reflexivity|]. cbn [zBSplineParamBasis span].
  assert (Q : forall a b x y, b <> a -> (x - y) / (b - a) = quot (x - y) (b - a)) by (intros; rewrite quot_ne; auto; lra).
  set (A := quot (t - U p i) (U p (i + S r)%nat - U p i)). set (B := quot (U p (i + S r + 1)%nat - t) (U p (i + S r + 1)%nat - U p (i + 1)%nat)).
  assert (E1 : (if (s <=? i + S r)%nat then t1 <- knot p i ;; tr1 <- knot p (i + S r) ;;
                if negb (seq tr1 t1) then y <- zBSplineParamBasis p t i r s ;; Ok (0 + (t - t1) / (tr1 - t1) * y)%S else Ok 0%S else Ok 0%S)
    = Ok (A * span (U p) s r i t)).
  { destruct (Nat.leb_spec s (i + S r)); [|rewrite span_out by lia; cbn [s0 RealS]; f_equal; ring].
    rewrite !knot_ok by lia. cbn [bind seq RealS]. destruct (Reqb_spec (U p (i + S r)%nat) (U p i)) as [E|N]; cbn [negb].
    - unfold A. rewrite E. replace (U p i - U p i) with 0 by ring. rewrite quot_0. cbn [s0 RealS]. f_equal. ring.
    - rewrite IH by lia. cbn [bind sadd smul sdiv ssub s0 RealS]. rewrite Q by auto. fold A. f_equal. ring. }
  cbn [s0 RealS] in *. rewrite E1. cbn [bind].
  destruct (Nat.leb_spec i s); [|rewrite (span_out _ s r (i + 1)) by lia; f_equal; ring].
  rewrite !knot_ok by lia. cbn [bind seq RealS]. destruct (Reqb_spec (U p (i + S r + 1)%nat) (U p (i + 1)%nat)) as [E|N]; cbn [negb].
  - unfold B. rewrite E. replace (U p (i + 1)%nat - U p (i + 1)%nat) with 0 by ring. rewrite quot_0. f_equal. ring.
  - rewrite IH by lia. cbn [bind sadd smul sdiv ssub s0 RealS]. rewrite Q by auto. fold B. f_equal.
Qed.
Lemma basis_diff_ok p t i r s d : (i + r + 1 < K p)%nat -> (d <= bp_order p + 1)%nat -> zBSplineParamBasisDiff p t i r s d = Ok (dspan (U p) d s r i t).
Proof.
  revert i r. induction d as [|d IH]; intros i r H Hd; [now apply basis_ok|]. cbn [zBSplineParamBasisDiff dspan].
  destruct (Nat.ltb_spec (bp_order p + 1) (S d)); [lia|].
  assert (Q : forall x y, x <> 0 -> y / x = inv0 x * y) by (intros; unfold inv0; rewrite quot_ne; auto; unfold Rdiv; ring).
  set (A := inv0 (U p (i + r)%nat - U p i)). set (B := inv0 (U p (i + r + 1)%nat - U p (i + 1)%nat)).
  assert (E1 : (if (s <=? i + r)%nat then x <- knot p (i + r) ;; y <- knot p i ;; let dt := (x - y)%S in
                  if negb (seq dt 0%S) then
                    match r with O => UB | S r' => z <- zBSplineParamBasisDiff p t i r' s d ;; Ok (0 + z / dt)%S end
                  else Ok 0%S else Ok 0%S) = Ok (A * dspan (U p) d s (r - 1) i t)).
  { destruct (Nat.leb_spec s (i + r)); [|rewrite dspan_out by lia; cbn [s0 RealS]; f_equal; ring].
    rewrite !knot_ok by lia. cbn [bind seq ssub s0 RealS]. destruct (Reqb_spec (U p (i + r)%nat - U p i) 0) as [E|N]; cbn [negb].
    - unfold A. rewrite E. unfold inv0. rewrite quot_0. f_equal. ring.
    - destruct r as [|r]; [rewrite Nat.add_0_r in N; lra|]. rewrite IH by lia. replace (S r - 1)%nat with r by lia.
      cbn [bind sadd smul sdiv ssub s0 RealS]. rewrite Q by auto. fold A. f_equal. ring. }
  cbv zeta in E1 |- *. rewrite E1. cbn [bind].
  assert (E2 : (if (i <=? s)%nat then x <- knot p (i + r + 1) ;; y <- knot p (i + 1) ;; 
                  if negb (seq (x - y)%S 0%S) then
                    match r with O => UB | S r' => z <- zBSplineParamBasisDiff p t (i + 1) r' s d ;; Ok (ssub (A * dspan (U p) d s (r - 1) i t) (z / (x - y))%S) end
                  else Ok (A * dspan (U p) d s (r - 1) i t) else Ok (A * dspan (U p) d s (r - 1) i t)) = Ok (A * dspan (U p) d s (r - 1) i t - B * dspan (U p) d s (r - 1) (i + 1) t)).
  { destruct (Nat.leb_spec i s); [|rewrite (dspan_out _ d s (r - 1) (i + 1)) by lia; f_equal; ring].
    rewrite !knot_ok by lia. cbn [bind seq ssub s0 RealS]. destruct (Reqb_spec (U p (i + r + 1)%nat - U p (i + 1)%nat) 0) as [E|N]; cbn [negb].
    - unfold B. rewrite E. unfold inv0. rewrite quot_0. f_equal. ring.
    - destruct r as [|r]; [rewrite Nat.add_0_r in N; lra|]. rewrite IH by lia. replace (S r - 1)%nat with r by lia.
      cbn [bind sadd smul sdiv ssub s0 RealS]. rewrite Q by auto. fold B. f_equal. }
  rewrite E2. cbn [bind smul sofZ RealS]. rewrite <- INR_IZR_INZ. f_equal. ring.
Qed.
