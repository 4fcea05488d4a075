(** C16, C17, C59: complex numbers, closed-form solvers, complex vectors, polynomials
    with complex roots.  Vocabulary in Complex_Spec.v; the field is Coquelicot's [C]. *)
From Coq Require Import Reals Lra Permutation PrimFloat.
From Verif Require Import Prelude Prelude_Proofs Scalar RealLib Pex_Model Pex_Spec Pex_Proofs Complex_Model Complex_Spec Complex_Proofs Complex2_Proofs.
From Coquelicot Require Import Coquelicot.
From Coq Require Import List.
Import ListNotations.
Local Open Scope list_scope.
Local Open Scope R_scope.

(** ** C16.  [stored m c z m']: after the call cell c holds z and nothing else changed.
    Sum, difference, negation, conjugation, real multiples: any aliasing. *)
Theorem C16_any_alias (m : cmem R) c1 c2 c k :
  stored m c (Cplus (m c1) (m c2)) (zComplexAdd m c1 c2 c) /\
  stored m c (Cminus (m c1) (m c2)) (zComplexSub m c1 c2 c) /\
  stored m c (Copp (m c1)) (zComplexRev m c1 c) /\
  stored m c (Cconj (m c1)) (zComplexConj m c1 c) /\
  stored m c (Cmult (m c1) (RtoC k)) (zComplexMul m c1 k c).
Proof. repeat split; [apply zComplexAdd_ok|apply zComplexSub_ok|apply zComplexRev_ok|apply zComplexConj_ok|apply zComplexMul_ok]. Qed.
Theorem C16_div_real tol (m : cmem R) c k rc : 0 <= tol ->
  (tol < Rabs k -> exists m', zComplexDiv tol m c k rc = (true, m') /\ stored m rc (Cdiv (m c) (RtoC k)) m') /\
  (Rabs k <= tol -> zComplexDiv tol m c k rc = (false, m)).
Proof. apply zComplexDiv_ok. Qed.
Theorem C16_product_partial (m : cmem R) c1 c2 c : c <> c1 -> c <> c2 ->
  stored m c (Cmult (m c1) (m c2)) (zComplexCMul m c1 c2 c) /\
  stored m c (Cmult (m c1) (Cconj (m c2))) (zComplexCMulConj m c1 c2 c).
Proof. split; [now apply zComplexCMul_ok|now apply zComplexCMulConj_ok]. Qed.
Theorem C16_product_in_place (m : cmem R) c1 c2 :
  stored m c1 (Cmult (m c1) (m c2)) (zComplexCMulDRC m c1 c2) /\
  stored m c1 (Cmult (m c1) (Cconj (m c2))) (zComplexCMulConjDRC m c1 c2).
Proof. split; [apply zComplexCMulDRC_ok|apply zComplexCMulConjDRC_ok]. Qed.
Theorem C16_inverse tol (m : cmem R) c ic : 0 <= tol ->
  (tol < Cmod (m c) * Cmod (m c) -> exists m', zComplexInv tol m c ic = (true, m') /\ stored m ic (Cinv (m c)) m') /\
  (Cmod (m c) * Cmod (m c) <= tol -> zComplexInv tol m c ic = (false, m)).
Proof. apply zComplexInv_ok. Qed.
Theorem C16_quotient_partial tol (m : cmem R) c1 c2 c : 0 <= tol -> tol < Cmod (m c2) * Cmod (m c2) -> c <> c1 ->
  exists m', zComplexCDiv tol m c1 c2 c = Ok m' /\ stored m c (Cdiv (m c1) (m c2)) m'.
Proof. apply zComplexCDiv_ok. Qed.
Theorem C16_quotient_in_place tol (m : cmem R) c1 c2 : 0 <= tol -> tol < Cmod (m c2) * Cmod (m c2) ->
  exists m', zComplexCDivDRC tol m c1 c2 = Ok m' /\ stored m c1 (Cdiv (m c1) (m c2)) m'.
Proof. apply zComplexCDivDRC_ok. Qed.
Lemma Cdiv_cancel (x y : C) : y <> RtoC 0 -> Cdiv (Cmult x y) y = x.
Proof. intros. field. auto. Qed.
(** multiply, then divide by the same number: back to the start, for every pair *)
Theorem C16_quotient_inverts_product tol (m : cmem R) a b p q : 0 <= tol -> tol < Cmod (m b) * Cmod (m b) ->
  p <> a -> p <> b -> q <> p -> exists m', zComplexCDiv tol (zComplexCMul m a b p) p b q = Ok m' /\ m' q = m a.
Proof.
  intros Ht Hb N1 N2 N3. pose proof (zComplexCMul_ok m a b p N1 N2) as S1. set (m1 := zComplexCMul m a b p) in *.
  assert (m1 b = m b) as Eb by (rewrite S1; now replace (b =? p)%nat with false by lia).
  assert (m1 p = Cmult (m a) (m b)) as Ep by (rewrite S1; now rewrite Nat.eqb_refl).
  destruct (zComplexCDiv_ok tol m1 p b q) as (m' & E & S2); [auto|now rewrite Eb|auto|].
  exists m'. split; auto. rewrite S2, Nat.eqb_refl, Ep, Eb.
  assert (m b <> RtoC 0). { intros Z. rewrite Z, Cmod_0 in Hb. lra. } now apply Cdiv_cancel.
Qed.
Theorem C16_sqrabs_multiplicative (x y : C) : sqrabs (Cmult x y) = sqrabs x * sqrabs y /\ sqrabs x = Cmod x * Cmod x.
Proof. split; [unfold sqrabs; cbn; rs; ring|apply sqrabs_Cmod]. Qed.
(** the powers and logarithms *)
Theorem C16_integer_power (c : C) n : zComplexPow c (INR n) = Cpown c n.
Proof. apply zComplexPow_nat. Qed.
Theorem C16_nth_root (c : C) n : (0 < n)%nat -> Cpown (zComplexPow c (/ INR n)) n = c.
Proof. apply zComplexPow_root. Qed.
Theorem C16_log_inverts_pow (c b l : C) : c <> RtoC 0 -> zComplexCLog c b = Some l -> zComplexCPow b l = c.
Proof. apply zComplexCLog_inverse. Qed.
Theorem C16_log_fails (c b : C) : zComplexCLog c b = None <-> b = RtoC 0 \/ (ln (cabs b) = 0 /\ carg b = 0).
Proof. apply zComplexCLog_null. Qed.
Theorem C16_log_real_base (c : C) b l : c <> RtoC 0 -> zComplexLog c b = Some l -> Cexp (Cmult l (RtoC (ln b))) = c.
Proof. apply zComplexLog_inverse. Qed.
Example C16_case : exists m : cmem R, m 0%nat = (1, 2) /\ 1 / 2 < Cmod (m 0%nat) * Cmod (m 0%nat).
Proof. exists (fun _ => (1, 2)). split; auto. rewrite <- sqrabs_Cmod. unfold sqrabs. cbn. rs. lra. Qed.
(** the full claim is false: i*i in place gives -1-i *)
Theorem C16_product_aliased_refuted : exists (m : cmem R) c1 c2, ~ stored m c1 (Cmult (m c1) (m c2)) (zComplexCMul m c1 c2 c1).
Proof.
  exists (fun _ => (0, 1)), 0%nat, 1%nat. intros H. specialize (H 0%nat). cbn in H. unfold wr_im, wr_re in H. cbn in H. rs.
  apply (f_equal snd) in H. cbn in H. lra.
Qed.
(** division by a number of modulus below 1e-6 (zTOL = 1e-12) uses an uninitialised variable *)
Theorem C16_small_divisor_refuted tol : 0 < tol -> exists (m : cmem R), m 1%nat <> RtoC 0 /\ zComplexCDiv tol m 0 1 2 = UB.
Proof.
  intros Ht. pose (e := Rmin tol 1). exists (fun _ => (e, 0)).
  assert (0 < e) by (unfold e, Rmin; destruct (Rle_dec tol 1); lra).
  assert (e <= tol /\ e <= 1) by (unfold e; split; [apply Rmin_l|apply Rmin_r]).
  split. { intros E. injection E as E. lra. }
  apply zComplexCDiv_UB; [lra|]. rewrite <- sqrabs_Cmod. unfold sqrabs. cbn. rs. nra.
Qed.

(** ** C17 *)
Theorem C17_quadratic_partial a b c : a <> 0 -> (b <> 0 \/ c <> 0) ->
  exists x1 x2, zQESolve (1 / 2) 4 a b c = Some (x1, x2) /\
    forall x : C, Cmult (RtoC a) (Cmult (Cminus x x1) (Cminus x x2))
      = Cplus (Cplus (Cmult (RtoC a) (Cmult x x)) (Cmult (RtoC b) x)) (RtoC c).
Proof. apply zQESolve_ok. Qed.
Theorem C17_quadratic_rejects b c : zQESolve (1 / 2) 4 0 b c = None.
Proof. apply zQESolve_null. Qed.
Theorem C17_cubic a b c d : a <> 0 ->
  exists x1 x2 x3, zCESolve a b c d = Some (x1, x2, x3) /\
    forall x : C, Cmult (RtoC a) (Cmult (Cmult (Cminus x x1) (Cminus x x2)) (Cminus x x3))
      = Cplus (Cplus (Cplus (Cmult (RtoC a) (Cmult x (Cmult x x))) (Cmult (RtoC b) (Cmult x x))) (Cmult (RtoC c) x)) (RtoC d).
Proof. apply zCESolve_ok. Qed.
Example C17_case : exists x1 x2, zQESolve (1 / 2) 4 1 1 1 = Some (x1, x2) /\
  forall x : C, Cmult (RtoC 1) (Cmult (Cminus x x1) (Cminus x x2)) = Cplus (Cplus (Cmult (RtoC 1) (Cmult x x)) (Cmult (RtoC 1) x)) (RtoC 1).
Proof. apply C17_quadratic_partial; [lra|left; lra]. Qed.
(** x^2 = 0 in binary64: the second root is 0/0 *)
Theorem C17_double_zero_root_refuted :
  exists x1 x2 : cplx float, zQESolve 0.5%float 4%float 1%float 0%float 0%float = Some (x1, x2) /\ PrimFloat.eqb (fst x2) (fst x2) = false.
Proof. eexists _, _. split; [vm_compute; reflexivity|vm_compute; reflexivity]. Qed.

(** ** C59.  [vstored m v n f m']: the n cells from v on hold f 0 .. f (n-1), nothing else
    changed.  [ahead v w n]: the operand does not start below v and reach into it (so
    exact aliasing is included). *)
Theorem C59_elementwise (m : cmem R) v1 v2 v n k : ahead v v1 n -> ahead v v2 n ->
  vstored m v n (fun i => Cplus (m (v1 + i)%nat) (m (v2 + i)%nat)) (zCVecAddNC m v1 v2 v n) /\
  vstored m v n (fun i => Cminus (m (v1 + i)%nat) (m (v2 + i)%nat)) (zCVecSubNC m v1 v2 v n) /\
  vstored m v n (fun i => Copp (m (v1 + i)%nat)) (zCVecRevNC m v1 v n) /\
  vstored m v n (fun i => Cmult (m (v1 + i)%nat) (RtoC k)) (zCVecMulNC m v1 k v n) /\
  (k <> 0 -> vstored m v n (fun i => Cdiv (m (v1 + i)%nat) (RtoC k)) (zCVecDivNC m v1 k v n)) /\
  vstored m v n (fun i => m (v1 + i)%nat) (zCVecCopyNC m v1 v n) /\
  vstored m v n (fun _ => RtoC 0) (zCVecZero m v n).
Proof.
  intros A1 A2. repeat split; intros.
  - now apply zCVecAddNC_ok.
  - now apply zCVecSubNC_ok.
  - now apply zCVecRevNC_ok.
  - now apply zCVecMulNC_ok.
  - now apply zCVecDivNC_ok.
  - now apply zCVecCopyNC_ok.
  - apply zCVecZero_ok.
Qed.
Theorem C59_cat (m : cmem R) v1 z v2 v n : ahead v v1 n -> ahead v v2 n -> outside z v n ->
  vstored m v n (fun i => Cplus (m (v1 + i)%nat) (Cmult (m (v2 + i)%nat) (m z))) (zCVecCatNC m v1 z v2 v n).
Proof. apply zCVecCatNC_ok. Qed.
Theorem C59_complex_multiple_partial (m : cmem R) v1 z v n : ahead1 v v1 n -> outside z v n ->
  vstored m v n (fun i => Cmult (m (v1 + i)%nat) (m z)) (zCVecCMulNC m v1 z v n).
Proof. apply zCVecCMulNC_ok. Qed.
Theorem C59_complex_quotient_partial tol (m : cmem R) v1 z v n : 0 <= tol -> tol < Cmod (m z) * Cmod (m z) -> ahead1 v v1 n ->
  vstored m v n (fun i => Cdiv (m (v1 + i)%nat) (m z)) (zCVecCDivNC tol m v1 z v n).
Proof. apply zCVecCDivNC_ok. Qed.
Theorem C59_inner_product (m : cmem R) v1 v2 n :
  zCVecInnerProd m v1 v2 n = csum n (fun i => Cmult (m (v1 + i)%nat) (Cconj (m (v2 + i)%nat))).
Proof. apply zCVecInnerProd_ok. Qed.
Theorem C59_size_mismatch tol (m : cmem R) v1 n1 v2 n2 v n z k : n1 <> n \/ n1 <> n2 ->
  zCVecAdd m v1 n1 v2 n2 v n = None /\ zCVecSub m v1 n1 v2 n2 v n = None /\ zCVecCat m v1 n1 z v2 n2 v n = None /\
  (n1 <> n -> zCVecRev m v1 n1 v n = None /\ zCVecMul m v1 n1 k v n = None /\ zCVecDiv tol m v1 n1 k v n = None /\
              zCVecCMul m v1 n1 z v n = None /\ zCVecCDiv tol m v1 n1 z v n = None).
Proof.
  intros H. unfold zCVecAdd, zCVecSub, zCVecCat, zCVecRev, zCVecMul, zCVecDiv, zCVecCMul, zCVecCDiv, chk2.
  destruct (Nat.eqb_spec n1 n2), (Nat.eqb_spec n1 n); cbn [andb]; try lia; auto 10; repeat split; intros; try contradiction; auto; lia.
Qed.
Theorem C59_size_match (m : cmem R) v1 v2 v n z k :
  zCVecAdd m v1 n v2 n v n = Some (zCVecAddNC m v1 v2 v n) /\ zCVecSub m v1 n v2 n v n = Some (zCVecSubNC m v1 v2 v n) /\
  zCVecCat m v1 n z v2 n v n = Some (zCVecCatNC m v1 z v2 v n) /\ zCVecRev m v1 n v n = Some (zCVecRevNC m v1 v n) /\
  zCVecMul m v1 n k v n = Some (zCVecMulNC m v1 k v n) /\ zCVecCMul m v1 n z v n = Some (zCVecCMulNC m v1 z v n).
Proof. unfold zCVecAdd, zCVecSub, zCVecCat, zCVecRev, zCVecMul, zCVecCMul, chk2. rewrite Nat.eqb_refl. repeat split. Qed.
(** division is refused exactly when the divisor is negligible *)
Theorem C59_division_check tol (m : cmem R) v1 v n z k :
  (Rabs k <= tol -> zCVecDiv tol m v1 n k v n = None) /\
  (tol < Rabs k -> zCVecDiv tol m v1 n k v n = Some (zCVecDivNC m v1 k v n)) /\
  (Rabs (fst (m z)) <= tol -> Rabs (snd (m z)) <= tol -> zCVecCDiv tol m v1 n z v n = None) /\
  (tol < Rabs (fst (m z)) \/ tol < Rabs (snd (m z)) -> zCVecCDiv tol m v1 n z v n = Some (zCVecCDivNC tol m v1 z v n)).
Proof.
  unfold zCVecDiv, zCVecCDiv. rewrite Nat.eqb_refl, !is_tol_R.
  destruct (Rleb_spec (Rabs k) tol), (Rleb_spec (Rabs (fst (m z))) tol), (Rleb_spec (Rabs (snd (m z))) tol); cbn [andb]; repeat split; intros; auto; try lra.
Qed.
Lemma smax_R a b : smax a b = Rmax a b.
Proof. unfold smax. rs. destruct (Rltb_spec b a); unfold Rmax; destruct (Rle_dec a b); lra. Qed.
Lemma zEqual_R a b tol : zEqual a b tol = true <-> near tol a b.
Proof.
  unfold zEqual, near. rewrite is_tol_R. rs. rewrite !smax_R. match goal with |- Rleb ?x ?y = true <-> _ => destruct (Rleb_spec x y) end; split; intros; auto; try discriminate; lra.
Qed.
Lemma coconj_near tol x y : coconj tol x y = true <-> near_conj tol x y.
Proof. unfold coconj, near_conj. now rewrite Bool.andb_true_iff, !zEqual_R. Qed.
Lemma near_exact x y : near_conj 0 x y <-> y = Cconj x.
Proof.
  destruct x as (a, b), y as (c, d). unfold near_conj, near. cbn [fst snd]. rewrite !Rmult_0_l. split.
  - intros (H1 & H2). unfold Cconj. cbn. assert (a - c = 0) by (destruct (Req_dec (a - c) 0); auto; pose proof (Rabs_pos_lt (a - c)); lra).
    assert (b - - d = 0) by (destruct (Req_dec (b - - d) 0); auto; pose proof (Rabs_pos_lt (b - - d)); lra). f_equal; lra.
  - unfold Cconj. cbn. intros E. injection E as -> ->. replace (a - a) with 0 by ring. replace (b - - - b) with 0 by ring. rewrite Rabs_R0. lra.
Qed.
(** pairing only permutes; on success elements 2k and 2k+1 are conjugate (to tolerance) *)
Theorem C59_pairing tol (v : list C) :
  exists b (w : list C), zCVecConjPair tol v = Ok (b, w) /\ Permutation v w /\
    (b = true -> forall k, (2 * k + 1 < length w)%nat -> near_conj tol (nth (2 * k) w (RtoC 0)) (nth (2 * k + 1) w (RtoC 0))) /\
    (Nat.odd (length v) = true -> b = false).
Proof.
  destruct (zCVecConjPair_ok tol v) as (b & w & E & P & Hb). exists b, w. split; auto. split; auto. split.
  - intros Eb k Hk. apply coconj_near. apply paired_nth; auto.
  - intros O. unfold zCVecConjPair in E. change (cplx R) with C in *. rewrite O in E. now injection E.
Qed.
(** it finds a pairing whenever there is one and the comparison is exact on the elements *)
Theorem C59_pairing_complete tol (v l : list C) :
  (forall x y, In x v -> In y v -> (near_conj tol x y <-> y = Cconj x)) -> Permutation v (conj_closed l) ->
  exists w : list C, zCVecConjPair tol v = Ok (true, w).
Proof. intros H. apply zCVecConjPair_complete. intros. rewrite coconj_near. auto. Qed.
(** split into real numbers (in order) and pairs *)
Theorem C59_split tol (v : list C) :
  exists b (iv : list C), zCVecToReImVec tol v = Ok (b, map fst (filter (isreal tol) v), iv) /\
    Permutation (filter (fun c => negb (isreal tol c)) v) iv /\
    (b = true -> forall k, (2 * k + 1 < length iv)%nat -> near_conj tol (nth (2 * k) iv (RtoC 0)) (nth (2 * k + 1) iv (RtoC 0))).
Proof.
  destruct (zCVecToReImVec_ok tol v) as (b & iv & E & P & H). exists b, iv. split; auto. split; auto.
  intros Eb k Hk. apply coconj_near. apply paired_nth; auto.
Qed.
Example C59_pairing_case : exists w : list C, zCVecConjPair 0 [(1, 2); (3, 4); (1, -2); (3, -4)] = Ok (true, w).
Proof.
  apply (C59_pairing_complete 0 _ [(1, 2); (3, 4)]).
  - intros x y _ _. apply near_exact.
  - unfold conj_closed. cbn. apply perm_skip. replace (Cconj (1, 2)) with ((1, -2) : C) by (unfold Cconj; cbn; f_equal; lra).
    replace (Cconj (3, 4)) with ((3, -4) : C) by (unfold Cconj; cbn; f_equal; lra). apply perm_swap.
Qed.
(** polynomial with real coefficients at a complex point *)
Theorem C59_polynomial_value_partial p (m : cmem R) arg c : p <> [] -> arg <> c ->
  exists m', zPexCVal p m arg c = Ok m' /\ stored m c (Cpeval p (m arg)) m'.
Proof. apply zPexCVal_ok. Qed.
Theorem C59_polynomial_value_in_place_refuted : exists (p : list R) (m : cmem R) m', zPexCVal p m 0 0 = Ok m' /\ m' 0%nat <> Cpeval p (m 0%nat).
Proof.
  exists [0; 1], (fun _ => (2, 0)). eexists. split; [reflexivity|]. unfold create, wr_im, wr_re, Cpeval, cmulv. cbn. rs.
  intros E. apply (f_equal fst) in E. cbn in E. lra.
Qed.
(** expansion of a list of roots closed under conjugation: monic, the right degree, and
    the product of (x - z) at every real x *)
Theorem C59_polynomial_from_roots tol (v l : list C) : v <> [] ->
  (forall z, In z v -> Rabs (snd z) <= tol -> snd z = 0) ->
  (forall x y, In x v -> In y v -> tol < Rabs (snd x) -> tol < Rabs (snd y) -> (near_conj tol x y <-> y = Cconj x)) ->
  Permutation (filter (fun c => negb (isreal tol c)) v) (conj_closed l) ->
  exists p, zPexCExp false tol v = Ok (Some p) /\ (length p = S (length v) /\ coef p (length v) = 1) /\
    forall x, RtoC (peval p x) = Croots v (RtoC x).
Proof. intros H0 H1 H2. apply zPexCExp_ok; auto. intros. rewrite coconj_near. auto. Qed.
(** in-place use: (i, i) multiplied by i, result stored over the operand *)
Theorem C59_complex_multiple_in_place_refuted :
  exists (m : cmem R) v z n, outside z v n /\ ~ vstored m v n (fun i => Cmult (m (v + i)%nat) (m z)) (zCVecCMulNC m v z v n).
Proof.
  exists (fun _ => (0, 1)), 0%nat, 1%nat, 1%nat. split; [unfold outside; lia|]. intros H. specialize (H 0%nat). cbn in H.
  unfold zCVecCMulNC, cvloop, zComplexCMul, create, wr_im, wr_re in H. cbn in H. rs. apply (f_equal snd) in H. cbn in H. lra.
Qed.
(** a divisor with |z|^2 <= tol but a component above tol passes the check of zCVecCDiv,
    yet the vector is multiplied by the conjugate instead of divided *)
Theorem C59_small_divisor_refuted : exists (m m' : cmem R), m 1%nat <> RtoC 0 /\ zCVecCDiv (1 / 100) m 0 1 1 2 1 = Some m' /\
  m' 2%nat = Cmult (m 0%nat) (Cconj (m 1%nat)) /\ m' 2%nat <> Cdiv (m 0%nat) (m 1%nat).
Proof.
  exists (fun _ => (1 / 10, 0)). eexists. split; [intros E; injection E as E; lra|]. split.
  { unfold zCVecCDiv. cbn [Nat.eqb fst snd]. rewrite !is_tol_R, Rabs_R0, (Rabs_pos_eq (1 / 10)) by lra.
    destruct (Rleb_spec (1 / 10) (1 / 100)); [lra|]. cbn [andb]. reflexivity. }
  unfold zCVecCDivNC, sqrabs. cbn [fst snd]. rewrite is_tol_R. rs. replace (1 / 10 * (1 / 10) + 0 * 0) with (1 / 100) by field.
  rewrite (Rabs_pos_eq (1 / 100)) by lra. destruct (Rleb_spec (1 / 100) (1 / 100)); [|lra].
  unfold cvloop, create, wr_im, wr_re. cbn. rs. split; [apply C_eq; cbn; ring|].
  replace (Cdiv (1 / 10, 0) (1 / 10, 0)) with (RtoC 1). 2:{ symmetry. unfold Cdiv. apply Cinv_r. intros E. injection E as E. lra. }
  intros E. apply (f_equal fst) in E. cbn in E. lra.
Qed.

Print Assumptions C16_log_inverts_pow.
Print Assumptions C17_cubic.
Print Assumptions C17_double_zero_root_refuted.
Print Assumptions C59_polynomial_from_roots.
