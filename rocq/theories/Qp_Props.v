(** C45 (conversion to the standard form), C46 (quadratic programs). *)
From Coq Require Import Reals Lra Lia Psatz QArith.
From Verif Require Import Prelude Prelude_Proofs Scalar RealLib Fmat Fmat_Proofs LE_Model IP_Model Vop Root_Model Root_Proofs Qp_Model Qp_Spec Qp_Proofs Qp2_Proofs.
Local Open Scope R_scope.

(** ** C45.  For a program in n variables with m constraints A x <= b, the standard form has the points
    (x, slack), and (x+, x-, slack) when the variables are free in sign. *)
Theorem C45_ineq (a : fmat R) (c x : fvec R) (m n : nat) : nr a = m -> nc a = n -> vlen c = n -> vlen x = n ->
  exists as_ cs xs, zLPIneq2Std a c x = Ok (as_, cs, xs) /\
    nr as_ = m /\ nc as_ = (n + m)%nat /\ vlen cs = (n + m)%nat /\ vlen xs = (n + m)%nat /\
    forall b,
    (forall z, std_feasible m (n + m) (el as_) b z ->
       nonneg n z /\ below m n (el a) b z /\ dot (n + m) (vel cs) z = dot n (vel c) z) /\
    (forall y, nonneg n y -> below m n (el a) b y ->
       exists z, std_feasible m (n + m) (el as_) b z /\ (forall j, (j < n)%nat -> z j = y j) /\ dot (n + m) (vel cs) z = dot n (vel c) y).
Proof.
  intros H1 H2 H3 H4. destruct (ineq2std_ok a c x m n H1 H2 H3 H4) as (as_ & cs & E & R1 & C1 & L1 & V1 & V2).
  exists as_, cs, (vzero (n + m)). split; [exact E|]. do 4 (split; [auto|]). intros b.
  assert (MV : forall z i, (i < m)%nat -> mulv (n + m) (el as_) z i = mulv n (el a) z i + z (n + i)%nat).
  { intros z i Hi. rewrite <- (mulv_ineq n m) by exact Hi. apply rsum_ext. intros j Hj. rewrite V1 by auto. reflexivity. }
  assert (DT : forall z, dot (n + m) (vel cs) z = dot n (vel c) z).
  { intros z. unfold dot. rewrite rsum_app. rewrite (rsum_0 m) by (intros j Hj; rewrite V2 by lia; nb; ring). rewrite Rplus_0_r.
    apply rsum_ext. intros j Hj. rewrite V2 by lia. nb. reflexivity. }
  split.
  - intros z (Z & ZB). split; [intros j Hj; apply Z; lia|]. split; [|apply DT].
    intros i Hi. rewrite <- (ZB i Hi), MV by auto. pose proof (Z (n + i)%nat ltac:(lia)). lra.
  - intros y Y B. exists (fun j => if (j <? n)%nat then y j else b (j - n)%nat - mulv n (el a) y (j - n)%nat).
    assert (X : forall i, mulv n (el a) (fun j => if (j <? n)%nat then y j else b (j - n)%nat - mulv n (el a) y (j - n)%nat) i = mulv n (el a) y i).
    { intros i. apply mulv_ext. intros j Hj. nb. reflexivity. }
    split; [split|split].
    + intros j Hj. nb; [apply Y; lia|]. pose proof (B (j - n)%nat ltac:(lia)). lra.
    + intros i Hi. rewrite MV, X by auto. nb. replace (n + i - n)%nat with i by lia. lra.
    + intros j Hj. nb. reflexivity.
    + rewrite DT. apply rsum_ext. intros j Hj. nb. reflexivity.
Qed.
Theorem C45_unbounded (a : fmat R) (c x : fvec R) (m n : nat) : nr a = m -> nc a = n -> vlen c = n -> vlen x = n ->
  exists as_ cs xs, zLPUnb2Std a c x = Ok (as_, cs, xs) /\
    nr as_ = m /\ nc as_ = (n * 2 + m)%nat /\ vlen cs = (n * 2 + m)%nat /\ vlen xs = (n * 2 + m)%nat /\
    forall b,
    (forall z, std_feasible m (n * 2 + m) (el as_) b z -> let y := fun j => z j - z (n + j)%nat in
       below m n (el a) b y /\ dot (n * 2 + m) (vel cs) z = dot n (vel c) y) /\
    (forall y, below m n (el a) b y ->
       exists z, std_feasible m (n * 2 + m) (el as_) b z /\ (forall j, (j < n)%nat -> z j - z (n + j)%nat = y j) /\ dot (n * 2 + m) (vel cs) z = dot n (vel c) y).
Proof.
  intros H1 H2 H3 H4. destruct (unb2std_ok a c x m n H1 H2 H3 H4) as (as_ & cs & E & R1 & C1 & L1 & V1 & V2).
  exists as_, cs, (vzero (n * 2 + m)). split; [exact E|]. do 4 (split; [auto|]). intros b.
  assert (MV : forall z i, (i < m)%nat -> mulv (n * 2 + m) (el as_) z i = mulv n (el a) (fun j => z j - z (n + j)%nat) i + z (n * 2 + i)%nat).
  { intros z i Hi. rewrite <- (mulv_unb n m) by exact Hi. apply rsum_ext. intros j Hj. rewrite V1 by auto. reflexivity. }
  assert (DT : forall z, dot (n * 2 + m) (vel cs) z = dot n (vel c) (fun j => z j - z (n + j)%nat)).
  { intros z. unfold dot. rewrite rsum_app. rewrite (rsum_0 m) by (intros j Hj; rewrite V2 by lia; nb; ring). rewrite Rplus_0_r.
    replace (n * 2)%nat with (n + n)%nat by lia. rewrite rsum_app, <- rsum_add.
    apply rsum_ext. intros j Hj. rewrite !V2 by lia. nb. replace (n + j - n)%nat with j by lia. ring. }
  split.
  - intros z (Z & ZB). cbv zeta. split; [|apply DT].
    intros i Hi. rewrite <- (ZB i Hi), MV by auto. pose proof (Z (n * 2 + i)%nat ltac:(lia)). lra.
  - intros y B. set (z := fun j => if (j <? n)%nat then Rmax (y j) 0 else if (j <? n * 2)%nat then Rmax (- y (j - n)%nat) 0 else b (j - n * 2)%nat - mulv n (el a) y (j - n * 2)%nat).
    assert (ZY : forall j, (j < n)%nat -> z j - z (n + j)%nat = y j).
    { intros j Hj. unfold z. nb. replace (n + j - n)%nat with j by lia. unfold Rmax. destruct (Rle_dec _ _), (Rle_dec _ _); lra. }
    exists z. split; [split|split].
    + intros j Hj. unfold z. nb; [apply Rmax_r|apply Rmax_r|]. pose proof (B (j - n * 2)%nat ltac:(lia)). lra.
    + intros i Hi. rewrite MV by auto. rewrite (mulv_ext n (el a) (fun j => z j - z (n + j)%nat) y) by exact ZY. unfold z. nb.
      replace (n * 2 + i - n * 2)%nat with i by lia. lra.
    + exact ZY.
    + rewrite DT. apply dot_ext; auto.
Qed.

(** ** C46 *)
Theorem C46_value (q : fmat R) (c x : fvec R) : nr q = vlen x -> nc q = vlen x -> vlen c = vlen x ->
  zQuadraticValue q c x = Ok (quad (vlen x) (el q) (vel c) (vel x)).
Proof. apply qv_ok. Qed.
(** other sizes are answered by zero, and nothing is read outside *)
Theorem C46_value_sizes {T} {ST : Scalar T} (q : fmat T) (c x : fvec T) : nr q <> vlen x \/ nc q <> vlen x \/ vlen c <> vlen x ->
  zQuadraticValue q c x = Ok 0%S.
Proof.
  intros H. unfold zQuadraticValue. destruct (Nat.eqb_spec (nr q) (nc q)); cbn [negb]; auto.
  destruct (Nat.eqb_spec (nr q) (vlen x)); cbn [negb]; auto. destruct (Nat.eqb_spec (vlen c) (vlen x)); cbn [negb]; auto.
  exfalso. destruct H as [H|[H|H]]; congruence.
Qed.
(** With any solver that answers solutions of the complementarity problem only, a point that zQPSolve answers
    minimises 1/2 x^T Q x + c^T x under A x >= b, x >= 0, for a positive semidefinite Q. *)
Definition sound_lcp (lcp : fmat R -> fvec R -> fvec R -> res (option (fvec R))) : Prop :=
  forall M q z z' k, nr M = k -> nc M = k -> vlen q = k -> vlen z = k -> lcp M q z = Ok (Some z') ->
    vlen z' = k /\ solves_lcp k (el M) (vel q) (vel z').
Theorem C46_qp lcp (q a : fmat R) (c b ans x : fvec R) cost (n m : nat) : sound_lcp lcp ->
  nr q = n -> nc q = n -> vlen c = n -> nr a = m -> nc a = n -> vlen b = m -> vlen ans = n ->
  symmetric n (el q) -> psd n (el q) ->
  zQPSolve lcp q c (Some a) (Some b) ans = Ok (Some (x, cost)) ->
  vlen x = n /\ feasible m n (el a) (vel b) (vel x) /\ cost = quad n (el q) (vel c) (vel x) /\
  forall y, feasible m n (el a) (vel b) y -> cost <= quad n (el q) (vel c) y.
Proof.
  intros S H1 H2 H3 H4 H5 H6 H7 SY P E. unfold zQPSolve in E.
  destruct (qp2lcp_ok q c a b n m H1 H2 H3 H4 H5 H6) as (lm & lq & E1 & R1 & C1 & L1 & V1 & V2). rewrite E1 in E. cbn [bind] in E.
  destruct (lcp lm lq (vzero (n + m))) as [[z|]|] eqn:EL; cbn [bind] in E; try discriminate.
  destruct (S lm lq (vzero (n + m)) z (n + m)%nat R1 C1 L1 eq_refl EL) as (LZ & SZ).
  assert (SZ' : solves_lcp (n + m) (lcp_mat n (el q) (el a)) (lcp_vec n (vel c) (vel b)) (vel z)).
  { unfold solves_lcp in *. cbv zeta in *. destruct SZ as (Z1 & Z2 & Z3).
    assert (W : forall i, (i < n + m)%nat -> mulv (n + m) (el lm) (vel z) i + vel lq i = mulv (n + m) (lcp_mat n (el q) (el a)) (vel z) i + lcp_vec n (vel c) (vel b) i).
    { intros i Hi. rewrite V2 by auto. f_equal. apply rsum_ext. intros j Hj. rewrite V1 by auto. reflexivity. }
    split; [exact Z1|]. split.
    - intros i Hi. rewrite <- W by auto. apply Z2. exact Hi.
    - rewrite <- Z3. apply dot_ext; auto. intros; symmetry; apply W; auto. }
  destruct (kkt n m _ _ _ _ _ SY P SZ') as (F & M).
  assert (G : zVecGet z 0 ans = FV n (vel z)).
  { unfold zVecGet. rewrite H7, LZ. replace ((0 + n <=? n + m)%nat) with true by (symmetry; apply Nat.leb_le; lia). reflexivity. }
  rewrite G in E. rewrite qv_ok in E by (cbn [vlen]; congruence). cbn [bind vlen vel] in E. inversion E; subst x cost.
  split; [reflexivity|]. split; [exact F|]. split; [reflexivity|]. exact M.
Qed.
(** Conversely every solution of the complementarity problem is made of a feasible point and multipliers that
    fulfil the conditions of Karush, Kuhn and Tucker, and conversely. *)
Theorem C46_kkt (q a : fmat R) (c b : fvec R) (n m : nat) :
  nr q = n -> nc q = n -> vlen c = n -> nr a = m -> nc a = n -> vlen b = m ->
  exists lm lq z0, zQP2LCP q c (Some a) (Some b) = Ok (lm, lq, z0) /\
  forall z, solves_lcp (n + m) (el lm) (vel lq) z <->
    let lam := fun k => z (n + k)%nat in
    let r := fun i => mulv n (el q) z i + vel c i - rsum m (fun k => el a k i * lam k) in
    feasible m n (el a) (vel b) z /\ nonneg m lam /\ nonneg n r /\
    dot n z r + dot m lam (fun i => mulv n (el a) z i - vel b i) = 0.
Proof.
  intros H1 H2 H3 H4 H5 H6. destruct (qp2lcp_ok q c a b n m H1 H2 H3 H4 H5 H6) as (lm & lq & E1 & R1 & C1 & L1 & V1 & V2).
  exists lm, lq, (vzero (n + m)). split; [exact E1|]. intros z. unfold solves_lcp. cbv zeta.
  assert (WT : forall i, (i < n)%nat -> mulv (n + m) (el lm) z i + vel lq i = mulv n (el q) z i + vel c i - rsum m (fun k => el a k i * z (n + k)%nat)).
  { intros i Hi. rewrite V2 by lia. unfold lcp_vec. nb. transitivity (mulv (n + m) (lcp_mat n (el q) (el a)) z i + vel c i).
    - f_equal. apply rsum_ext. intros j Hj. rewrite V1 by lia. reflexivity.
    - rewrite mulv_block_top by auto. ring. }
  assert (WB : forall i, (i < m)%nat -> mulv (n + m) (el lm) z (n + i) + vel lq (n + i)%nat = mulv n (el a) z i - vel b i).
  { intros i Hi. rewrite V2 by lia. unfold lcp_vec. nb. replace (n + i - n)%nat with i by lia. transitivity (mulv (n + m) (lcp_mat n (el q) (el a)) z (n + i) + - vel b i).
    - f_equal. apply rsum_ext. intros j Hj. rewrite V1 by lia. reflexivity.
    - rewrite mulv_block_bot. ring. }
  assert (D : dot (n + m) z (fun i => mulv (n + m) (el lm) z i + vel lq i) =
    dot n z (fun i => mulv n (el q) z i + vel c i - rsum m (fun k => el a k i * z (n + k)%nat)) + dot m (fun k => z (n + k)%nat) (fun i => mulv n (el a) z i - vel b i)).
  { unfold dot. rewrite rsum_app. f_equal; apply rsum_ext; intros i Hi; [rewrite WT|rewrite WB]; auto. }
  rewrite D. unfold feasible, nonneg. split.
  - intros (A1 & A2 & A3). repeat split; auto.
    + intros i Hi. apply A1. lia.
    + intros i Hi. specialize (A2 (n + i)%nat ltac:(lia)). rewrite WB in A2 by auto. lra.
    + intros i Hi. apply A1. lia.
    + intros i Hi. specialize (A2 i ltac:(lia)). rewrite WT in A2 by auto. lra.
  - intros ((A1 & A2) & A3 & A4 & A5). repeat split; auto.
    + intros i Hi. destruct (Nat.lt_ge_cases i n); [apply A1; auto|]. replace i with (n + (i - n))%nat by lia. apply A3. lia.
    + intros i Hi. destruct (Nat.lt_ge_cases i n); [rewrite WT by auto; apply A4; auto|].
      replace i with (n + (i - n))%nat by lia. rewrite WB by lia. specialize (A2 (i - n)%nat ltac:(lia)). lra.
Qed.
(** Constraints cannot be omitted: a null matrix is dereferenced. *)
Theorem C46_no_constraints_refuted {T} {ST : Scalar T} lcp (q : fmat T) c b ans : zQPSolve lcp q c None b ans = UB.
Proof. reflexivity. Qed.

(** The conjugate gradient solver, for a symmetric positive definite Q.  It answers in every case, with the value
    at the answer, which is never above that at the start.  The gradient Q x + c is within the tolerance, or all
    iterations were made and the gap to the minimum shrank by the factor 1 - l/(4L) in each, l and L being
    bounds of the eigenvalues of Q. *)
Theorem C46_conjugate_gradient_partial (q : fmat R) (c x0 : fvec R) tol iter (n : nat) :
  nr q = n -> nc q = n -> vlen c = n -> vlen x0 = n -> symmetric n (el q) -> pos_def n (el q) -> 0 <= tol ->
  let F := quad n (el q) (vel c) in
  exists x, zCGSolve tol q c x0 iter = Ok (x, F (vel x)) /\ vlen x = n /\ F (vel x) <= F (vel x0) /\
    ((forall i, (i < n)%nat -> Rabs (mulv n (el q) (vel x) i + vel c i) <= tol) \/
     forall y l L, (forall i, (i < n)%nat -> mulv n (el q) y i + vel c i = 0) ->
       0 < l -> (forall v, l * dot n v v <= dot n v (mulv n (el q) v) <= L * dot n v v) ->
       F (vel x) - F y <= (1 - l / (4 * L)) ^ ziter iter * (F (vel x0) - F y)).
Proof.
  intros H1 H2 H3 H4 SY PD Ht F. unfold zCGSolve, zMulMatVec. cbn [vlen vzero]. rewrite H1, H2, H4, Nat.eqb_refl. cbn [andb].
  destruct (mulmv_R q x0 (vzero n)) as (g0 & -> & L0 & G0); [congruence|cbn; congruence|]. cbn [bind]. cbn [vlen vzero] in L0, G0.
  unfold zVecAddC, zVecAddNC, vop2. rewrite L0, H3, !Nat.eqb_refl, !Nat.leb_refl. cbn [andb bind].
  set (g := FV n _). assert (G : forall i, (i < n)%nat -> vel g i = mulv n (el q) (vel x0) i + vel c i).
  { intros i Hi. unfold g. cbn [vel sadd RealS]. rewrite G0, H4 by auto. reflexivity. }
  destruct (zVecIsTol tol g) eqn:ET; cbn [bind].
  - exists x0. rewrite qv_ok by congruence. cbn [bind]. rewrite H4. split; [reflexivity|]. split; [auto|]. split; [unfold F; lra|].
    left. intros i Hi. rewrite <- G by auto. apply (istol_R _ _ ET). exact Hi.
  - unfold zVecCopyC, zVecCopyNC, vop1. cbn [vlen vzero g]. rewrite Nat.eqb_refl, Nat.leb_refl. cbn [bind]. fold g.
    set (d := FV n _). assert (I : cginv q (vel c) n x0 g d).
    { assert (DG : forall i, (i < n)%nat -> vel d i = vel g i) by reflexivity. repeat split; auto.
      - rewrite (dot_ext n (vel d) (vel g) (mulv n (el q) (vel d)) (mulv n (el q) (vel g))) by (auto; intros; apply mulv_ext; auto).
        assert (0 <= dot n (vel g) (mulv n (el q) (vel g))) by (apply (pd_psd q n PD)). lra.
      - destruct (istol_R_f _ _ ET) as (i & I1 & I2). exists i. split; [exact I1|]. intros Z. rewrite Z, Rabs_R0 in I2. lra. }
    destruct (rate q (vel c) n tol H1 H2 SY PD Ht (ziter iter) x0 g d I) as (fl & x & g' & d' & -> & Lx & M & K).
    cbn [rmap fst snd bind]. exists x. rewrite qv_ok by congruence. cbn [bind]. rewrite Lx. split; [reflexivity|]. split; [auto|]. split; [exact M|].
    destruct fl; [left; exact K|right]. intros y l L Hy Hl Hb. apply K; [exact Hy|split; auto].
Qed.
(** It does not end within n iterations as a method of conjugate gradients does in exact arithmetic: the
    directions are not conjugate, as the second term of the new direction has the wrong sign.  Two variables,
    Q = diag(1,2), c = 0, from (2,1), two iterations. *)
Theorem C46_conjugate_gradient_refuted :
  let q := mat_of 0%Q [[1; 0]; [0; 2]]%Q in let c := vec_of 0%Q [0; 0]%Q in
  match zCGSolve 0%Q q c (vec_of 0%Q [2; 1]%Q) 2 with
  | Ok (x, v) => Qlt 0 v /\ Qlt (1 # 100) (vel x 0%nat)
  | UB => False end.
Proof. vm_compute. auto. Qed.

(** *** the hypotheses can be met *)
Definition q2 : fmat R := FM 2 2 (fun i j => if (i =? j)%nat then INR (S i) else 0).
Example C46_case : symmetric 2 (el q2) /\ pos_def 2 (el q2) /\ (forall v, 1 * dot 2 v v <= dot 2 v (mulv 2 (el q2) v) <= 2 * dot 2 v v) /\
  (forall i, (i < 2)%nat -> mulv 2 (el q2) (fun _ => 1) i + (fun k => - INR (S k)) i = 0).
Proof.
  split; [|split; [|split]].
  - intros i j Hi Hj. cbn [el q2]. destruct (Nat.eqb_spec i j), (Nat.eqb_spec j i); subst; auto; congruence.
  - intros v (i & Hi & Hv). unfold dot, mulv. cbn. assert (0 <= v 0%nat * v 0%nat) by nra. assert (0 <= v 1%nat * v 1%nat) by nra.
    destruct i as [|[|i]]; [| |lia]; [assert (0 < v 0%nat * v 0%nat) by nra|assert (0 < v 1%nat * v 1%nat) by nra]; lra.
  - intros v. unfold dot, mulv. cbn. assert (0 <= v 0%nat * v 0%nat) by nra. assert (0 <= v 1%nat * v 1%nat) by nra. lra.
  - intros i Hi. unfold mulv. destruct i as [|[|i]]; [| |lia]; cbn; ring.
Qed.
(** a complementarity problem with a solution: minimise x^2/2 - x... under x >= 2: the answer 2, multiplier 1 *)
Example C46_lcp_case : solves_lcp 2 (lcp_mat 1 (fun _ _ => 1) (fun _ _ => 1)) (lcp_vec 1 (fun _ => -1) (fun _ => 2)) (fun i => if (i =? 0)%nat then 2 else 1) /\
  sound_lcp (fun _ q z => if forallb (fun i => Rleb 0 (vel q i)) (List.seq 0 (vlen q)) then Ok (Some (FV (vlen z) (fun _ => 0))) else Ok None).
Proof.
  split.
  - unfold solves_lcp, nonneg, dot, mulv, lcp_mat, lcp_vec. cbn. repeat split; try lra.
    + intros i Hi. destruct (Nat.eqb_spec i 0); lra.
    + intros i Hi. destruct i as [|[|i]]; cbn; try lra; lia.
  - intros M q z z' k H1 H2 H3 H4. destruct (forallb _ _) eqn:F; intros E; inversion E; subst z'. split; [exact H4|].
    rewrite forallb_forall in F. unfold solves_lcp. cbv zeta. cbn [vel]. assert (Z : forall i, mulv k (el M) (fun _ => 0) i = 0) by (intros; apply rsum_0; intros; ring).
    split; [intros i _; lra|]. split.
    + intros i Hi. rewrite Z. specialize (F i). rewrite in_seq in F. specialize (F ltac:(lia)). destruct (Rleb_spec 0 (vel q i)); [lra|discriminate].
    + apply rsum_0. intros; ring.
Qed.
Example C45_case : let a := mat_of 0%Q [[1; 2]; [3; 4]]%Q in
  match zLPIneq2Std a (vec_of 0%Q [5; 6]%Q) (vec_of 0%Q [0; 0]%Q), zLPUnb2Std a (vec_of 0%Q [5; 6]%Q) (vec_of 0%Q [0; 0]%Q) with
  | Ok (m1, c1, x1), Ok (m2, c2, x2) =>
      to_lists m1 = [[1; 2; 1; 0]; [3; 4; 0; 1]]%Q /\ to_list c1 = [5; 6; 0; 0]%Q /\
      to_lists m2 = [[1; 2; - (1); - (2); 1; 0]; [3; 4; - (3); - (4); 0; 1]]%Q /\ to_list c2 = [5; 6; - (5); - (6); 0; 0]%Q
  | _, _ => False end.
Proof. vm_compute. auto. Qed.
Example C46_run : match zCGSolve (1#1000)%Q (mat_of 0%Q [[2; 0]; [0; 2]]%Q) (vec_of 0%Q [-2; -4]%Q) (vec_of 0%Q [5; 5]%Q) 3 with
  | Ok (x, v) => (vel x 0%nat == 1 /\ vel x 1%nat == 2 /\ v == -5)%Q | UB => False end.
Proof. vm_compute. auto. Qed.
Print Assumptions C45_ineq.
Print Assumptions C45_unbounded.
Print Assumptions C46_value.
Print Assumptions C46_value_sizes.
Print Assumptions C46_qp.
Print Assumptions C46_kkt.
Print Assumptions C46_no_constraints_refuted.
Print Assumptions C46_conjugate_gradient_partial.
Print Assumptions C46_conjugate_gradient_refuted.
