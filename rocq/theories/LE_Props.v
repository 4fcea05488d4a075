(** C22-C30, C67: linear equations. *)
From Coq Require Import QArith.
From Verif Require Import Prelude Prelude_Proofs Scalar RealLib Fmat Fmat_Proofs Safe LE_Model LE_Spec.
From Verif Require Import LE_Proofs LE2_Proofs LE3_Proofs LE4_Proofs LE5_Proofs LE6_Proofs Det_Proofs LE7_Proofs LE8_Proofs LE9_Proofs.
Local Open Scope R_scope.

(** ** C22.  A history of pivoting steps, each on its own matrix (the matrices change
    between the steps of an algorithm), row and column.  [perm n idx]: idx is a
    permutation of 0..n-1; [pos idx j] is its j-th entry. *)
Inductive pstep (T : Type) := PCol (m : fmat T) (r c : nat) | PDiag (m : fmat T) (r : nat).
Arguments PCol {T}. Arguments PDiag {T}.
Definition pivot {T} {ST : Scalar T} (s : pstep T) idx := match s with PCol m r c => zMatPivoting m idx r c | PDiag m r => zMatPivotingDiag m idx r end.
Definition prow {T} (s : pstep T) : nat := match s with PCol _ r _ => r | PDiag _ r => r end.
Definition pvalid {T} n (s : pstep T) : Prop := match s with PCol m r c => (r < n <= nr m)%nat /\ (c < nc m)%nat | PDiag m r => (r < n <= nr m)%nat /\ (n <= nc m)%nat end.
Fixpoint pivots {T} {ST : Scalar T} (h : list (pstep T)) idx : res (list nat) :=
  match h with [] => Ok idx | s :: t => idx <- pivot s idx ;; pivots t idx end.
Theorem C22_permutation {T} {ST : Scalar T} n (h : list (pstep T)) idx : perm n idx -> Forall (pvalid n) h ->
  exists idx', pivots h idx = Ok idx' /\ perm n idx'.
Proof.
  intros P H. revert idx P. induction H as [|s t Hs _ IH]; intros idx P; [exists idx; auto|]. cbn [pivots].
  assert (exists idx1, pivot s idx = Ok idx1 /\ perm n idx1) as (idx1 & E & P1).
  { destruct s as [m r c|m r]; destruct Hs as [H1 H2].
    - destruct (zMatPivoting_perm m n idx r c) as (i1 & pi & E & P1 & _); auto; try lia. eauto.
    - destruct (zMatPivotingDiag_perm m n idx r) as (i1 & pi & E & P1 & _); auto; try lia. eauto. }
  rewrite E. cbn [bind]. auto.
Qed.
(** one step exchanges entry r with a later one (rows already chosen stay), and over the
    reals brings the entry of largest magnitude to place r *)
Theorem C22_step {T} {ST : Scalar T} n (s : pstep T) idx : perm n idx -> pvalid n s ->
  exists idx' q, pivot s idx = Ok idx' /\ (prow s <= q < n)%nat /\
    forall k, pos idx' k = if (k =? prow s)%nat then pos idx q else if (k =? q)%nat then pos idx (prow s) else pos idx k.
Proof.
  intros P Hs. destruct s as [m r c|m r]; destruct Hs as [H1 H2].
  - destruct (zMatPivoting_perm m n idx r c) as (i1 & pi & E & P1 & H & S); auto; try lia. exists i1, pi. auto.
  - destruct (zMatPivotingDiag_perm m n idx r) as (i1 & pi & E & P1 & H & S); auto; try lia. exists i1, pi. auto.
Qed.
Theorem C22_largest n (m : fmat R) idx r c : perm n idx -> (r < n <= nr m)%nat -> (c < nc m)%nat ->
  exists idx', zMatPivoting m idx r c = Ok idx' /\ forall k, (r <= k < n)%nat -> Rabs (el m (pos idx' k) c) <= Rabs (el m (pos idx' r) c).
Proof. intros P [H1 H2] Hc. destruct (zMatPivoting_ok m n idx r c) as (i1 & pi & E & P1 & H & S & M); auto. exists i1. auto. Qed.
Theorem C22_largest_diagonal n (m : fmat R) idx r : perm n idx -> (r < n <= nr m)%nat -> (n <= nc m)%nat ->
  exists idx', zMatPivotingDiag m idx r = Ok idx' /\
   forall k, (r <= k < n)%nat -> Rabs (el m (pos idx' k) (pos idx' k)) <= Rabs (el m (pos idx' r) (pos idx' r)).
Proof. intros P [H1 H2] Hc. destruct (zMatPivotingDiag_ok m n idx r) as (i1 & pi & E & P1 & H & S & M); auto. exists i1. auto. Qed.
Definition ex33 : fmat Q := mat_of 0%Q [[1; 2; 0]; [-3; 1; 1]; [2; 0; 5]]%Q.
Example C22_case : pivots [PCol ex33 0 0; PCol ex33 1 1; PDiag ex33 0] (List.seq 0 3) = Ok [2; 0; 1]%nat /\ Forall (pvalid 3) [PCol ex33 0 0; PCol ex33 1 1; PDiag ex33 0].
Proof. split; [vm_compute; reflexivity|]. repeat constructor. Qed.

(** ** C23.  Every square system of every size; [tol] any tolerance.
    With an answer x: A' x = b for a matrix A' differing from A by negligible entries
    (at most tol times the largest entry of the column), A' being nonsingular; without
    an answer a matrix A' of that kind is singular. *)
Local Ltac rej N := repeat match goal with |- context [(?x =? ?y)%nat] => destruct (Nat.eqb_spec x y) end; cbn [negb orb andb]; try reflexivity; exfalso; apply N; repeat split; congruence.
Lemma sat_solves n A E x y : sat n A E x y <-> solves n n (madd A E) x y.
Proof. reflexivity. Qed.
Theorem C23_gauss_partial tol n (a : fmat R) (b ans : fvec R) : 0 <= tol -> (0 < n)%nat -> nr a = n -> nc a = n -> vlen b = n -> vlen ans = n ->
  exists o, zLESolveGauss tol a b ans = Ok o /\
   match o with
   | Some x => vlen x = n /\ exists E, negligible tol n (el a) E /\ solves n n (madd (el a) E) (vel x) (vel b) /\ nonsingular n (madd (el a) E)
   | None => exists E, negligible tol n (el a) E /\ ~ nonsingular n (madd (el a) E)
   end.
Proof.
  intros Ht Hn A1 A2 B X. unfold zLESolveGauss. rewrite A1, A2, B, X, !Nat.eqb_refl. cbn [negb orb]. unfold zLESolveGaussDST. rewrite B.
  destruct (mul_inv_ok tol n 1 a (col_of b) (col_of (FV n (vel ans))) (List.seq 0 n) (zvec n)) as (o & E & H); auto using perm_seq. rewrite E. cbn [rmap].
  exists (option_map of_col o). split; auto. destruct o as [Y|]; cbn [option_map].
  - destruct H as (Y1 & Y2 & F & SF & HY & HI). split; auto. exists F. split; [exact SF|]. split; [apply (HY 0%nat); lia|exact HI].
  - destruct H as (F & i & x & SF & Hi & Nx & HK). exists F. split; [exact SF|]. intros N. apply Nx. exact (N x HK i Hi).
Qed.
Lemma negligible_0 n A E : negligible 0 n A E -> forall r c, (r < n)%nat -> (c < n)%nat -> E r c = 0.
Proof.
  intros H r c Hr Hc. specialize (H r c (rsum n (fun r => Rabs (A r c))) Hr Hc). rewrite Rmult_0_l in H.
  assert (Rabs (E r c) <= 0) as L; [|pose proof (Rabs_pos (E r c)); destruct (Req_dec (E r c) 0); auto; pose proof (Rabs_pos_lt (E r c)); lra].
  apply H. intros r' Hr'. rewrite (rsum_split n r') by auto.
  pose proof (rsum_nonneg r' (fun i => Rabs (A i c)) ltac:(intros; apply Rabs_pos)).
  pose proof (rsum_nonneg (n - S r') (fun i => Rabs (A (S r' + i)%nat c)) ltac:(intros; apply Rabs_pos)). lra.
Qed.
Lemma solves_madd0 n A E x y : (forall r c, (r < n)%nat -> (c < n)%nat -> E r c = 0) -> (solves n n (madd A E) x y <-> solves n n A x y).
Proof.
  intros Z. assert (Q : forall r, (r < n)%nat -> mv n (madd A E) x r = mv n A x r) by (intros r Hr; apply rsum_ext; intros c Hc; unfold madd; rewrite Z by auto; ring).
  split; intros H r Hr; rewrite <- (H r Hr); [symmetry|]; auto.
Qed.
Lemma nonsingular_madd0 n A E : (forall r c, (r < n)%nat -> (c < n)%nat -> E r c = 0) -> (nonsingular n (madd A E) <-> nonsingular n A).
Proof. intros Z. split; intros H x S; apply H; now apply (solves_madd0 n A E x (fun _ => 0)). Qed.
(** without a tolerance: an answer exactly for the nonsingular matrices, and A x = b *)
Theorem C23_gauss_exact n (a : fmat R) (b ans : fvec R) : (0 < n)%nat -> nr a = n -> nc a = n -> vlen b = n -> vlen ans = n ->
  exists o, zLESolveGauss 0 a b ans = Ok o /\
   match o with Some x => vlen x = n /\ solves n n (el a) (vel x) (vel b) /\ nonsingular n (el a) | None => ~ nonsingular n (el a) end.
Proof.
  intros Hn A1 A2 B X. destruct (C23_gauss_partial 0 n a b ans) as (o & E & H); auto; try lra. exists o. split; auto. destruct o as [x|].
  - destruct H as (L & F & SF & H1 & H2). pose proof (negligible_0 _ _ _ SF) as Z. split; auto. split; [now apply (solves_madd0 n (el a) F)|now apply (nonsingular_madd0 n (el a) F)].
  - destruct H as (F & SF & H). pose proof (negligible_0 _ _ _ SF) as Z. now rewrite nonsingular_madd0 in H.
Qed.
Theorem C23_rejects {T} {ST : Scalar T} tol (a : fmat T) (b ans : fvec T) :
  ~ (nr a = nc a /\ nc a = vlen b /\ vlen ans = vlen b) -> zLESolveGauss tol a b ans = Ok None.
Proof. unfold zLESolveGauss. intros N. rej N. Qed.
(** any scalar type, so also doubles with their NaNs: the n pivots are processed and
    nothing outside the arguments is touched *)
Theorem C23_safe {T} {ST : Scalar T} tol (a : fmat T) (b ans : fvec T) : (0 < vlen b)%nat -> exists o, zLESolveGauss tol a b ans = Ok o.
Proof.
  intros Hn. unfold zLESolveGauss. destruct (Nat.eqb_spec (nr a) (nc a)) as [E1|]; cbn [negb]; eauto. destruct (Nat.eqb_spec (nc a) (vlen b)) as [E2|]; cbn [negb orb]; eauto.
  destruct (Nat.eqb_spec (vlen ans) (vlen b)) as [E3|]; cbn [negb orb]; eauto. unfold zLESolveGaussDST.
  destruct (s_mul_inv tol (vlen b) 1 a (col_of b) (col_of (FV (vlen b) (vel ans))) (List.seq 0 (vlen b)) (Some (zvec (vlen b)))) as (o & E & _); auto using perm_seq.
  all: try (split; cbn; congruence). rewrite E. cbn [rmap]. eauto.
Qed.
Definition tol12 : Q := 1 # 1000000000000.
Definition qeq_lists (a b : list Q) : bool := (length a =? length b)%nat && forallb (fun p => Qeq_bool (fst p) (snd p)) (combine a b).
Definition solves_q (a : fmat Q) (x b : fvec Q) : bool :=
  qeq_lists (map (fun r => fold_right Qplus 0%Q (map (fun c => el a r c * vel x c)%Q (List.seq 0 (nc a)))) (List.seq 0 (nr a))) (to_list b).
Example C23_case : match zLESolveGauss tol12 (mat_of 0%Q [[0; 2; 1]; [3; 1; -1]; [1; 1; 4]]%Q) (vec_of 0%Q [7; 2; 15]%Q) (zvec 3) with
  Ok (Some x) => qeq_lists (to_list x) [1; 2; 3]%Q | _ => false end = true.
Proof. vm_compute. reflexivity. Qed.
(** with the tolerance of the library the answer need not solve the system *)
Theorem C23_tolerance_refuted : exists (a : fmat Q) (b x : fvec Q), zLESolveGauss tol12 a b (zvec 2) = Ok (Some x) /\ solves_q a x b = false.
Proof.
  exists (mat_of 0%Q [[1; 0]; [1 # 10000000000000; 1]]%Q), (vec_of 0%Q [1; 1]%Q). eexists. split; [vm_compute; reflexivity|]. vm_compute. reflexivity.
Qed.

(** ** C24.  Row [pos idx i] of L is the i-th row of the triangle. *)
Theorem C24_lower n (l : fmat R) (b ans : fvec R) idx : perm n idx -> nr l = n -> nc l = n -> vlen b = n -> vlen ans = n ->
  (forall i, (i < n)%nat -> el l (pos idx i) i <> 0) -> (forall i j, (i < n)%nat -> (i < j < n)%nat -> el l (pos idx i) j = 0) ->
  exists x, zLESolveL l b ans idx = Ok x /\ vlen x = n /\ solves n n (el l) (vel x) (vel b).
Proof.
  intros P L1 L2 B X D Z. destruct (solveL_ok n l b ans idx) as (x & E & V & H); auto; try lia. exists x. split; auto. split; [congruence|].
  intros q Hq. destruct (perm_onto n idx q) as (i & Hi & <-); auto. rewrite <- (H D i Hi). unfold mv. rewrite (rsum_split n i) by auto.
  rewrite (rsum_0 (n - S i)); [cbn [rsum]; lra|]. intros t Ht. rewrite Z by lia. lra.
Qed.
(** U must have a unit diagonal: the code does not divide by it *)
Theorem C24_upper_partial n (u : fmat R) (b ans : fvec R) : nr u = n -> nc u = n -> vlen b = n -> vlen ans = n ->
  (forall i, (i < n)%nat -> el u i i = 1) -> (forall i j, (i < n)%nat -> (j < i)%nat -> el u i j = 0) ->
  exists x, zLESolveU u b ans = Ok x /\ vlen x = n /\ solves n n (el u) (vel x) (vel b).
Proof.
  intros U1 U2 B X D Z. destruct (solveU_ok n u b ans) as (x & E & V & H); auto; try lia. exists x. split; auto. split; [congruence|].
  intros i Hi. rewrite <- (H i Hi). unfold mv. rewrite (rsum_split n i) by auto. rewrite D by auto.
  rewrite (rsum_0 i); [lra|]. intros t Ht. rewrite Z by lia. lra.
Qed.
Theorem C24_upper_refuted : exists u b : list (list Q), let U := mat_of 0%Q u in (forall i j, (j < i)%nat -> el U i j = 0%Q) /\
  (forall i, (i < 1)%nat -> ~ el U i i == 0)%Q /\
  exists x, zLESolveU U (vec_of 0%Q [6]%Q) (zvec 1) = Ok x /\ solves_q U x (vec_of 0%Q [6]%Q) = false.
Proof.
  exists [[2%Q]], []. cbn zeta. split; [|split].
  - intros i j H. destruct i; [lia|]. cbn. destruct i, j; reflexivity.
  - intros i Hi. replace i with 0%nat by lia. cbn. discriminate.
  - eexists. split; [vm_compute; reflexivity|]. vm_compute. reflexivity.
Qed.
Theorem C24_lu n (l u : fmat R) (b ans : fvec R) idx : perm n idx -> nr l = n -> nc l = n -> nr u = n -> nc u = n -> vlen b = n -> vlen ans = n ->
  (forall i, (i < n)%nat -> el l (pos idx i) i <> 0) -> (forall i j, (i < n)%nat -> (i < j < n)%nat -> el l (pos idx i) j = 0) ->
  (forall i, (i < n)%nat -> el u i i = 1) -> (forall i j, (i < n)%nat -> (j < i)%nat -> el u i j = 0) ->
  exists x, zLESolveLU l u b ans idx = Ok (Some x) /\ vlen x = n /\ solves n n (mm n (el l) (el u)) (vel x) (vel b).
Proof.
  intros P L1 L2 U1 U2 B X DL ZL DU ZU. unfold zLESolveLU. pose proof P as (PL & _). rewrite PL, L1, L2, U1, U2, B, X, Nat.eqb_refl. cbn [negb orb].
  destruct (C24_lower n l b (zvec n) idx) as (c & Ec & Vc & Hc); auto. rewrite Ec. cbn [bind].
  destruct (C24_upper_partial n u c ans) as (x & Ex & Vx & Hx); auto. rewrite Ex. cbn [rmap]. exists x. split; auto. split; auto.
  intros r Hr. rewrite <- (Hc r Hr). unfold mv, mm. transitivity (rsum n (fun c0 => rsum n (fun k => el l r k * (el u k c0 * vel x c0)))).
  - apply rsum_ext. intros c0 _. rewrite <- rsum_scal_r. apply rsum_ext. intros; ring.
  - rewrite rsum_swap. apply rsum_ext. intros k Hk. rewrite rsum_scal. f_equal. apply (Hx k Hk).
Qed.
Theorem C24_lu_rejects {T} {ST : Scalar T} (l u : fmat T) (b ans : fvec T) idx : let n := length idx in
  ~ (nr l = n /\ nc l = n /\ nr u = n /\ nc u = n /\ vlen b = n /\ vlen ans = n) -> zLESolveLU l u b ans idx = Ok None.
Proof. intros n N. unfold zLESolveLU. fold n. rej N. Qed.
Example C24_case : match zLESolveLU (mat_of 0%Q [[4; 2; 0]; [3; 0; 0]; [1; 1; 5]]%Q) (mat_of 0%Q [[1; 2; 1]; [0; 1; 3]; [0; 0; 1]]%Q) (vec_of 0%Q [54; 24; 34]%Q) (zvec 3) [1; 0; 2]%nat with
  Ok (Some x) => qeq_lists (to_list x) [1; 2; 3]%Q | _ => false end = true.
Proof. vm_compute. reflexivity. Qed.

(** ** C25.  R x C matrices with C <= R. *)
Theorem C25_lu_partial tol Rn Cn (m l u : fmat R) idx : 0 <= tol -> nr m = Rn -> nc m = Cn -> nr l = Rn -> nc l = Rn -> nr u = Rn -> nc u = Cn -> length idx = Rn -> (Cn <= Rn)%nat ->
  exists L U idx' rank, zMatDecompLU tol m l u idx = Ok (Some (L, U, idx', rank)) /\ perm Rn idx' /\ (rank <= Cn)%nat /\
   nr L = Rn /\ nc L = Rn /\ nr U = Rn /\ nc U = Cn /\
   (forall i j, (j < i)%nat \/ (rank <= i)%nat -> el U i j = 0) /\
   ((forall t, (t < rank)%nat -> el U t t = 1) ->
     (forall i j, (i < Rn)%nat -> (i < j)%nat -> el L (pos idx' i) j = 0) /\
     (forall i j, (i < Rn)%nat -> (j < Cn)%nat -> Rabs (el m i j - mm rank (el L) (el U) i j) <= tol) /\
     (rank = Cn -> forall i j, (i < Rn)%nat -> (j < Cn)%nat -> el m i j = mm rank (el L) (el U) i j)).
Proof.
  intros Ht M1 M2 L1 L2 U1 U2 PI HC. unfold zMatDecompLU. rewrite M1, M2, L1, L2, U1, U2, PI, !Nat.eqb_refl. cbn [negb orb andb].
  destruct (luDST_ok tol Rn Cn m l u (List.seq 0 Rn)) as (m' & L & U & idx' & r & E & D & Hrc & HrR & U0 & H); auto using perm_seq.
  rewrite E. cbn [rmap]. exists L, U, idx', r. destruct D as (D0 & D1 & D2 & D3 & D4 & D5 & D6). conjs; auto.
  intros UD. destruct H as [I|((t & Htr & Hh) & _)]; [|exfalso; apply Hh; auto].
  assert (I' : exists c, luinv tol Rn Cn (el m) r c m' L U idx' /\ (r = Rn \/ c = Cn)).
  { destruct (Nat.ltb_spec r Rn); eexists; split; eauto. left. lia. }
  clear I. destruct I' as (c & [Ir IM Il Iu1 Iu0 Iz Ip] & Hc). split; [|split].
  - intros i j Hi Hj. apply Il; auto.
  - intros i j Hi Hj. destruct (perm_onto Rn idx' i) as (a & Ha & <-); auto. rewrite IM by auto. unfold mm.
    match goal with |- Rabs (?p + ?q - ?q') <= _ => replace (p + q - q') with p by (change q' with q; lra) end.
    destruct (Nat.leb_spec r a); cbn [andb]; [|rewrite Rabs_R0; auto]. destruct (Nat.leb_spec r j); [|rewrite Rabs_R0; auto]. apply Iz; lia.
  - intros HR i j Hi Hj. destruct (perm_onto Rn idx' i) as (a & Ha & <-); auto. rewrite IM by auto. unfold mm.
    replace ((r <=? a)%nat && (r <=? j)%nat) with false by nbts. lra.
Qed.
(** every matrix of full column rank, without a tolerance: L U = M, L triangular up to the
    row exchanges, U unit upper triangular, rank = number of columns *)
Theorem C25_full_rank Rn Cn (m l u : fmat R) idx : nr m = Rn -> nc m = Cn -> nr l = Rn -> nc l = Rn -> nr u = Rn -> nc u = Cn -> length idx = Rn -> (Cn <= Rn)%nat ->
  (forall x, solves Rn Cn (el m) x (fun _ => 0) -> forall i, (i < Cn)%nat -> x i = 0) ->
  exists L U idx', zMatDecompLU 0 m l u idx = Ok (Some (L, U, idx', Cn)) /\ perm Rn idx' /\
   (forall i j, (i < Rn)%nat -> (i < j)%nat -> el L (pos idx' i) j = 0) /\ (forall i, (i < Cn)%nat -> el L (pos idx' i) i <> 0) /\
   (forall i j, (j < i)%nat -> el U i j = 0) /\ (forall i, (i < Cn)%nat -> el U i i = 1) /\
   (forall i j, (i < Rn)%nat -> (j < Cn)%nat -> el m i j = mm Cn (el L) (el U) i j).
Proof.
  intros M1 M2 L1 L2 U1 U2 PI HC FR. unfold zMatDecompLU. rewrite M1, M2, L1, L2, U1, U2, PI, !Nat.eqb_refl. cbn [negb orb andb].
  destruct (luDST_ok 0 Rn Cn m l u (List.seq 0 Rn)) as (m' & L & U & idx' & r & E & D & Hrc & HrR & U0 & H); auto using perm_seq; try lra.
  rewrite E. cbn [rmap]. destruct D as (D0 & D1 & D2 & D3 & D4 & D5 & D6). destruct H as [I|(_ & Dp)].
  2:{ exfalso. destruct (Dp eq_refl) as (i & x & Hi & Nx & HK). exact (Nx (FR x HK i Hi)). }
  assert (r = Cn) as ->.
  { destruct (Nat.eq_dec r Cn) as [|N]; auto. exfalso. destruct (Nat.ltb_spec r Rn); [|lia].
    destruct (luinv_dependent 0 Rn Cn (el m) r Cn m' L U idx') as (i & x & Hi & Nx & HK); auto; try lia. }
  exists L, U, idx'. split; auto. split; auto. destruct I as [Ir IM Il Iu1 Iu0 Iz Ip]. conjs; auto.
  - intros i Hi Z. specialize (Ip i Hi). rewrite Z, Rabs_R0 in Ip. lra.
  - intros i j Hi Hj. destruct (perm_onto Rn idx' i) as (a & Ha & <-); auto. rewrite IM by auto. unfold mm. replace ((Cn <=? a)%nat && (Cn <=? j)%nat) with false by nbts. lra.
Qed.
(** so LU followed by the triangular solver solves every nonsingular system *)
Theorem C25_solve n (m l u : fmat R) (b ans : fvec R) idx : nr m = n -> nc m = n -> nr l = n -> nc l = n -> nr u = n -> nc u = n -> length idx = n -> vlen b = n -> vlen ans = n ->
  nonsingular n (el m) ->
  exists L U idx' x, zMatDecompLU 0 m l u idx = Ok (Some (L, U, idx', n)) /\ zLESolveLU L U b ans idx' = Ok (Some x) /\ solves n n (el m) (vel x) (vel b).
Proof.
  intros M1 M2 L1 L2 U1 U2 PI B X NS. destruct (C25_full_rank n n m l u idx) as (L & U & idx' & E & P & TL & DL & TU & DU & HM); auto.
  destruct (C25_lu_partial 0 n n m l u idx) as (L' & U' & idx2 & rank & E' & P' & _ & K1 & K2 & K3 & K4 & _); auto; try lra. rewrite E in E'. injection E' as <- <- <- <-.
  destruct (C24_lu n L U b ans idx') as (x & Ex & Vx & Hx); auto. { intros i j Hi Hj. apply TL; lia. }
  exists L, U, idx', x. split; auto. split; auto. intros r Hr. rewrite <- (Hx r Hr). apply rsum_ext. intros c Hc. rewrite HM by auto. reflexivity.
Qed.
Theorem C25_rejects {T} {ST : Scalar T} tol (m l u : fmat T) idx :
  ~ (nr l = nc l /\ nr m = nr l /\ nr m = nr u /\ nc m = nc u /\ nr m = length idx) -> zMatDecompLU tol m l u idx = Ok None.
Proof. intros N. unfold zMatDecompLU. rej N. Qed.
Theorem C25_safe_partial {T} {ST : Scalar T} tol (m l u : fmat T) idx : (nc m <= nr m)%nat -> exists o, zMatDecompLU tol m l u idx = Ok o.
Proof.
  intros H. unfold zMatDecompLU. destruct (Nat.eqb_spec (nr l) (nc l)); cbn [negb]; eauto. destruct (Nat.eqb_spec (nr m) (nr l)); cbn [negb orb]; eauto.
  destruct (Nat.eqb_spec (nr m) (nr u)); cbn [negb orb andb]; eauto. destruct (Nat.eqb_spec (nc m) (nc u)); cbn [negb orb andb]; eauto.
  destruct (Nat.eqb_spec (nr m) (length idx)); cbn [negb orb andb]; eauto.
  destruct (s_lu tol (nr m) (nc m) m l u (List.seq 0 (length idx))) as (o & E & _); auto.
  - split; auto. - split; congruence. - split; congruence. - replace (length idx) with (nr m) by auto. apply perm_seq. - rewrite E. cbn [rmap]. eauto.
Qed.
Definition mul_q (k : nat) (a b : fmat Q) : fmat Q := FM (nr a) (nc b) (fun i j => fold_right Qplus 0%Q (map (fun t => el a i t * el b t j)%Q (List.seq 0 k))).
Definition meq_q (a b : fmat Q) : bool := (length (to_lists a) =? length (to_lists b))%nat && forallb (fun p => qeq_lists (fst p) (snd p)) (combine (to_lists a) (to_lists b)).
Definition exlu : fmat Q := mat_of 0%Q [[0; 2; 1]; [3; 1; -1]; [6; 1; 4]]%Q.
Example C25_case : match zMatDecompLU tol12 exlu (zmat 3 3) (zmat 3 3) [0; 0; 0]%nat with Ok (Some (l, u, idx, 3%nat)) => meq_q (mul_q 3 l u) exlu | _ => false end = true.
Proof. vm_compute. reflexivity. Qed.
(** a dependent column left of a pivot makes the product wrong *)
Theorem C25_rank_deficient_refuted : exists m : fmat Q, exists l u idx rank,
  zMatDecompLU tol12 m (zmat 2 2) (zmat 2 2) [0; 1]%nat = Ok (Some (l, u, idx, rank)) /\ meq_q (mul_q 2 l u) m = false.
Proof. exists (mat_of 0%Q [[0; 1]; [0; 1]]%Q). do 4 eexists. split; [vm_compute; reflexivity|]. vm_compute. reflexivity. Qed.
(** a wide matrix whose pivot lies right of the square part writes outside L *)
Theorem C25_wide_refuted : zMatDecompLU tol12 (mat_of 0%Q [[0; 0; 1]; [0; 0; 1]]%Q) (zmat 2 2) (zmat 2 3) [0; 1]%nat = UB.
Proof. vm_compute. reflexivity. Qed.

(** ** C26 *)
Theorem C26_cholesky_partial tol n (m l : fmat R) idx : 0 <= tol -> nr m = n -> nc m = n -> nr l = n -> nc l = n -> length idx = n -> symmetric n (el m) ->
  exists o, zMatDecompCholesky tol m l idx = Ok o /\
   match o with
   | None => ~ psd n (el m)
   | Some (L, idx', rank) => perm n idx' /\ (rank <= n)%nat /\ nr L = n /\ nc L = n /\
      (forall a t, (a < n)%nat -> (a < t)%nat -> el L (pos idx' a) t = 0) /\
      (rank = n \/ psd n (el m) /\ tol = 0 -> forall r c, (r < n)%nat -> (c < n)%nat -> el m r c = rsum n (fun t => el L r t * el L c t)) /\
      (psd n (el m) -> tol <= 1 -> forall r c, (r < n)%nat -> (c < n)%nat -> Rabs (el m r c - rsum n (fun t => el L r t * el L c t)) <= tol)
   end.
Proof.
  intros Ht M1 M2 L1 L2 PI Sy. unfold zMatDecompCholesky. rewrite M1, M2, L1, L2, PI, !Nat.eqb_refl. cbn [negb orb].
  destruct (chol_ok tol n m l (List.seq 0 n)) as (o & E & H); auto using perm_seq. exists o. split; auto. destruct o as [[[L idx'] rank]|]; auto.
  destruct H as (P & Hr & K1 & K2 & TL & F & HM & H1 & H2). conjs; auto.
  - intros [Q|[Q T]] r c Hr' Hc; rewrite HM by auto.
    + rewrite H1 by auto. lra.
    + specialize (H2 Q ltac:(lra) r c Hr' Hc). rewrite T in H2. destruct (Req_dec (F r c) 0) as [Z|Z]; [rewrite Z; lra|]. pose proof (Rabs_pos_lt _ Z). lra.
  - intros Q T r c Hr' Hc. rewrite HM by auto. match goal with |- Rabs (?q + ?e - ?q') <= _ => replace (q + e - q') with e by (change q' with q; lra) end. auto.
Qed.
(** every positive semidefinite matrix is accepted, and without a tolerance L L^T = M *)
Theorem C26_exact n (m l : fmat R) idx : nr m = n -> nc m = n -> nr l = n -> nc l = n -> length idx = n -> symmetric n (el m) -> psd n (el m) ->
  exists L idx' rank, zMatDecompCholesky 0 m l idx = Ok (Some (L, idx', rank)) /\ forall r c, (r < n)%nat -> (c < n)%nat -> el m r c = rsum n (fun t => el L r t * el L c t).
Proof.
  intros M1 M2 L1 L2 PI Sy Q. destruct (C26_cholesky_partial 0 n m l idx) as (o & E & H); auto; try lra. destruct o as [[[L idx'] rank]|]; [|contradiction].
  exists L, idx', rank. split; auto. apply H. auto.
Qed.
Theorem C26_safe {T} {ST : Scalar T} tol (m l : fmat T) idx : exists o, zMatDecompCholesky tol m l idx = Ok o.
Proof.
  unfold zMatDecompCholesky. destruct (Nat.eqb_spec (nr m) (nc m)); cbn [negb orb]; eauto. destruct (Nat.eqb_spec (nr l) (nc l)); cbn [negb orb]; eauto.
  destruct (Nat.eqb_spec (nr m) (length idx)); cbn [negb orb]; eauto. destruct (Nat.eqb_spec (nr l) (length idx)); cbn [negb orb]; eauto.
  destruct (s_chol tol (length idx) m l (List.seq 0 (length idx))) as (o & E & _); eauto using perm_seq; split; congruence.
Qed.
Theorem C26_rejects {T} {ST : Scalar T} tol (m l : fmat T) idx :
  ~ (nr m = length idx /\ nc m = length idx /\ nr l = length idx /\ nc l = length idx) -> zMatDecompCholesky tol m l idx = Ok None.
Proof. intros N. unfold zMatDecompCholesky. rej N. Qed.
(** an indefinite matrix with a zero diagonal is accepted with a wrong factor *)
Theorem C26_indefinite_refuted : exists (m l : fmat Q) idx rank,
  zMatDecompCholesky tol12 m (zmat 2 2) [0; 1]%nat = Ok (Some (l, idx, rank)) /\ (forall i j, el m i j = el m j i) /\ meq_q (mul_q 2 l (transpose l)) m = false.
Proof.
  exists (mat_of 0%Q [[0; 1]; [1; 0]]%Q). do 3 eexists. split; [vm_compute; reflexivity|]. split; [|vm_compute; reflexivity].
  intros i j. destruct i as [|[|[|i]]], j as [|[|[|j]]]; reflexivity.
Qed.
From Coq Require Import PrimFloat.
Example C26_case : match zMatDecompCholesky 0x1p-40%float (mat_of 0%float [[4; 2; -2]; [2; 10; 2]; [-2; 2; 3]]%float) (zmat 3 3) [0; 0; 0]%nat with
  Ok (Some (l, idx, 3%nat)) => idx | _ => [] end = [1; 0; 2]%nat.
Proof. vm_compute. reflexivity. Qed.

(** ** C27.  All bands of every size; [pivot k] is the k-th reduced diagonal entry. *)
Theorem C27_tridiagonal_partial n (a b c d ans : fvec R) : (0 < n)%nat -> vlen a = n -> vlen b = n -> vlen c = n -> vlen d = n -> vlen ans = n ->
  let pivot := tb (vel a) (vel b) (vel c) in
  exists o, zLETridiagSolve a b c d ans = Ok o /\
   match o with
   | Some x => vlen x = n /\ (pivot (n - 1)%nat <> 0 -> forall k, (k < n)%nat ->
       (if (k =? 0)%nat then 0 else vel a k * vel x (k - 1)%nat) + vel b k * vel x k + (if (S k =? n)%nat then 0 else vel c k * vel x (S k)) = vel d k)
   | None => exists k, (S k < n)%nat /\ pivot k = 0
   end.
Proof.
  intros Hn A B C D X pv. unfold zLETridiagSolve. rewrite A, B, C, D, X, Nat.eqb_refl. cbn [negb andb].
  destruct (tridiagDST_ok n a b c d ans) as (o & E & H); auto. exists o. split; auto. destruct o as [x|]; auto.
  destruct H as (V & NZ & H1 & H2). split; auto. intros L. eapply tridiag_back; eauto.
  intros k Hk. destruct (Nat.eq_dec (S k) n); [replace k with (n - 1)%nat by lia; auto|apply NZ; lia].
Qed.
(** the recurrence of the pivots *)
Theorem C27_pivot a b c : tb a b c 0 = b 0%nat /\ forall k, tb a b c (S k) = b (S k) - c k / tb a b c k * a (S k).
Proof. split; reflexivity. Qed.
(** every strictly diagonally dominant system is solved *)
Theorem C27_dominant n (a b c d ans : fvec R) : (0 < n)%nat -> vlen a = n -> vlen b = n -> vlen c = n -> vlen d = n -> vlen ans = n ->
  (forall k, (k < n)%nat -> (if (k =? 0)%nat then 0 else Rabs (vel a k)) + (if (S k =? n)%nat then 0 else Rabs (vel c k)) < Rabs (vel b k)) ->
  exists x, zLETridiagSolve a b c d ans = Ok (Some x) /\ vlen x = n /\ forall k, (k < n)%nat ->
       (if (k =? 0)%nat then 0 else vel a k * vel x (k - 1)%nat) + vel b k * vel x k + (if (S k =? n)%nat then 0 else vel c k * vel x (S k)) = vel d k.
Proof.
  intros Hn A B C D X Dm. destruct (C27_tridiagonal_partial n a b c d ans) as (o & E & H); auto.
  pose proof (tridiag_dominant (vel a) (vel b) (vel c) (vel d) n Dm) as NZ.
  assert (NZ' : forall k, (k < n)%nat -> tb (vel a) (vel b) (vel c) k <> 0).
  { intros k Hk Z. specialize (NZ k Hk). rewrite Z, Rabs_R0 in NZ. destruct (S k =? n)%nat; [lra|]. pose proof (Rabs_pos (vel c k)). lra. }
  destruct o as [x|].
  - destruct H as [V H]. exists x. split; auto. split; auto. apply H. apply NZ'. lia.
  - exfalso. destruct H as (k & Hk & Z). apply (NZ' k); auto. lia.
Qed.
Theorem C27_rejects {T} {ST : Scalar T} (a b c d ans : fvec T) :
  ~ (vlen a = vlen b /\ vlen b = vlen c /\ vlen c = vlen d /\ vlen d = vlen ans) -> zLETridiagSolve a b c d ans = Ok None.
Proof. intros N. unfold zLETridiagSolve. rej N. Qed.
(** the last pivot is not checked: 0 x = 1 is "solved" *)
Theorem C27_last_pivot_refuted : exists x, zLETridiagSolve (vec_of 0%float [0]%float) (vec_of 0%float [0]%float) (vec_of 0%float [0]%float) (vec_of 0%float [1]%float) (zvec 1) = Ok (Some x) /\
  PrimFloat.is_infinity (vel x 0%nat) = true.
Proof. eexists. split; [vm_compute; reflexivity|]. vm_compute. reflexivity. Qed.
Example C27_case : match zLETridiagSolve (vec_of 0%Q [0; 1; 1]%Q) (vec_of 0%Q [4; 4; 4]%Q) (vec_of 0%Q [1; 1; 0]%Q) (vec_of 0%Q [6; 12; 14]%Q) (zvec 3) with
  Ok (Some x) => qeq_lists (to_list x) [1; 2; 3]%Q | _ => false end = true.
Proof. vm_compute. reflexivity. Qed.

(** ** C28.  [det]: expansion along the first row (LE_Spec). *)
Theorem C28_det_exact n (m : fmat R) : nr m = n -> nc m = n -> zMatDet 0 m = Ok (det n (el m)).
Proof.
  intros M1 M2. unfold zMatDet. rewrite M1, M2, Nat.eqb_refl. cbn [negb]. destruct (detDST_ok 0 n m) as (x & -> & [->|[_ H]] & _); auto; lra.
Qed.
(** with a tolerance the answer is the determinant or zero, and never in (0,tol] *)
Theorem C28_det_partial tol n (m : fmat R) : 0 <= tol < 1 -> nr m = n -> nc m = n ->
  exists x, zMatDet tol m = Ok x /\ (x = det n (el m) \/ x = 0) /\ (det n (el m) = 0 -> x = 0).
Proof.
  intros Ht M1 M2. unfold zMatDet. rewrite M1, M2, Nat.eqb_refl. cbn [negb]. destruct (detDST_ok tol n m) as (x & E & H1 & H2); auto. exists x. split; auto.
  split; [intuition|]. intros Z. rewrite Z in H1. intuition.
Qed.
Theorem C28_not_square {T} {ST : Scalar T} tol (m : fmat T) : nr m <> nc m -> zMatDet tol m = Ok s0.
Proof. intros N. unfold zMatDet. destruct (Nat.eqb_spec (nr m) (nc m)); [contradiction|reflexivity]. Qed.
Theorem C28_safe {T} {ST : Scalar T} tol (m : fmat T) : exists x, zMatDet tol m = Ok x.
Proof. unfold zMatDet. destruct (Nat.eqb_spec (nr m) (nc m)); cbn [negb]; eauto. destruct (s_det tol (nr m) m) as (x & E & _); eauto. split; auto. Qed.
(** the early exit: the determinant 1 of a badly scaled matrix is reported as 0 *)
Theorem C28_scaled_refuted : zMatDet tol12 (mat_of 0%Q [[1 # 10000000000000; 0]; [0; 10000000000000]]%Q) = Ok 0%Q.
Proof. vm_compute. reflexivity. Qed.
Example C28_case : match zMatDet tol12 exlu with Ok x => Qeq_bool x (-39) | _ => false end = true /\ det 3 (fun i j => nth j (nth i [[0; 2; 1]; [3; 1; -1]; [6; 1; 4]] []) 0) = -39.
Proof. split; [vm_compute; reflexivity|]. cbn. unfold sgn, minor, skip. cbn. lra. Qed.
(** the adjugate: M adj(M) = det(M) I for every n > 1 *)
Theorem C28_adjugate n (m a0 : fmat R) : (1 < n)%nat -> nr m = n -> nc m = n -> nr a0 = n -> nc a0 = n ->
  exists a, zMatAdj 0 m a0 = Ok (Some a) /\ nr a = n /\ nc a = n /\
   forall i j, (i < n)%nat -> (j < n)%nat -> mm n (el m) (el a) i j = if (i =? j)%nat then det n (el m) else 0.
Proof.
  intros Hn M1 M2 A1 A2. destruct n as [|n1]; [lia|]. destruct (adj_ok 0 n1 m a0) as (a & E & K1 & K2 & H); auto; try lra; try lia. exists a. split; auto. split; auto. split; auto.
  intros i j Hi Hj. unfold mm. transitivity (rsum (S n1) (fun k => el m i k * (sgn (j + k) * det n1 (minor (el m) j k)))).
  - apply rsum_ext. intros k Hk. destruct (H j k Hj Hk) as [->|[_ Q]]; [reflexivity|lra].
  - rewrite det_cofactors by auto. rewrite Nat.eqb_sym. reflexivity.
Qed.
Theorem C28_adjugate_1x1_refuted {T} {ST : Scalar T} tol (m a : fmat T) : nr m = 1%nat -> nc m = 1%nat -> nr a = 1%nat -> nc a = 1%nat -> zMatAdj tol m a = UB.
Proof. intros H1 H2 H3 H4. unfold zMatAdj. rewrite H1, H2, H3, H4. reflexivity. Qed.

(** ** C29 *)
Theorem C29_mul_inv_partial tol n q (a b ans : fmat R) : 0 <= tol -> (0 < n)%nat -> nr a = n -> nc a = n -> nr b = n -> nc b = q -> nr ans = n -> nc ans = q ->
  exists o, zMulInvMatMat tol a b ans = Ok o /\
   match o with
   | Some X => nr X = n /\ nc X = q /\ exists E, negligible tol n (el a) E /\ nonsingular n (madd (el a) E) /\
       forall r j, (r < n)%nat -> (j < q)%nat -> mm n (madd (el a) E) (el X) r j = el b r j
   | None => exists E, negligible tol n (el a) E /\ ~ nonsingular n (madd (el a) E)
   end.
Proof.
  intros Ht Hn A1 A2 B1 B2 X1 X2. unfold zMulInvMatMat. rewrite A1, A2, B1, B2, X1, X2, !Nat.eqb_refl. cbn [negb orb andb]. unfold zMulInvMatMatNC. rewrite A1.
  destruct (mul_inv_ok tol n q a b ans (List.seq 0 n) (zvec n)) as (o & E & H); auto using perm_seq. exists o. split; auto. destruct o as [Y|].
  - destruct H as (Y1 & Y2 & F & SF & HY & HI). split; auto. split; auto. exists F. split; auto. split; auto. intros r j Hr Hj. apply (HY j Hj r Hr).
  - destruct H as (F & i & x & SF & Hi & Nx & HK). exists F. split; [exact SF|]. intros N. apply Nx. exact (N x HK i Hi).
Qed.
Lemma mm_madd0 n A E X r j : (forall r c, (r < n)%nat -> (c < n)%nat -> E r c = 0) -> (r < n)%nat -> mm n (madd A E) X r j = mm n A X r j.
Proof. intros Z Hr. apply rsum_ext. intros k Hk. unfold madd. rewrite Z by auto. ring. Qed.
Theorem C29_mul_inv_exact n q (a b ans : fmat R) : (0 < n)%nat -> nr a = n -> nc a = n -> nr b = n -> nc b = q -> nr ans = n -> nc ans = q ->
  exists o, zMulInvMatMat 0 a b ans = Ok o /\
   match o with
   | Some X => nonsingular n (el a) /\ nr X = n /\ nc X = q /\ forall r j, (r < n)%nat -> (j < q)%nat -> mm n (el a) (el X) r j = el b r j
   | None => ~ nonsingular n (el a)
   end.
Proof.
  intros Hn A1 A2 B1 B2 X1 X2. destruct (C29_mul_inv_partial 0 n q a b ans) as (o & E & H); auto; try lra. exists o. split; auto. destruct o as [x|].
  - destruct H as (L1 & L2 & F & SF & H1 & H2). pose proof (negligible_0 _ _ _ SF) as Z. apply nonsingular_madd0 in H1; auto. conjs; auto.
    intros r j Hr Hj. rewrite <- H2 by auto. symmetry. now apply mm_madd0.
  - destruct H as (F & SF & H). pose proof (negligible_0 _ _ _ SF) as Z. now rewrite nonsingular_madd0 in H.
Qed.
(** X M2 = M1, for a square M1 *)
Theorem C29_mat_inv_partial n (m1 m2 ans : fmat R) : (0 < n)%nat -> nr m1 = n -> nc m1 = n -> nr m2 = n -> nc m2 = n -> nr ans = n -> nc ans = n ->
  exists o, zMulMatInvMat 0 m1 m2 ans = Ok o /\
   match o with
   | Some X => forall r j, (r < n)%nat -> (j < n)%nat -> mm n (el X) (el m2) r j = el m1 r j
   | None => ~ nonsingular n (fun i j => el m2 j i)
   end.
Proof.
  intros Hn A1 A2 B1 B2 X1 X2. unfold zMulMatInvMat. rewrite A1, A2, B1, B2, X1, X2, !Nat.eqb_refl. cbn [negb orb andb].
  destruct (mul_inv_ok 0 n n (transpose m2) (transpose m1) (zmat n n) (List.seq 0 n) (zvec n)) as (o & E & H); auto using perm_seq; try lra. rewrite E. cbn [rmap].
  exists (option_map transpose o). split; auto. destruct o as [Y|]; cbn [option_map].
  - destruct H as (Y1 & Y2 & F & SF & HY & HI). pose proof (negligible_0 _ _ _ SF) as Z. intros r j Hr Hj. specialize (HY r Hr j Hj). cbn [transpose el] in *. rewrite <- HY.
    apply rsum_ext. intros k Hk. rewrite Z by auto. ring.
  - destruct H as (F & i & x & SF & Hi & Nx & HK). pose proof (negligible_0 _ _ _ SF) as Z. intros N. apply Nx. apply (N x); auto.
    intros r Hr. rewrite <- (HK r Hr). apply rsum_ext. intros k Hk. rewrite Z by auto. cbn. ring.
Qed.
(** a conforming product M1 inv(M2) with fewer rows is refused, and with more rows than
    columns the code accepts a non-conforming one and leaves the matrices *)
Theorem C29_mat_inv_shape_refuted : zMulMatInvMat tol12 (mat_of 0%Q [[1; 2]]%Q) (ident 2) (zmat 1 2) = Ok None /\
  zMulMatInvMat tol12 (mat_of 0%Q [[1]; [2]]%Q) (ident 2) (zmat 2 1) = UB.
Proof. split; vm_compute; reflexivity. Qed.
(** the inverse of every nonsingular matrix *)
Theorem C29_inverse_partial n (m im : fmat R) : (0 < n)%nat -> nr m = n -> nc m = n -> nr im = n -> nc im = n -> nonsingular n (el m) ->
  exists X, zMatInv 0 m im = Ok (Some X) /\ nr X = n /\ nc X = n /\
   forall r j, (r < n)%nat -> (j < n)%nat -> mm n (el m) (el X) r j = if (r =? j)%nat then 1 else 0.
Proof.
  intros Hn M1 M2 I1 I2 NS. unfold zMatInv. rewrite M1, M2, I1, I2, !Nat.eqb_refl. cbn [negb]. destruct (Nat.eqb_spec n 1) as [->|N].
  - rewrite mget_ok by lia. cbn [bind]. rewrite mset_ok by lia. cbn [rmap]. eexists. split; [reflexivity|]. cbn [nr nc el]. conjs; auto. intros r j Hr Hj.
    replace r with 0%nat by lia. replace j with 0%nat by lia. cbn. rs. field. intros Z.
    assert (1 = 0) as Q; [|lra]. refine (NS (fun _ => 1) _ 0%nat _); [|lia]. intros r0 Hr0. replace r0 with 0%nat by lia. unfold mv. cbn. rewrite Z. lra.
  - unfold zMulInvMatMatNC. rewrite M1. set (I := FM n n _).
    destruct (mul_inv_ok 0 n n m I I (List.seq 0 n) (zvec n)) as (o & E & H); auto using perm_seq; try lra. rewrite E. cbn [bind]. destruct o as [Y|].
    + destruct H as (Y1 & Y2 & F & SF & HY & HI). pose proof (negligible_0 _ _ _ SF) as Z. exists Y. conjs; auto. intros r j Hr Hj. specialize (HY j Hj r Hr). cbn [I el] in HY. rs. rewrite <- HY.
      apply rsum_ext. intros k Hk. rewrite Z by auto. ring.
    + exfalso. destruct H as (F & i & x & SF & Hi & Nx & HK). pose proof (negligible_0 _ _ _ SF) as Z. apply Nx. apply (NS x); auto.
      intros r Hr. rewrite <- (HK r Hr). apply rsum_ext. intros k Hk. rewrite Z by auto. ring.
Qed.
(** zMatInv drops the failure: the "inverse" of the zero matrix is the identity *)
Theorem C29_singular_refuted : exists X, zMatInv tol12 (mat_of 0%Q [[0; 0]; [0; 0]]%Q) (zmat 2 2) = Ok (Some X) /\ meq_q X (ident 2) = true.
Proof. eexists. split; [vm_compute; reflexivity|]. vm_compute. reflexivity. Qed.
Theorem C29_rejects {T} {ST : Scalar T} tol (m1 m2 m : fmat T) :
  ~ (nr m1 = nc m1 /\ nc m1 = nr m2 /\ nr m2 = nr m /\ nc m2 = nc m) -> zMulInvMatMat tol m1 m2 m = Ok None.
Proof. intros N. unfold zMulInvMatMat. rej N. Qed.
Theorem C29_safe {T} {ST : Scalar T} tol (m1 m2 m : fmat T) : (0 < nr m1)%nat -> exists o, zMulInvMatMat tol m1 m2 m = Ok o.
Proof.
  intros Hn. unfold zMulInvMatMat. destruct (Nat.eqb_spec (nr m1) (nc m1)) as [E1|]; cbn [negb]; eauto. destruct (Nat.eqb_spec (nc m1) (nr m2)) as [E2|]; cbn [negb orb]; eauto.
  destruct (Nat.eqb_spec (nr m2) (nr m)) as [E3|]; cbn [negb orb andb]; eauto. destruct (Nat.eqb_spec (nc m2) (nc m)) as [E4|]; cbn [negb orb andb]; eauto. unfold zMulInvMatMatNC.
  destruct (s_mul_inv tol (nr m1) (nc m2) m1 m2 m (List.seq 0 (nr m1)) (Some (zvec (nr m1)))) as (o & E & _); eauto using perm_seq; try (split; congruence).
Qed.
Example C29_case : match zMatInv tol12 exlu (zmat 3 3) with Ok (Some x) => meq_q (mul_q 3 exlu x) (ident 3) | _ => false end = true.
Proof. vm_compute. reflexivity. Qed.

(** ** C30.  The balanced system m y = v has, up to the factors s, the solutions of the
    original one. *)
Theorem C30_balancing_partial k n (m0 m1 : fmat R) (v0 v1 s0 : fvec R) : (0 < n <= k)%nat -> nr m0 = k -> nc m0 = n -> nr m1 = k -> nc m1 = n -> vlen v0 = k -> vlen v1 = k -> vlen s0 = k ->
  exists m v s, zMatVecBalancing m0 v0 m1 v1 (Some s0) = Ok (Some (m, v, Some s)) /\ nr m = k /\ nc m = n /\ vlen v = k /\ vlen s = k /\
   (forall y, solves k n (el m) y (vel v) -> solves k n (el m0) (fun c => vel s c * y c) (vel v0)) /\
   (forall x, solves k n (el m0) x (vel v0) -> exists y, solves k n (el m) y (vel v) /\ forall c, (c < n)%nat -> vel s c <> 0 -> x c = vel s c * y c) /\
   (forall c, (c < n)%nat -> vel s c = 0 -> forall r, (r < k)%nat -> el m0 r c = 0) /\
   (forall r c, (r < k)%nat -> (c < n)%nat -> Rabs (el m r c) <= 1).
Proof.
  intros [Hn Hk] A1 A2 B1 B2 V0 V1 S0. unfold zMatVecBalancing. rewrite A1, A2, B1, B2, V0, V1, S0, !Nat.eqb_refl. cbn [negb orb andb]. unfold zMatMatBalancingDST.
  destruct (colbal_ok m0 s0) as (a1 & s1 & kf & E1 & D1 & D2 & D3 & CF & CE); try lia. rewrite E1. cbn [rmap bind fst snd].
  destruct (rowbal_ok a1 (col_of v0)) as (a2 & b2 & d & E2 & R1 & R2 & R3 & R4 & RF & RE & RB); cbn [col_of nr nc]; try lia. rewrite E2. cbn [bind rmap fst snd].
  exists a2, (of_col b2), s1. split; [reflexivity|]. cbn [of_col vlen vel]. cbn [col_of nr nc el] in *.
  assert (AE : forall r c, (r < k)%nat -> (c < n)%nat -> el a2 r c = el m0 r c * kf c * d r) by (intros; rewrite RE, CE by lia; auto).
  assert (BE : forall r, (r < k)%nat -> el b2 r 0%nat = vel v0 r * d r) by (intros; rewrite RB by lia; auto).
  assert (DP : forall r, (r < k)%nat -> 0 < d r) by (intros r Hr; apply RF; lia).
  assert (KP : forall c, (c < n)%nat -> 0 < kf c) by (intros c Hc; apply CF; lia).
  assert (KS : forall r c, (r < k)%nat -> (c < n)%nat -> el m0 r c * kf c = el m0 r c * vel s1 c).
  { intros r c Hr Hc. destruct (CF c) as (_ & [(Z & K & S)|(r0 & Hr0 & K & S & _)]); try lia; [rewrite Z by lia; lra|rewrite S; auto]. }
  conjs; try lia.
  - intros y H r Hr. specialize (H r Hr). specialize (DP r Hr). unfold mv in *. rewrite BE in H by auto.
    apply Rmult_eq_reg_r with (d r); [|lra]. rewrite <- H, <- rsum_scal_r. apply rsum_ext. intros c Hc. rewrite AE, KS by auto. ring.
  - intros x H. exists (fun c => x c / kf c). split.
    + intros r Hr. specialize (H r Hr). specialize (DP r Hr). unfold mv in *. rewrite BE, <- H, <- rsum_scal_r by auto. apply rsum_ext. intros c Hc. rewrite AE by auto. field. specialize (KP c Hc). lra.
    + intros c Hc NS. specialize (KP c Hc). destruct (CF c) as (_ & [(Z & K & S)|(r0 & Hr0 & K & S & _)]); try lia; [contradiction|]. rewrite S. field. lra.
  - intros c Hc Z r Hr. destruct (CF c) as (_ & [(Z' & K & S)|(r0 & Hr0 & K & S & _)]); try lia; [apply Z'; lia|]. specialize (KP c Hc). lra.
  - intros r c Hr Hc. rewrite RE by lia. destruct (RF r) as (Hd & [(Z & K)|(c0 & Hc0 & K & NZ & M)]); try lia.
    + rewrite Z by lia. rewrite Rmult_0_l, Rabs_R0. lra.
    + rewrite Rabs_mult, (Rabs_pos_eq (d r)) by lra. rewrite K. pose proof (Rabs_pos_lt _ NZ). specialize (M c ltac:(lia)).
      apply Rmult_le_reg_r with (Rabs (el a1 r c0)); auto. unfold Rdiv. rewrite Rmult_1_l, Rmult_assoc, Rinv_l by lra. lra.
Qed.
(** rows only (s = NULL): any shape, the same solutions *)
Theorem C30_rows k n (m0 m1 : fmat R) (v0 v1 : fvec R) : (0 < n)%nat -> nr m0 = k -> nc m0 = n -> nr m1 = k -> nc m1 = n -> vlen v0 = k -> vlen v1 = k ->
  exists m v, zMatVecBalancing m0 v0 m1 v1 None = Ok (Some (m, v, None)) /\ nr m = k /\ nc m = n /\ vlen v = k /\
   (forall y, solves k n (el m) y (vel v) <-> solves k n (el m0) y (vel v0)).
Proof.
  intros Hn A1 A2 B1 B2 V0 V1. unfold zMatVecBalancing. rewrite A1, A2, B1, B2, V0, V1, !Nat.eqb_refl. cbn [negb orb andb]. unfold zMatMatBalancingDST. cbn [bind fst snd].
  destruct (rowbal_ok m0 (col_of v0)) as (a2 & b2 & d & E2 & R1 & R2 & R3 & R4 & RF & RE & RB); cbn [col_of nr nc]; try lia. rewrite E2. cbn [bind rmap fst snd].
  exists a2, (of_col b2). split; [reflexivity|]. cbn [of_col vlen vel]. cbn [col_of nr nc el] in *. conjs; try lia.
  assert (DP : forall r, (r < k)%nat -> 0 < d r) by (intros r Hr; apply RF; lia).
  assert (Q : forall y r, (r < k)%nat -> mv n (el a2) y r = mv n (el m0) y r * d r).
  { intros y r Hr. unfold mv. rewrite <- rsum_scal_r. apply rsum_ext. intros c Hc. rewrite RE by lia. ring. }
  intros y. split; intros H r Hr; specialize (H r Hr); specialize (DP r Hr).
  - rewrite Q, RB in H by lia. apply Rmult_eq_reg_r with (d r); lra.
  - rewrite Q, RB by lia. rewrite H. reflexivity.
Qed.
(** the size required of s is the number of rows: too short for a wide matrix *)
Theorem C30_wide_refuted : zMatVecBalancing (mat_of 0%Q [[1; 2]]%Q) (vec_of 0%Q [3]%Q) (zmat 1 2) (zvec 1) (Some (zvec 1)) = UB.
Proof. vm_compute. reflexivity. Qed.
Example C30_case : match zMatVecBalancing (mat_of 0%Q [[1; 4]; [2; -8]]%Q) (vec_of 0%Q [3; 8]%Q) (zmat 2 2) (zvec 2) (Some (zvec 2)) with
  Ok (Some (m, v, Some s)) => meq_q m (mat_of 0%Q [[1; 1]; [1; -1]]%Q) && qeq_lists (to_list v) [6; 8]%Q && qeq_lists (to_list s) [1 # 2; 1 # 8]%Q | _ => false end = true.
Proof. vm_compute. reflexivity. Qed.

(** ** C67: sweep-out.  A step on a non-zero entry keeps the solution set of the joint
    system m1 X = m2 (column by column), and leaves the unit vector in the column. *)
Theorem C67_sweep_out k n q (m1 m2 : fmat R) r c : nr m1 = k -> nc m1 = n -> nr m2 = k -> nc m2 = q -> (r < k)%nat -> (c < n)%nat -> el m1 r c <> 0 ->
  exists a b, zMatMatSweepOut 0 m1 m2 r c = Ok (el m1 r c, a, b) /\ nr a = k /\ nc a = n /\ nr b = k /\ nc b = q /\
   (forall i, (i < k)%nat -> el a i c = if (i =? r)%nat then 1 else 0) /\
   (forall x j, (j < q)%nat -> solves k n (el a) x (fun i => el b i j) <-> solves k n (el m1) x (fun i => el m2 i j)).
Proof.
  intros A1 A2 B1 B2 Hr Hc NZ. destruct (sweep_ok 0 n q k m1 m2 r c) as [[Z _]|(_ & a & b & E & Sw)]; auto; [contradiction|]. exists a, b. split; auto. pose proof Sw as [(D1 & D2 & D3 & D4) Sr Srb Sc Sq Sqb]. conjs; auto.
  - intros i Hi. destruct (Nat.eqb_spec i r) as [->|]; [|auto]. rewrite Sr by auto. field. auto.
  - intros x j Hj. apply (swept_solutions 0 n q k m1 m2 r c a b x j); auto.
Qed.
Theorem C67_sweep_out_zero tol (m1 m2 : fmat R) r c : (r < nr m1)%nat -> (c < nc m1)%nat -> el m1 r c = 0 -> zMatMatSweepOut tol m1 m2 r c = Ok (0, m1, m2).
Proof. intros Hr Hc Z. unfold zMatMatSweepOut. rewrite mget_ok by lia. cbn [bind]. rs. rewrite Z. destruct (Reqb_spec 0 0); [reflexivity|lra]. Qed.
(** the vector form *)
Theorem C67_sweep_out_vec k n (m : fmat R) (v : fvec R) r c : nr m = k -> nc m = n -> vlen v = k -> (r < k)%nat -> (c < n)%nat -> el m r c <> 0 ->
  exists a b, zMatVecSweepOut 0 m v r c = Ok (el m r c, a, b) /\ (forall i, (i < k)%nat -> el a i c = if (i =? r)%nat then 1 else 0) /\
   (forall x, solves k n (el a) x (vel b) <-> solves k n (el m) x (vel v)).
Proof.
  intros A1 A2 B1 Hr Hc NZ. unfold zMatVecSweepOut. destruct (C67_sweep_out k n 1 m (col_of v) r c) as (a & b & E & D1 & D2 & D3 & D4 & H1 & H2); auto.
  rewrite E. cbn [rmap fst snd]. exists a, (of_col b). split; auto. split; auto. intros x. apply (H2 x 0%nat). lia.
Qed.
Theorem C67_safe {T} {ST : Scalar T} tol (m1 m2 : fmat T) r c : nr m2 = nr m1 -> (r < nr m1)%nat -> (c < nc m1)%nat -> exists o, zMatMatSweepOut tol m1 m2 r c = Ok o.
Proof. intros E Hr Hc. destruct (s_sweep tol (nr m1) (nc m1) (nc m2) m1 m2 r c) as (o & Eo & _); eauto; split; auto. Qed.
(** with the tolerance of the library a small entry is cleared without its row being adjusted *)
Theorem C67_tolerance_refuted : exists a b, zMatVecSweepOut tol12 (mat_of 0%Q [[1; 1]; [1 # 10000000000000; 1]]%Q) (vec_of 0%Q [2; 1 + (1 # 10000000000000)]%Q) 0 0 = Ok (1%Q, a, b) /\
  solves_q a (vec_of 0%Q [1; 1]%Q) b = false.
Proof. do 2 eexists. split; [vm_compute; reflexivity|]. vm_compute. reflexivity. Qed.
Example C67_case : match zMatVecSweepOut tol12 exlu (vec_of 0%Q [7; 2; 20]%Q) 1 0 with Ok (x, a, b) => Qeq_bool x 3 && solves_q a (vec_of 0%Q [1; 2; 3]%Q) b && meq_q a (mat_of 0%Q [[0; 2; 1]; [1; 1#3; -1#3]; [0; -1; 6]]%Q) | _ => false end = true.
Proof. vm_compute. reflexivity. Qed.

Print Assumptions C22_permutation.
Print Assumptions C23_gauss_partial.
Print Assumptions C23_gauss_exact.
Print Assumptions C23_safe.
Print Assumptions C24_lower.
Print Assumptions C24_lu.
Print Assumptions C25_lu_partial.
Print Assumptions C25_full_rank.
Print Assumptions C26_cholesky_partial.
Print Assumptions C27_dominant.
Print Assumptions C28_det_exact.
Print Assumptions C28_adjugate.
Print Assumptions C29_mul_inv_exact.
Print Assumptions C29_inverse_partial.
Print Assumptions C30_balancing_partial.
Print Assumptions C67_sweep_out.
