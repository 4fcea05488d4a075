(** The solvers with the inverse matrix of Moore and Penrose. *)
From Coq Require Import Reals Lra Lia Psatz.
From Verif Require Import Prelude Prelude_Proofs Scalar RealLib Fmat Fmat_Proofs LE_Model LE_Spec LE_Props IP_Model IP_Proofs Vop Qp_Proofs
  Eig_Model Eig_Spec Eig_Proofs Eig6_Proofs Gen_Model Gen_Spec Gen_Proofs Gen2_Proofs.
Local Open Scope R_scope.

Lemma delta_sum_l n a f : (a < n)%nat -> rsum n (fun i => delta a i * f i) = f a.
Proof.
  intros Ha. rewrite (rsum_delta n a (fun i => delta a i * f i)); auto.
  - unfold delta. rewrite Nat.eqb_refl. ring.
  - intros i Hi Ni. unfold delta. rewrite (proj2 (Nat.eqb_neq a i)) by auto. ring.
Qed.
Lemma nonsingular_onto n M b : (0 < n)%nat -> nonsingular n M -> exists x, solves n n M x b.
Proof.
  intros Hn N. destruct (gauss_ok n n n (FM n n M) (FV n b) (List.seq 0 n) Hn eq_refl eq_refl eq_refl (le_n n) (le_n n) (perm_seq n)) as ([x|] & E & H).
  - exists (vel x). apply H.
  - contradiction.
Qed.
(** the product of a factored matrix *)
Lemma mv_mm n p r A L Q x : (forall i k, (i < n)%nat -> (k < p)%nat -> A i k = mmul r L Q i k) -> forall i, (i < n)%nat -> mv p A x i = mv r L (mv p Q x) i.
Proof.
  intros H i Hi. unfold mv. rewrite (rsum_ext p _ (fun k => rsum r (fun j => L i j * (Q j k * x k)))).
  - rewrite rsum_swap. apply rsum_ext. intros j Hj. rewrite rsum_scal. reflexivity.
  - intros k Hk. rewrite H by auto. unfold mmul. rewrite <- rsum_scal_r. apply rsum_ext. intros; ring.
Qed.
Lemma compose n p r A L Q w b v f x :
  (forall i k, (i < n)%nat -> (k < p)%nat -> A i k = mmul r L Q i k) ->
  least r (fun _ => True) (fun z => wsq n w (resid r L b z)) v ->
  least p (fun z => solves r p Q z v) f x ->
  least p (fun z => least_error n p w A b z) f x.
Proof.
  intros HA (_ & HV) HX.
  assert (RS : forall z, wsq n w (resid p A b z) = wsq n w (resid r L b (mv p Q z))).
  { intros z. apply wsq_ext; auto. intros i Hi. unfold resid. rewrite (mv_mm n p r A L Q z HA) by auto. reflexivity. }
  assert (EX : forall z, solves r p Q z v -> wsq n w (resid p A b z) = wsq n w (resid r L b v)).
  { intros z Hz. rewrite RS. apply wsq_ext; auto. intros i Hi. unfold resid. f_equal. apply mv_ext. exact Hz. }
  assert (EQ : forall z, solves r p Q z v <-> least_error n p w A b z).
  { intros z. split.
    - intros Hz y. rewrite (EX z Hz), RS. apply HV. exact Logic.I.
    - intros Hz j Hj. destruct HX as (X1 & _). specialize (Hz x). rewrite (EX x X1), RS in Hz.
      destruct (HV (mv p Q z) Logic.I) as (_ & U). exact (U Hz j Hj). }
  apply (least_ext p (fun z => solves r p Q z v) _ f); auto.
Qed.

(** ** the factors of the LQ decomposition *)
Section LQ.
  Variables (n p : nat) (a : fmat R).
  Hypothesis Hn : (0 < n)%nat.
  Hypothesis Hp : (0 < p)%nat.
  Hypothesis R1 : nr a = n.
  Hypothesis C1 : nc a = p.
  Lemma lq_ok : exists l q rank C, zMatDecompLQ 0 a (zmat n n) (zmat n p) = Ok (l, q, rank) /\ nr l = n /\ nc l = n /\ nr q = n /\ nc q = p /\
    (rank <= Nat.min n p)%nat /\ orthonormal_rows p rank (el q) /\
    (forall i j, (i < n)%nat -> (rank <= j \/ i < j)%nat -> el l i j = 0) /\
    (forall i k, (i < n)%nat -> (k < p)%nat -> el a i k = mmul rank (el l) (el q) i k) /\
    (forall j j', (j < rank)%nat -> (j' < rank)%nat -> rsum n (fun i => C j i * el l i j') = delta j j') /\
    (forall j k, (j < rank)%nat -> (k < p)%nat -> el q j k = rsum n (fun i => C j i * el a i k)).
  Proof.
    destruct (gs_ok n p a 0 R1 C1 (Rle_refl 0) (zmat n n) (zmat n p)) as (l & q & rank & E & A1 & A2 & A3 & A4 & A5 & A6 & A7 & A8 & (C & A9)); cbn [nr nc zmat] in *; try lia.
    exists l, q, rank, C. split; [exact E|].
    assert (EX : forall i k, (i < n)%nat -> (k < p)%nat -> el a i k = mmul rank (el l) (el q) i k).
    { intros i k Hi Hk. specialize (A8 i Hi). rewrite pow_ne_zero in A8 by lia.
      assert (Z : rsum p (fun k => (el a i k - rsum rank (fun j => el l i j * el q j k)) ^ 2) = 0).
      { apply Rle_antisym; auto. apply rsum_nonneg. intros; apply pow2_ge_0. }
      pose proof (rsum_nonneg_0 p _ (fun k _ => pow2_ge_0 _) Z k Hk) as Q. cbv beta in Q. unfold mmul. nra. }
    conjs; auto.
    intros j j' Hj Hj'.
    assert (Q1 : rsum p (fun k => el q j k * el q j' k) = delta j j') by (apply A6; auto). rewrite <- Q1.
    rewrite (rsum_ext p _ (fun k => rsum n (fun i => C j i * (el a i k * el q j' k)))).
    - rewrite rsum_swap. apply rsum_ext. intros i Hi. rewrite rsum_scal. f_equal.
      rewrite (rsum_ext p _ (fun k => rsum rank (fun t => el l i t * (el q t k * el q j' k)))).
      + rewrite rsum_swap. rewrite (rsum_ext rank _ (fun t => delta j' t * el l i t)); [rewrite (delta_sum_l rank j' (el l i)) by auto; reflexivity|].
        intros t Ht. rewrite rsum_scal. change (rsum p (fun k => el q t k * el q j' k)) with (rdot p (el q) t j'). rewrite A6 by auto. unfold delta. rewrite Nat.eqb_sym. ring.
      + intros k Hk. rewrite EX by auto. unfold mmul. rewrite <- rsum_scal_r. apply rsum_ext. intros; ring.
    - intros k Hk. rewrite (A9 j k) by auto. rewrite <- rsum_scal_r. apply rsum_ext. intros; ring.
  Qed.
End LQ.

(** a matrix with a left inverse *)
Lemma left_inv_cols n r L C : (forall j j', (j < r)%nat -> (j' < r)%nat -> rsum n (fun i => C j i * L i j') = delta j j') ->
  forall x j, (j < r)%nat -> rsum n (fun i => C j i * mv r L x i) = x j.
Proof.
  intros H x j Hj. rewrite (rsum_ext n _ (fun i => rsum r (fun t => x t * (C j i * L i t)))).
  - rewrite rsum_swap. rewrite (rsum_ext r _ (fun t => delta j t * x t)); [apply delta_sum_l; auto|]. intros t Ht. rewrite rsum_scal, H by auto. ring.
  - intros i Hi. unfold mv. rewrite <- rsum_scal. apply rsum_ext. intros; ring.
Qed.
Lemma left_inv_indep n r L C : (forall j j', (j < r)%nat -> (j' < r)%nat -> rsum n (fun i => C j i * L i j') = delta j j') -> cols_indep n r L.
Proof.
  intros H x Hx k Hk. rewrite <- (left_inv_cols n r L C H x k Hk). apply rsum_0. intros i Hi. rewrite (Hx i Hi). ring.
Qed.
Lemma left_inv_diag n L C : (forall j j', (j < n)%nat -> (j' < n)%nat -> rsum n (fun i => C j i * L i j') = delta j j') ->
  (forall i j, (i < n)%nat -> (i < j)%nat -> L i j = 0) -> forall i, (i < n)%nat -> L i i <> 0.
Proof.
  intros H T.
  assert (K : forall k i, (i + k + 1 = n)%nat -> L i i <> 0 /\ forall j, (j < i)%nat -> C j i = 0).
  { induction k as [k IH] using lt_wf_ind. intros i Hi.
    assert (S1 : forall j, (j <= i)%nat -> C j i * L i i = delta j i).
    { intros j Hj. rewrite <- (H j i) by lia. symmetry. apply (rsum_delta n i (fun a => C j a * L a i)); [lia|].
      intros t Ht Nt. destruct (lt_dec t i); [rewrite T by lia; ring|]. destruct (IH (n - t - 1)%nat ltac:(lia) t ltac:(lia)) as (_ & Z). rewrite Z by lia. ring. }
    assert (D : L i i <> 0). { intros Z. specialize (S1 i (le_n i)). rewrite Z in S1. unfold delta in S1. rewrite Nat.eqb_refl in S1. lra. }
    split; auto. intros j Hj. specialize (S1 j ltac:(lia)). unfold delta in S1. rewrite (proj2 (Nat.eqb_neq j i)) in S1 by lia.
    destruct (Rmult_integral _ _ S1); [auto|contradiction]. }
  intros i Hi. apply (K (n - i - 1)%nat). lia.
Qed.
(** orthonormal rows *)
Lemma orows_indep p r Q : orthonormal_rows p r Q -> rows_indep r p Q.
Proof.
  intros O y Hy i Hi. assert (E : rsum p (fun k => rsum r (fun j => y j * Q j k) * Q i k) = 0) by (apply rsum_0; intros k Hk; rewrite Hy by auto; ring).
  rewrite (rsum_ext p _ (fun k => rsum r (fun j => y j * (Q j k * Q i k)))) in E by (intros k Hk; rewrite <- rsum_scal_r; apply rsum_ext; intros; ring).
  rewrite rsum_swap in E. rewrite (rsum_ext r _ (fun j => delta i j * y j)) in E.
  - rewrite delta_sum_l in E by auto. exact E.
  - intros j Hj. rewrite rsum_scal. change (rsum p (fun k => Q j k * Q i k)) with (rdot p Q j i). rewrite O by auto. unfold delta. rewrite Nat.eqb_sym. ring.
Qed.
Lemma orows_back p r Q v j : orthonormal_rows p r Q -> (j < r)%nat -> mv p Q (fun k => rsum r (fun i => Q i k * v i)) j = v j.
Proof.
  intros O Hj. unfold mv. rewrite (rsum_ext p _ (fun k => rsum r (fun i => v i * (Q j k * Q i k)))) by (intros k Hk; rewrite <- rsum_scal; apply rsum_ext; intros; ring).
  rewrite rsum_swap. rewrite (rsum_ext r _ (fun i => delta j i * v i)); [apply delta_sum_l; auto|].
  intros i Hi. rewrite rsum_scal. change (rsum p (fun k => Q j k * Q i k)) with (rdot p Q j i). rewrite O by auto. ring.
Qed.
Lemma orows_square p Q : (0 < p)%nat -> orthonormal_rows p p Q -> cols_indep p p Q.
Proof.
  intros Hp O z Hz k Hk.
  assert (N : nonsingular p (fun k j => Q j k)).
  { intros y Hy i Hi. apply (orows_indep p p Q O); auto. intros t Ht. rewrite <- (Hy t Ht). apply rsum_ext. intros; ring. }
  destruct (nonsingular_onto p (fun k j => Q j k) z Hp N) as (y & Hy).
  assert (Y : forall j, (j < p)%nat -> y j = 0).
  { intros j Hj. rewrite <- (orows_back p p Q y j O Hj). rewrite <- (Hz j Hj). apply mv_ext. intros t Ht. exact (Hy t Ht). }
  rewrite <- (Hy k Hk). unfold mv. apply rsum_0. intros j Hj. rewrite (Y j Hj). ring.
Qed.

  Lemma sub_ident_ok p (m : fmat R) : nr m = p -> nc m = p -> exists m', sub_ident m = Ok m' /\ nr m' = p /\ nc m' = p /\
    forall i j, el m' i j = el m i j - (if (i <? p)%nat then delta i j else 0).
  Proof.
    intros M1 M2. unfold sub_ident. rewrite M1.
    match goal with |- context [for_ 0 p ?f ?s] => destruct (for_inv (fun i m' => nr m' = p /\ nc m' = p /\
      forall k l, el m' k l = el m k l - (if (k <? i)%nat then delta k l else 0)) 0 p f s) as (m' & E' & Q1 & Q2 & Q3) end.
    - lia.
    - conjs; auto. intros. cbn. ring.
    - intros i s Hi (Q1 & Q2 & Q3). rewrite mmod_ok, mset_ok by lia. eexists. split; [reflexivity|]. cbn [nr nc el]. conjs; auto.
      intros k l. rewrite !Q3. unfold delta. destruct (Nat.eqb_spec k i) as [->|Nk]; destruct (Nat.eqb_spec l i) as [->|Nl]; cbn [andb].
      + rewrite Nat.ltb_irrefl, (proj2 (Nat.ltb_lt i (S i))), Nat.eqb_refl by lia. rs. ring.
      + rewrite Nat.ltb_irrefl, (proj2 (Nat.ltb_lt i (S i))), (proj2 (Nat.eqb_neq i l)) by lia. ring.
      + destruct (Nat.ltb_spec k i), (Nat.ltb_spec k (S i)); try lia; reflexivity.
      + destruct (Nat.ltb_spec k i), (Nat.ltb_spec k (S i)); try lia; reflexivity.
    - exists m'. auto.
  Qed.
Section MP.
  Variables (n p : nat) (a : fmat R) (b : fvec R) (wn we : option (fvec R)) (ans : fvec R) (idx2 : nat -> list nat).
  Hypothesis Hn : (0 < n)%nat.
  Hypothesis Hp : (0 < p)%nat.
  Hypothesis R1 : nr a = n.
  Hypothesis C1 : nc a = p.
  Hypothesis B : vlen b = n.
  Hypothesis X : vlen ans = p.
  Hypothesis FN : wfit p wn.
  Hypothesis FE : wfit n we.
  Hypothesis WN : wpos p wn.
  Hypothesis WE : wpos n we.
  Hypothesis P2 : forall r, perm r (idx2 r).

  (** the left part, for a factor with a left inverse *)
  Lemma mp_l_ok rank (l q : fmat R) idx : (0 < rank)%nat -> nr l = n -> nc l = rank -> cols_indep n rank (el l) ->
    (rank = n -> exists v, zLESolveL l b (zvec n) idx = Ok v /\ vlen v = n /\ solves n n (el l) (vel v) (vel b)) ->
    exists v, _zLESolveMP_L 0 (MPWS l q b idx) we rank = Ok v /\ vlen v = rank /\
      least rank (fun _ => True) (fun z => wsq n (wt we) (resid rank (el l) (vel b) z)) (vel v).
  Proof.
    intros Hr L1 L2 CI HS. unfold _zLESolveMP_L, issqr. cbn [w_l w_b w_lu]. rewrite L1, L2.
    destruct (Nat.eqb_spec n rank) as [En|Nn].
    - destruct (HS (eq_sym En)) as (v & E & V & S). exists v. rewrite <- En. split; [exact E|]. split; auto. split; auto. intros z _.
      assert (Z : wsq n (wt we) (resid n (el l) (vel b) (vel v)) = 0) by (apply rsum_0; intros i Hi; unfold resid; rewrite S by auto; ring).
      rewrite Z. split; [apply wsq_nonneg; intros; apply Rlt_le; auto|]. intros L i Hi.
      assert (Z2 : wsq n (wt we) (resid n (el l) (vel b) z) = 0) by (apply Rle_antisym; auto; apply wsq_nonneg; intros; apply Rlt_le; auto).
      pose proof (wsq_0 n (wt we) _ WE Z2) as Z3. rewrite En in CI, Hi.
      assert (Q : z i - vel v i = 0); [|lra]. apply (CI (fun k => z k - vel v k)); auto. intros r Hr'. rewrite mv_sub. specialize (Z3 r ltac:(lia)). unfold resid in Z3. specialize (S r ltac:(lia)). rewrite En in S, Z3. lra.
    - destruct (errormin_ok n rank l Hn Hr L1 L2 b we (zvec rank) (List.seq 0 rank) B eq_refl FE WE (perm_seq rank)) as (o & E & H). rewrite E. cbn [bind].
      destruct o as [v|]; [|contradiction]. destruct H as (V & _ & H). exists v. auto.
  Qed.
  (** the right part, for a factor with independent rows; [Ok x] is the answer of the square case *)
  Lemma mp_n_ok rank (l q : fmat R) idx v : (0 < rank)%nat -> nr q = rank -> nc q = p -> vlen v = rank -> rows_indep rank p (el q) ->
    exists x, mp_norm_min 0 idx2 (MPWS l q b idx) wn rank v ans = Ok x /\ vlen x = p /\
      least p (fun z => solves rank p (el q) z (vel v)) (wsq p (rinv (wt wn))) (vel x).
  Proof.
    intros Hr Q1 Q2 V RI. unfold mp_norm_min. cbn [w_r].
    destruct (normmin_ok rank p q Hr Hp Q1 Q2 v wn ans (idx2 rank) V X FN WN (P2 rank)) as (o & E & H). rewrite E. cbn [bind].
    destruct o as [x|]; [|contradiction]. destruct H as (V' & _ & H). exists x. auto.
  Qed.
  Lemma least_square r (Q : nat -> nat -> R) v x : cols_indep r p Q -> solves r p Q x v -> least p (fun z => solves r p Q z v) (wsq p (rinv (wt wn))) x.
  Proof.
    intros CI S. split; auto. intros z Hz. assert (E : forall i, (i < p)%nat -> z i = x i).
    { intros i Hi. assert (K : z i - x i = 0); [|lra]. apply (CI (fun k => z k - x k)); auto. intros j Hj. rewrite mv_sub, Hz, S by auto. ring. }
    split; auto. right. apply wsq_ext; auto. intros i Hi. symmetry. auto.
  Qed.
  Lemma mp_r_ok rank (l q : fmat R) idx v : (0 < rank)%nat -> nr q = rank -> nc q = p -> vlen v = rank -> orthonormal_rows p rank (el q) ->
    exists x, (if issqr q then zMulMatTVec q v ans else mp_norm_min 0 idx2 (MPWS l q b idx) wn rank v ans) = Ok x /\ vlen x = p /\
      least p (fun z => solves rank p (el q) z (vel v)) (wsq p (rinv (wt wn))) (vel x).
  Proof.
    intros Hr Q1 Q2 V O. unfold issqr. rewrite Q1, Q2. destruct (Nat.eqb_spec rank p) as [Er|Nr].
    - unfold zMulMatTVec. rewrite Q1, Q2, V, X, !Nat.eqb_refl. cbn [andb]. destruct (mulmtv_R q v ans) as (x & E & V1 & V2); try congruence.
      exists x. split; [exact E|]. split; [congruence|]. apply least_square.
      + rewrite Er in *. apply orows_square; auto.
      + intros j Hj. rewrite <- (orows_back p rank (el q) (vel v) j O Hj). apply mv_ext. intros k Hk. rewrite <- Q1. apply V2. congruence.
    - apply mp_n_ok; auto. apply orows_indep; auto.
  Qed.
  Lemma copy_b_ok : copy_b (nr a) b = b.
  Proof. unfold copy_b. rewrite B, R1, Nat.eqb_refl. reflexivity. Qed.

  Lemma lq_left rank (l q : fmat R) C : (0 < rank)%nat -> nr l = n -> nc l = n -> (rank <= n)%nat ->
    (forall i j, (i < n)%nat -> (rank <= j \/ i < j)%nat -> el l i j = 0) ->
    (forall j j', (j < rank)%nat -> (j' < rank)%nat -> rsum n (fun i => C j i * el l i j') = delta j j') ->
    exists v, _zLESolveMP_L 0 (MPWS (FM (nr l) rank (el l)) q b (List.seq 0 n)) we rank = Ok v /\ vlen v = rank /\
      least rank (fun _ => True) (fun z => wsq n (wt we) (resid rank (el l) (vel b) z)) (vel v).
  Proof.
    intros Hr L1 L2 Lr LT LI. apply (mp_l_ok rank (FM (nr l) rank (el l)) q (List.seq 0 n)); auto. { apply (left_inv_indep n rank (el l) C LI). }
    intros En. apply C24_lower; auto; cbn [nr nc el]; auto using perm_seq.
    - intros i Hi. rewrite pos_seq by auto. rewrite En in LI. apply (left_inv_diag n (el l) C); auto.
    - intros i j Hi Hj. rewrite pos_seq by auto. apply LT; auto. lia.
  Qed.
  Lemma mp_lq_ok : (exists i k, (i < n)%nat /\ (k < p)%nat /\ el a i k <> 0) ->
    exists x, zLESolveMP_LQ 0 0 idx2 a b wn we ans = Ok x /\ vlen x = p /\
      least p (fun z => least_error n p (wt we) (el a) (vel b) z) (wsq p (rinv (wt wn))) (vel x).
  Proof.
    intros NZ. unfold zLESolveMP_LQ. rewrite copy_b_ok, R1, C1.
    destruct (lq_ok n p a Hn Hp R1 C1) as (l & q & rank & C & E & L1 & L2 & Q1 & Q2 & RK & O & LT & LQ & LI & _). rewrite E. cbn [bind].
    assert (Hr : (0 < rank)%nat).
    { destruct rank; [|lia]. exfalso. destruct NZ as (i & k & Hi & Hk & N). apply N. rewrite LQ by auto. reflexivity. }
    rewrite (proj2 (Nat.ltb_lt 0 rank)) by auto. unfold zLESolveMP_LQ_DST. cbn [w_r].
    destruct (lq_left rank l (FM rank (nc q) (el q)) C Hr L1 L2 ltac:(lia) LT LI) as (v & Ev & V1 & V2). rewrite Ev. cbn [bind].
    destruct (mp_r_ok rank (FM (nr l) rank (el l)) (FM rank (nc q) (el q)) (List.seq 0 n) v) as (x & Ex & X1 & X2); auto.
    exists x. split; [exact Ex|]. split; auto. apply (compose n p rank (el a) (el l) (el q) (wt we) (vel b) (vel v)); auto.
  Qed.
  (** the zero matrix *)
  Lemma mp_lq_zero : (forall i k, (i < n)%nat -> (k < p)%nat -> el a i k = 0) -> zLESolveMP_LQ 0 0 idx2 a b wn we ans = Ok ans.
  Proof.
    intros Z. unfold zLESolveMP_LQ. rewrite R1, C1.
    destruct (lq_ok n p a Hn Hp R1 C1) as (l & q & rank & C & E & L1 & L2 & Q1 & Q2 & RK & O & LT & LQ & LI & CQ). rewrite E. cbn [bind].
    destruct rank as [|r]; [reflexivity|]. exfalso. pose proof (O 0%nat 0%nat ltac:(lia) ltac:(lia)) as O0. unfold rdot in O0. rewrite rsum_0 in O0; [unfold delta in O0; cbn in O0; lra|].
    intros k Hk. rewrite (CQ 0%nat k) by lia. rewrite rsum_0; [ring|]. intros i Hi. rewrite Z by auto. ring.
  Qed.

  (** the null-space matrix: its negative is the orthogonal projector onto the null space *)
  Definition null_neg (N : nat -> nat -> R) : Prop :=
    (forall i j, (i < p)%nat -> (j < p)%nat -> N i j = N j i) /\
    (forall i j, (i < n)%nat -> (j < p)%nat -> rsum p (fun k => el a i k * N k j) = 0) /\
    (forall z, solves n p (el a) z (fun _ => 0) -> forall i, (i < p)%nat -> mv p N z i = - z i).
  Lemma null_ok rank (l q : fmat R) C (mn : fmat R) : nr q = rank -> nc q = p -> nr mn = p -> nc mn = p -> orthonormal_rows p rank (el q) ->
    (forall i k, (i < n)%nat -> (k < p)%nat -> el a i k = mmul rank (el l) (el q) i k) ->
    (forall j j', (j < rank)%nat -> (j' < rank)%nat -> rsum n (fun i => C j i * el l i j') = delta j j') ->
    exists N, sub_ident (zMulMatTMat q q mn) = Ok N /\ nr N = p /\ nc N = p /\ null_neg (el N).
  Proof.
    intros Q1 Q2 M1 M2 O LQ LI. unfold zMulMatTMat. rewrite Q1, Q2, M1, M2, !Nat.eqb_refl. cbn [andb].
    destruct (sub_ident_ok p (mul_matT_mat q q)) as (N & E & N1 & N2 & N3); auto. exists N. conjs; auto.
    assert (NE : forall i j, (i < p)%nat -> el N i j = rsum rank (fun k => el q k i * el q k j) - delta i j).
    { intros i j Hi. rewrite N3. rewrite (proj2 (Nat.ltb_lt i p)) by auto. unfold mul_matT_mat. cbn [el]. rewrite ksum_R, Q1. reflexivity. }
    assert (NV : forall z i, (i < p)%nat -> mv p (el N) z i = rsum rank (fun k => el q k i * mv p (el q) z k) - z i).
    { intros z i Hi. unfold mv at 1. rewrite (rsum_ext p _ (fun j => rsum rank (fun k => el q k i * (el q k j * z j)) - delta i j * z j)).
      - rewrite rsum_sub, (delta_sum_l p i z) by auto. f_equal. rewrite rsum_swap. apply rsum_ext. intros k Hk. rewrite rsum_scal. reflexivity.
      - intros j Hj. rewrite NE by auto. rewrite Rmult_minus_distr_r. f_equal. rewrite <- rsum_scal_r. apply rsum_ext. intros; ring. }
    split; [|split].
    - intros i j Hi Hj. rewrite !NE by auto. f_equal; [apply rsum_ext; intros; ring|]. unfold delta. rewrite Nat.eqb_sym. reflexivity.
    - intros i j Hi Hj. change (rsum p (fun k => el a i k * el N k j)) with (mv p (el a) (fun k => el N k j) i).
      rewrite (mv_mm n p rank (el a) (el l) (el q) _ LQ) by auto. unfold mv at 1. apply rsum_0. intros t Ht.
      assert (Z : mv p (el q) (fun k => el N k j) t = 0); [|rewrite Z; ring].
      rewrite (mv_ext p (el q) (fun k => el N k j) (fun k => rsum rank (fun s => el q s k * el q s j) - delta k j)) by (intros k Hk; apply NE; auto).
      rewrite mv_sub, (orows_back p rank (el q) (fun s => el q s j) t O Ht). unfold mv.
      rewrite (rsum_ext p _ (fun k => delta j k * el q t k)) by (intros k Hk; unfold delta; rewrite (Nat.eqb_sym k j); ring). rewrite (delta_sum_l p j (el q t)) by auto. ring.
    - intros z Hz i Hi. rewrite NV by auto. rewrite rsum_0; [ring|]. intros k Hk.
      assert (Z : mv p (el q) z k = 0); [|rewrite Z; ring]. apply (left_inv_indep n rank (el l) C LI); auto. intros r Hr. rewrite <- (mv_mm n p rank (el a) (el l) (el q) z LQ) by auto. auto.
  Qed.
  Lemma mp_null_ok mn : nr mn = p -> nc mn = p -> (exists i k, (i < n)%nat /\ (k < p)%nat /\ el a i k <> 0) ->
    exists x N, zLESolveMPNull 0 0 idx2 a b wn we ans mn = Ok (x, N) /\ zLESolveMP_LQ 0 0 idx2 a b wn we ans = Ok x /\ nr N = p /\ nc N = p /\ null_neg (el N).
  Proof.
    intros M1 M2 NZ. unfold zLESolveMPNull, zLESolveMP_LQ. rewrite copy_b_ok, R1, C1.
    destruct (lq_ok n p a Hn Hp R1 C1) as (l & q & rank & C & E & L1 & L2 & Q1 & Q2 & RK & O & LT & LQ & LI & _). rewrite E. cbn [bind].
    assert (Hr : (0 < rank)%nat).
    { destruct rank; [|lia]. exfalso. destruct NZ as (i & k & Hi & Hk & N). apply N. rewrite LQ by auto. reflexivity. }
    rewrite (proj2 (Nat.ltb_lt 0 rank)) by auto. unfold zLESolveMPNullDST, zLESolveMP_LQ_DST. cbn [w_r].
    destruct (lq_left rank l (FM rank (nc q) (el q)) C Hr L1 L2 ltac:(lia) LT LI) as (v & Ev & V1 & V2). rewrite Ev. cbn [bind].
    destruct (mp_r_ok rank (FM (nr l) rank (el l)) (FM rank (nc q) (el q)) (List.seq 0 n) v) as (x & Ex & X1 & X2); auto.
    destruct (null_ok rank l (FM rank (nc q) (el q)) C mn eq_refl Q2 M1 M2 O LQ LI) as (N & EN & N1 & N2 & N3).
    unfold issqr in *. cbn [nr nc] in *. destruct (Nat.eqb_spec rank (nc q)) as [Eq|Nq].
    - rewrite Ex. cbn [bind]. eexists _, _. split; [reflexivity|]. split; [reflexivity|]. cbn [nr nc el]. conjs; auto. split; [|split]; cbn [el].
      + auto.
      + intros. apply rsum_0. intros. rs. ring.
      + intros z Hz i Hi. unfold mv. rewrite rsum_0 by (intros; rs; ring).
        assert (Z : z i = 0); [|rewrite Z; ring]. apply (orows_square p (el q) Hp); [rewrite Eq, Q2 in O; exact O| |auto].
        intros k Hk. apply (left_inv_indep n rank (el l) C LI); [|lia]. intros r Hr'. rewrite <- (mv_mm n p rank (el a) (el l) (el q) z LQ) by auto. auto.
    - rewrite Ex. cbn [bind]. rewrite EN. cbn [bind]. eexists _, _. split; [reflexivity|]. split; [reflexivity|]. auto.
  Qed.

  (** LU decomposition, for full column rank *)
  Lemma mp_lu_ok : (p <= n)%nat -> cols_indep n p (el a) ->
    exists x, zLESolveMP_LU 0 idx2 a b wn we ans = Ok x /\ vlen x = p /\
      least p (fun _ => True) (fun z => wsq n (wt we) (resid p (el a) (vel b) z)) (vel x).
  Proof.
    intros Hle CI. unfold zLESolveMP_LU. rewrite copy_b_ok, R1, C1.
    destruct (C25_full_rank n p a (zmat n n) (zmat n p) (List.seq 0 n)) as (L & U & idx' & E & P & TL & DL & TU & DU & HM); auto using seq_length.
    destruct (C25_lu_partial 0 n p a (zmat n n) (zmat n p) (List.seq 0 n)) as (L' & U' & idx3 & rank & E' & P' & _ & K1 & K2 & K3 & K4 & _); auto using seq_length; try lra.
    rewrite E in E'. injection E' as <- <- <- <-. rewrite E. cbn [bind]. rewrite (proj2 (Nat.ltb_lt 0 p)) by auto. unfold zLESolveMP_LU_DST. cbn [w_r].
    assert (UZ : forall y, vlen y = p -> exists x, zLESolveU (FM p (nc U) (el U)) y ans = Ok x /\ vlen x = p /\ solves p p (el U) (vel x) (vel y)).
    { intros y Hy. apply (C24_upper_partial p (FM p (nc U) (el U)) y ans); cbn [nr nc el]; auto. }
    assert (MM : forall i k, (i < n)%nat -> (k < p)%nat -> el a i k = mmul p (el L) (el U) i k) by (intros; rewrite HM by auto; reflexivity).
    assert (CL : cols_indep n p (el L)).
    { intros y Hy k Hk. destruct (UZ (FV p y) eq_refl) as (x & _ & _ & Sx). cbn [vel] in Sx. rewrite <- (Sx k Hk).
      assert (Z : forall i, (i < p)%nat -> vel x i = 0).
      { intros i Hi. apply (CI (vel x)); auto. intros r Hr. rewrite (mv_mm n p p (el a) (el L) (el U) (vel x) MM) by auto. rewrite <- (Hy r Hr). apply mv_ext. exact Sx. }
      unfold mv. apply rsum_0. intros c Hc. rewrite (Z c Hc). ring. }
    destruct (mp_l_ok p (FM (nr L) p (el L)) (FM p (nc U) (el U)) idx' Hp) as (v & Ev & V1 & V2); auto.
    { intros Epn. apply C24_lower; auto; cbn [nr nc el]; auto.
      - intros i Hi. apply DL. lia.
      - intros i j Hi Hj. apply TL; lia. }
    rewrite Ev. cbn [bind]. unfold issqr. cbn [nr nc]. rewrite K4, Nat.eqb_refl. destruct (UZ v V1) as (x & Ex & X1 & X2). rewrite K4 in Ex. rewrite Ex.
    exists x. split; auto. split; auto. split; auto. intros z _.
    assert (RS : forall z, wsq n (wt we) (resid p (el a) (vel b) z) = wsq n (wt we) (resid p (el L) (vel b) (mv p (el U) z))).
    { intros y. apply wsq_ext; auto. intros i Hi. unfold resid. rewrite (mv_mm n p p (el a) (el L) (el U) y MM) by auto. reflexivity. }
    assert (EX : wsq n (wt we) (resid p (el a) (vel b) (vel x)) = wsq n (wt we) (resid p (el L) (vel b) (vel v))).
    { rewrite RS. apply wsq_ext; auto. intros i Hi. unfold resid. f_equal. apply mv_ext. exact X2. }
    rewrite EX, RS. destruct V2 as (_ & V2). destruct (V2 (mv p (el U) z) Logic.I) as (A1 & A2). split; auto. intros L1 i Hi. specialize (A2 L1).
    assert (Q : z i - vel x i = 0); [|lra]. apply (CI (fun k => z k - vel x k)); auto. intros r Hr. rewrite (mv_mm n p p (el a) (el L) (el U) _ MM) by auto.
    unfold mv at 1. apply rsum_0. intros c Hc. rewrite mv_sub, (A2 c Hc), (X2 c Hc). ring.
  Qed.
End MP.
