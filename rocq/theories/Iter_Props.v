(** C113: zLESolveGaussSeidel.  C114: zMatInvHotelling.  C115: zLESolveLURI and zMulInvMatMatAndVec. *)
From Coq Require Import Reals Lra Lia Psatz List QArith.
From Coq Require Import Floats.PrimFloat.
From Verif Require Import Prelude Prelude_Proofs Scalar RealLib Fmat Fmat_Proofs LE_Model LE_Spec LE_Proofs IP_Model Vop Gen_Model Iter_Model Iter_Spec.
From Verif Require Hess2_Proofs.
From Verif Require Import LE2_Proofs LE3_Proofs LE5_Proofs Qp_Proofs LE_Props.
From Verif Require Import Iter_Proofs Iter2_Proofs.

Import ListNotations.
Local Open Scope R_scope.

(** * C113 *)
(** every square system: the rows are used in an order p that takes in each column the largest element of the rows that
    are left.  If none of these is zero and the run ends without the warning, every equation holds up to [tol] times the
    sum of its coefficients. *)
Theorem C113_residual_partial tol maxit n (a : fmat R) (b ans : fvec R) : 0 <= tol -> nr a = n -> nc a = n -> vlen b = n -> vlen ans = n ->
  exists p x ok, zLESolveGaussSeidel tol maxit a b ans = Ok (Some (x, ok)) /\ vlen x = n /\ bijection n p /\
    (forall j k, (j <= k < n)%nat -> Rabs (el a (p k) j) <= Rabs (el a (p j) j)) /\
    ((forall j, (j < n)%nat -> el a (p j) j <> 0) -> ok = true ->
       forall r, (r < n)%nat -> Rabs (vel b r - mv n (el a) (vel x) r) <= tol * rsum n (fun k => Rabs (el a r k))).
Proof.
  intros Ht A1 A2 B X. unfold zLESolveGaussSeidel. rewrite A1, A2, B, X, !Nat.eqb_refl. cbn [negb orb].
  destruct (gs_order_ok n a A1 A2) as (idx & E & P & M). rewrite E. cbn [bind].
  match goal with |- context [forb 0 ?m ?f ?s] => destruct (forb_inv (fun _ v => vlen v = n) (fun v : fvec R => vlen v = n /\ exists old, vlen old = n /\
      (forall j, (j < n)%nat -> gs_eq n (el a) (vel b) (pos idx) (vel old) (vel v) j) /\ forall j, (j < n)%nat -> Rabs (vel v j - vel old j) <= tol) 0 m f s) as (o & Eo & Ho) end.
  - lia.
  - exact X.
  - intros k v Hk V. destruct (gs_sweep_ok tol n a b idx A1 A2 B P v V) as (new & c & Es & G & C1 & C2). rewrite Es. cbn [bind vlen].
    destruct (Nat.eqb_spec c n) as [Ec|Ec]; eexists; (split; [reflexivity|]); cbn [vlen]; auto. split; auto. exists v. split; auto. cbn [vel]. split; auto. apply C2, Ec.
  - rewrite Eo. cbn [bind]. exists (pos idx).
    assert (BJ : bijection n (pos idx)). { split; [|split]; intros; [now apply perm_lt|now apply perm_onto|now apply (perm_inj n idx)]. }
    destruct o as [v|v].
    + exists v, false. split; auto. split; auto. split; auto. split; auto. discriminate.
    + destruct Ho as (V & old & O & G & C). exists v, true. split; auto. split; auto. split; auto. split; auto. intros NZ _ r Hr.
      destruct (perm_onto n idx r P Hr) as (j & Hj & <-). eapply Rle_trans; [apply (gs_residual tol n a b idx A1 A2 B (vel old) (vel v) j); auto|].
      apply Rmult_le_compat_l; auto. apply rsum_le. intros k Hk. destruct (j <? k)%nat; [lra|apply Rabs_pos].
Qed.

Lemma dominant_strict q n A : 0 <= q < 1 -> col_dominant q n A -> forall j k, (j < n)%nat -> (k < n)%nat -> j <> k -> Rabs (A j k) < Rabs (A k k).
Proof.
  intros Hq D j k Hj Hk N. destruct (D k Hk) as [Z H]. pose proof (Rabs_pos_lt _ Z).
  assert (Rabs (A j k) <= rsum n (fun i => if (i =? k)%nat then 0 else Rabs (A i k))).
  { rewrite (rsum_split n j) by auto. cbn beta. destruct (Nat.eqb_spec j k); [lia|].
    assert (forall m g, 0 <= rsum m (fun i => if (g i =? k)%nat then 0 else Rabs (A (g i) k))) as F by (intros; apply rsum_nonneg; intros i _; destruct (g i =? k)%nat; [lra|apply Rabs_pos]).
    pose proof (F j (fun i => i)). pose proof (F (n - S j)%nat (fun i => (S j + i)%nat)). cbn beta in *. lra. }
  nra.
Qed.

(** a dominant diagonal, by columns, and the solution xs: the answer is near xs.  [diag_dist] is the distance weighted by the diagonal. *)
Theorem C113_dominant tol maxit q n (a : fmat R) (b ans : fvec R) xs : 0 <= tol -> nr a = n -> nc a = n -> vlen b = n -> vlen ans = n ->
  0 <= q < 1 -> col_dominant q n (el a) -> solves n n (el a) xs (vel b) ->
  exists x ok, zLESolveGaussSeidel tol maxit a b ans = Ok (Some (x, ok)) /\ vlen x = n /\
    (ok = true -> diag_dist n (el a) (vel x) xs <= q * tol / (1 - q) ^ 2 * rsum n (fun k => Rabs (el a k k))) /\
    (ok = false -> diag_dist n (el a) (vel x) xs <= q ^ (S maxit) / (1 - q) * diag_dist n (el a) (vel ans) xs).
Proof.
  intros Ht A1 A2 B X Hq D Hs. unfold zLESolveGaussSeidel. rewrite A1, A2, B, X, !Nat.eqb_refl. cbn [negb orb].
  destruct (gs_order_id n a A1 A2 (dominant_strict q n _ Hq D)) as (idx & E & P & I). rewrite E. cbn [bind].
  match goal with |- context [forb 0 ?m ?f ?s] => destruct (forb_inv (fun k v => vlen v = n /\ wdist n (el a) (vel v) xs <= q ^ k * wdist n (el a) (vel ans) xs)
      (fun v : fvec R => vlen v = n /\ wdist n (el a) (vel v) xs <= q * tol / (1 - q) * rsum n (fun k => Rabs (el a k k))) 0 m f s) as (o & Eo & Ho) end.
  - lia.
  - split; auto. cbn [pow]. lra.
  - intros k v Hk (V & W). destruct (gs_sweep_ok tol n a b idx A1 A2 B P v V) as (new & c & Es & G & C1 & C2). rewrite Es. cbn [bind vlen].
    assert (G' : forall j, (j < n)%nat -> gs_eq n (el a) (vel b) (fun j => j) (vel v) new j).
    { intros j Hj. specialize (G j Hj). unfold gs_eq in *. now rewrite (I j Hj) in G. }
    destruct (Nat.eqb_spec c n) as [Ec|Ec]; eexists; (split; [reflexivity|]); cbn [vlen vel]; split; auto.
    + apply (gs_near q n (el a) (vel b) xs Hq D Hs tol (vel v) new G'). apply C2, Ec.
    + pose proof (gs_contract q n (el a) (vel b) xs Hq D Hs (vel v) new G'). cbn [pow]. rewrite Rmult_assoc. eapply Rle_trans; [eassumption|]. apply Rmult_le_compat_l; lra.
  - rewrite Eo. cbn [bind]. destruct o as [v|v]; destruct Ho as (V & W); pose proof (wdist_lo q n (el a) D (vel v) xs) as L.
    + exists v, false. split; auto. split; auto. split; [discriminate|]. intros _. pose proof (wdist_hi n (el a) (vel ans) xs) as Hh.
      apply (Rmult_le_reg_l (1 - q)); [lra|]. replace ((1 - q) * (q ^ S maxit / (1 - q) * diag_dist n (el a) (vel ans) xs)) with (q ^ S maxit * diag_dist n (el a) (vel ans) xs) by (field; lra).
      pose proof (pow_le q (S maxit) (proj1 Hq)). nra.
    + exists v, true. split; auto. split; auto. split; [|discriminate]. intros _.
      apply (Rmult_le_reg_l (1 - q)); [lra|]. eapply Rle_trans; [exact L|]. eapply Rle_trans; [exact W|]. apply Req_le. field. lra.
Qed.

(** and with enough iterations it ends without the warning *)
Theorem C113_dominant_ends tol q n (a : fmat R) (b ans : fvec R) xs : 0 < tol -> nr a = n -> nc a = n -> vlen b = n -> vlen ans = n ->
  0 <= q < 1 -> col_dominant q n (el a) -> solves n n (el a) xs (vel b) ->
  exists K, forall maxit, (K <= maxit)%nat -> exists x, zLESolveGaussSeidel tol maxit a b ans = Ok (Some (x, true)).
Proof.
  intros Ht A1 A2 B X Hq D Hs. destruct (gs_settles q n (el a) (vel b) xs Hq D Hs tol Ht) as (eps & He & Set_).
  assert (exists K, q ^ K * wdist n (el a) (vel ans) xs <= eps) as (K & HK).
  { pose proof (wdist_nonneg q n (el a) Hq D (vel ans) xs) as W0. destruct (pow_lt_1_zero q) with (y := eps / (wdist n (el a) (vel ans) xs + 1)) as (N & HN).
    - rewrite Rabs_right; lra.
    - apply Rdiv_lt_0_compat; lra.
    - exists N. specialize (HN N (le_n N)). pose proof (pow_le q N (proj1 Hq)). rewrite Rabs_right in HN by lra.
      apply (Rmult_lt_compat_r (wdist n (el a) (vel ans) xs + 1)) in HN; [|lra]. unfold Rdiv in HN. rewrite Rmult_assoc, Rinv_l, Rmult_1_r in HN by lra. nra. }
  exists K. intros maxit HM. unfold zLESolveGaussSeidel. rewrite A1, A2, B, X, !Nat.eqb_refl. cbn [negb orb].
  destruct (gs_order_id n a A1 A2 (dominant_strict q n _ Hq D)) as (idx & E & P & I). rewrite E. cbn [bind].
  match goal with |- context [forb 0 ?m ?f ?s] => destruct (forb_inv (fun k v => (k <= K)%nat /\ vlen v = n /\ wdist n (el a) (vel v) xs <= q ^ k * wdist n (el a) (vel ans) xs)
      (fun v : fvec R => True) 0 m f s) as (o & Eo & Ho) end.
  - lia.
  - split; [lia|]. split; auto. cbn [pow]. lra.
  - intros k v Hk (KK & V & W). destruct (gs_sweep_ok tol n a b idx A1 A2 B P v V) as (new & c & Es & G & C1 & C2). rewrite Es. cbn [bind vlen].
    assert (G' : forall j, (j < n)%nat -> gs_eq n (el a) (vel b) (fun j => j) (vel v) new j).
    { intros j Hj. specialize (G j Hj). unfold gs_eq in *. now rewrite (I j Hj) in G. }
    destruct (Nat.eqb_spec c n) as [Ec|Ec]; eexists; (split; [reflexivity|]); cbn [vlen vel]; auto.
    assert (k <> K). { intros ->. apply Ec, C2. apply (Set_ (vel v) new G'). lra. }
    split; [lia|]. split; auto. pose proof (gs_contract q n (el a) (vel b) xs Hq D Hs (vel v) new G'). cbn [pow]. rewrite Rmult_assoc. eapply Rle_trans; [eassumption|]. apply Rmult_le_compat_l; lra.
  - rewrite Eo. cbn [bind]. destruct o as [v|v]; [exfalso; destruct Ho; lia|eauto].
Qed.

Ltac rej N := repeat match goal with |- context [(?x =? ?y)%nat] => destruct (Nat.eqb_spec x y); cbn [negb orb andb]; auto end; exfalso; apply N; auto.
Theorem C113_rejects {T} {ST : Scalar T} tol maxit (a : fmat T) (b ans : fvec T) :
  ~ (nr a = nc a /\ nc a = vlen ans /\ nr a = vlen b) -> zLESolveGaussSeidel tol maxit a b ans = Ok None.
Proof. intros N. unfold zLESolveGaussSeidel. rej N. Qed.

(** any scalar, so also doubles with NaNs: nothing outside the arguments is touched, and the answer has its size *)
Theorem C113_safe {T} {ST : Scalar T} tol maxit (a : fmat T) (b ans : fvec T) : exists o, zLESolveGaussSeidel tol maxit a b ans = Ok o /\
  match o with Some (x, _) => vlen x = vlen ans | None => True end.
Proof.
  unfold zLESolveGaussSeidel. destruct (Nat.eqb_spec (nr a) (nc a)) as [E1|]; cbn [negb]; [|eexists; split; [reflexivity|exact I]]. destruct (Nat.eqb_spec (nc a) (vlen ans)) as [E2|]; cbn [negb orb]; [|eexists; split; [reflexivity|exact I]].
  destruct (Nat.eqb_spec (nr a) (vlen b)) as [E3|]; cbn [negb orb]; [|eexists; split; [reflexivity|exact I]]. set (n := vlen ans).
  destruct (for_inv (fun _ idx => perm n idx) 0 n (fun i idx => zMatPivoting a idx i i) (List.seq 0 n)) as (idx & E & P).
  { lia. } { apply perm_seq. }
  { intros i idx Hi P. destruct (zMatPivoting_perm a n idx i i) as (idx' & pi & E & P' & _); auto; try (unfold n in *; lia). eauto. }
  unfold gs_order. rewrite E. cbn [bind].
  match goal with |- context [forb 0 ?m ?f ?s] => destruct (forb_inv (fun _ v => vlen v = n) (fun v : fvec T => vlen v = n) 0 m f s) as (o & Eo & Ho) end.
  - lia.
  - reflexivity.
  - intros k v Hk V. unfold gs_sweep.
    destruct (for_inv (fun _ st => vlen (fst st) = n) 0 (vlen b) (gs_row tol a b idx) (v, 0%nat)) as ([w c] & Es & Hw).
    + lia.
    + exact V.
    + intros j [w c] Hj W. cbn [fst] in W. unfold gs_row. rewrite (perm_get n) by (auto; unfold n; lia). cbn [bind]. pose proof (perm_lt n idx j P ltac:(unfold n; lia)) as Hp.
      rewrite vget_ok by (unfold n in *; lia). cbn [bind].
      match goal with |- context [for_ 0 ?m ?f ?s] => destruct (for_inv (fun _ (_ : T) => True) 0 m f s) as (y & Ey & _) end; auto; [lia| |].
      * intros q y Hq _. destruct (negb (q =? j)%nat); [|eauto]. rewrite mget_ok, vget_ok by (unfold n in *; lia). cbn [bind]. eauto.
      * rewrite Ey. cbn [bind]. rewrite mget_ok, vget_ok by (unfold n in *; lia). cbn [bind]. rewrite vset_ok by (unfold n in *; lia). cbn [bind]. eexists. split; [reflexivity|]. exact W.
    + rewrite Es. cbn [bind fst] in *. destruct (c =? vlen w)%nat; eexists; (split; [reflexivity|]); auto.
  - rewrite Eo. cbn [bind]. destruct o; eexists; (split; [reflexivity|]); auto.
Qed.

(** "A system with a dominant diagonal, by rows, is solved" is false: the rows are exchanged for the largest element of the
    column, the diagonal is lost, and the answer grows without a bound however many iterations are allowed. *)
Definition rowdom : fmat R := FM 2 2 (fun i j => match i, j with O, O => 2 | O, _ => 1 | _, O => 100 | _, _ => 1000 end).
Theorem C113_row_dominant_refuted : row_dominant 2 (el rowdom) /\ nonsingular 2 (el rowdom) /\
  forall tol maxit, 0 <= tol < 10 -> exists x, zLESolveGaussSeidel tol maxit rowdom (FV 2 (fun _ => 0)) (FV 2 (fun _ => 1)) = Ok (Some (x, false)) /\ vel x 1%nat = 20 ^ (S maxit).
Proof.
  split; [|split].
  - intros k Hk. destruct k as [|[|k]]; [| |lia]; cbn; rewrite ?Rabs_right by lra; lra.
  - intros x H. assert (H0 := H 0%nat ltac:(lia)). assert (H1 := H 1%nat ltac:(lia)). unfold mv in *. cbn in H0, H1.
    intros i Hi. destruct i as [|[|i]]; [| |lia]; lra.
  - intros tol maxit Ht. unfold zLESolveGaussSeidel. cbn [nr nc rowdom vlen Nat.eqb negb orb].
    assert (EO : gs_order rowdom 2 = Ok [1; 0]%nat).
    { unfold gs_order, for_, zMatPivoting. cbn [Nat.sub loop List.seq]. unfold get, mget. cbn [nth_error bind rowdom nr nc Nat.ltb Nat.leb andb length]. unfold for_. cbn [Nat.sub loop nth_error bind rowdom nr nc Nat.ltb Nat.leb andb el fst snd].
      cbn [sabs RealS slt]. rewrite (Rltb_true (Rabs 2) (Rabs 100)) by (rewrite !Rabs_right; lra). cbn. reflexivity. }
    rewrite EO. cbn [bind].
    assert (PP : perm 2 [1; 0]%nat). { split; [reflexivity|]. split; [repeat constructor; cbn; lia|]. intros q Hq. cbn in Hq. lia. }
    match goal with |- context [forb 0 ?m ?f ?s] => destruct (forb_inv (fun k v => vlen v = 2%nat /\ vel v 1%nat = 20 ^ k) (fun v : fvec R => False) 0 m f s) as (o & Eo & Ho) end.
    + lia.
    + split; auto.
    + intros k v Hk (V & W). destruct (gs_sweep_ok tol 2 rowdom (FV 2 (fun _ => 0)) [1;0]%nat eq_refl eq_refl eq_refl PP v V) as (new & c & Es & G & C1 & C2). rewrite Es. cbn [bind vlen].
      assert (G0 := G 0%nat ltac:(lia)). assert (G1 := G 1%nat ltac:(lia)). unfold gs_eq in G0, G1. cbn in G0, G1.
      assert (N : new 1%nat = 20 ^ S k). { cbn [pow]. rewrite <- W. lra. }
      destruct (Nat.eqb_spec c 2) as [Ec|Ec]; eexists; (split; [reflexivity|]); [|split; [reflexivity|exact N]].
      assert (L := proj1 C2 Ec 1%nat ltac:(lia)). rewrite N, W in L. cbn [pow] in L. pose proof (pow_R1_Rle 20 k ltac:(lra)). rewrite Rabs_right in L by lra. lra.
    + rewrite Eo. cbn [bind]. destruct o as [v|v]; [|tauto]. destruct Ho as (V & W). exists v. auto.
Qed.

(** "A nonsingular system never divides by zero" is false: the order of the rows can leave a zero for the last column. *)
Definition fm2 (a b c d : float) : fmat float := FM 2 2 (fun i j => match i, j with O, O => a | O, _ => b | _, O => c | _, _ => d end).
Definition nonfinite (x : float) : bool := negb (PrimFloat.eqb (PrimFloat.sub x x) 0).
Theorem C113_division_refuted : exists x, zLESolveGaussSeidel 1e-12%float 10 (fm2 1 1 1 0)%float (FV 2 (fun _ => 1%float)) (FV 2 (fun _ => 0%float)) = Ok (Some (x, false)) /\
  forallb nonfinite (to_list x) = true /\ nonsingular 2 (fun i j => match i, j with O, O => 1 | O, _ => 1 | _, O => 1 | _, _ => 0 end).
Proof.
  eexists. split; [|split].
  - unfold zLESolveGaussSeidel. vm_compute. reflexivity.
  - vm_compute. reflexivity.
  - intros x H. assert (H0 := H 0%nat ltac:(lia)). assert (H1 := H 1%nat ltac:(lia)). unfold mv in *. cbn in H0, H1.
    intros i Hi. destruct i as [|[|i]]; [| |lia]; lra.
Qed.

(** a concrete system: 4x+y = 5, x+3y = 4 *)
Definition dom2 : fmat R := FM 2 2 (fun i j => match i, j with O, O => 4 | O, _ => 1 | _, O => 1 | _, _ => 3 end).
Example C113_case : col_dominant (1 / 2) 2 (el dom2) /\ solves 2 2 (el dom2) (fun _ => 1) (fun i => match i with O => 5 | _ => 4 end) /\
  match zLESolveGaussSeidel (1 # 100)%Q 20 (mat_of 0%Q [[4; 1]; [1; 3]]%Q) (vec_of 0%Q [5; 4]%Q) (vec_of 0%Q [0; 0]%Q) with
  | Ok (Some (x, ok)) => ok && forallb (fun y => Qle_bool (99 # 100) y && Qle_bool y (101 # 100)) (to_list x) | _ => false end = true.
Proof.
  split; [|split].
  - intros k Hk. destruct k as [|[|k]]; [| |lia]; cbn; rewrite ?Rabs_right by lra; split; lra.
  - intros r Hr. unfold mv. destruct r as [|[|r]]; [| |lia]; cbn; lra.
  - vm_compute. reflexivity.
Qed.

(** * C114 *)
(** the run: the k-th matrix satisfies the invariant; the one returned is the one before the test, or one of the last two *)
Lemma hot_run ztol maxit n (m im : fmat R) t iter r : 0 <= ztol <= 1 -> 0 <= r <= 1 -> nr m = n -> nc m = n -> nr im = n -> nc im = n ->
  hot_inv n m r 0 (zMatDivDRC ztol (transpose m) (zMatSqrNorm m)) ->
  let q := if (iter <=? 0)%Z then maxit else Z.to_nat iter in
  exists x ok, zMatInvHotelling ztol maxit m im t iter = Ok (Some (x, ok)) /\
    (ok = true -> exists k, (k < q)%nat /\ hot_inv n m r k x /\ forall i j, (i < n)%nat -> (j < n)%nat -> Rabs (residual n (el m) (el (hot_next m x)) i j) <= t) /\
    (ok = false -> hot_inv n m r (q - 1) x /\
       forall k, (k < q)%nat -> exists y, hot_inv n m r (S k) y /\ ~ forall i j, (i < n)%nat -> (j < n)%nat -> Rabs (residual n (el m) (el y) i j) <= t).
Proof.
  intros Hz Hr M1 M2 I1 I2 H0 q. unfold zMatInvHotelling. rewrite M1, M2, I1, I2, !Nat.eqb_refl. cbn [negb andb]. cbv zeta. fold q.
  match goal with |- context [forb 0 q ?f ?s] => destruct (forb_inv (fun k st => let '(mc, mn, isim) := st in hot_inv n m r k mc /\ (isim = false -> hot_inv n m r (k - 1) mn) /\
      forall i, (i < k)%nat -> exists y, hot_inv n m r (S i) y /\ ~ forall a b, (a < n)%nat -> (b < n)%nat -> Rabs (residual n (el m) (el y) a b) <= t)
    (fun x : fmat R => exists k, (k < q)%nat /\ hot_inv n m r k x /\ forall i j, (i < n)%nat -> (j < n)%nat -> Rabs (residual n (el m) (el (hot_next m x)) i j) <= t) 0 q f s) as (o & Eo & Ho) end.
  - lia.
  - split; auto. split; [discriminate|]. intros; lia.
  - intros k [[mc mn] isim] Hk (Hc & Hm & Ha).
    pose proof (hot_step n m M1 M2 r k mc (proj1 Hr) Hc) as Hs. pose proof (hot_error_R n m (hot_next m mc) t M1 M2 (hi_r _ _ _ _ _ Hs) (hi_c _ _ _ _ _ Hs)) as HE.
    destruct (zMatIsTol t (hot_error m (hot_next m mc))) eqn:Et; eexists; (split; [reflexivity|]).
    + exists k. split; [lia|]. split; auto. apply HE. reflexivity.
    + split; auto. split; [intros _; now replace (S k - 1)%nat with k by lia|]. intros i Hi. destruct (Nat.eq_dec i k) as [->|]; [|apply Ha; lia].
      exists (hot_next m mc). split; auto. intros C. apply HE in C. discriminate.
  - rewrite Eo. cbn [bind]. destruct o as [[[mc mn] isim]|x].
    + destruct Ho as (Hc & Hm & Ha). eexists _, false. split; [reflexivity|]. split; [discriminate|]. intros _. split; auto.
      destruct isim; auto. apply (hot_inv_le n m r q); auto. lia.
    + exists x, true. split; auto. split; [auto|discriminate].
Qed.

(** every square matrix: the answer has the right size; without the warning, every element of M X - I is at most the square
    root of the tolerance, and every element of (M X - I)^2 is within the tolerance *)
Theorem C114_residual_partial ztol maxit n (m im : fmat R) t iter : (0 < n)%nat -> 0 <= ztol <= 1 -> nr m = n -> nc m = n -> nr im = n -> nc im = n ->
  exists x ok, zMatInvHotelling ztol maxit m im t iter = Ok (Some (x, ok)) /\ nr x = n /\ nc x = n /\
    (ok = true -> forall i j, (i < n)%nat -> (j < n)%nat ->
       Rabs (residual n (el m) (el x) i j) <= sqrt t /\ Rabs (mm n (residual n (el m) (el x)) (residual n (el m) (el x)) i j) <= t).
Proof.
  intros Hn Hz M1 M2 I1 I2. destruct (hot_start ztol n m Hz M1 M2) as (S1 & S2 & c & Hc & Hcf & HE).
  pose proof (start_any n m _ c S1 S2 HE Hc Hcf) as H0.
  destruct (hot_run ztol maxit n m im t iter 1 Hz ltac:(lra) M1 M2 I1 I2 H0) as (x & ok & E & H1 & H2). exists x, ok. split; auto.
  destruct ok.
  - destruct (H1 eq_refl) as (k & Hk & HI & HT). split; [apply HI|]. split; [apply HI|]. intros _ i j Hi Hj. split; [apply (hot_small n m M2 1 k x t); auto|].
    rewrite <- res_next; auto; apply HI.
  - destruct (H2 eq_refl) as (HI & _). split; [apply HI|]. split; [apply HI|]. discriminate.
Qed.

(** a nonsingular matrix: the error falls with the power 2^k of a number r below 1, whether the run ends early or not *)
Theorem C114_rate ztol maxit n (m im : fmat R) : (0 < n)%nat -> 0 <= ztol <= 1 -> nr m = n -> nc m = n -> nr im = n -> nc im = n -> nonsingular n (el m) ->
  exists r, 0 <= r < 1 /\ forall t k, exists x ok, zMatInvHotelling ztol maxit m im t (Z.of_nat (S k)) = Ok (Some (x, ok)) /\
    (ok = false -> forall i j, (i < n)%nat -> (j < n)%nat -> (residual n (el m) (el x) i j) ^ 2 <= r ^ (2 ^ k)).
Proof.
  intros Hn Hz M1 M2 I1 I2 NS. destruct (hot_start ztol n m Hz M1 M2) as (S1 & S2 & c & Hc & Hcf & HE).
  destruct (start_nonsingular n m Hn _ c S1 S2 HE Hc Hcf NS) as (r & Hr & H0). exists r. split; auto. intros t k.
  destruct (hot_run ztol maxit n m im t (Z.of_nat (S k)) r Hz ltac:(lra) M1 M2 I1 I2 H0) as (x & ok & E & H1 & H2). exists x, ok. split; auto. intros -> i j Hi Hj.
  destruct (H2 eq_refl) as (HI & _). destruct (Z.leb_spec (Z.of_nat (S k)) 0); [lia|]. rewrite Nat2Z.id in HI. replace (S k - 1)%nat with k in HI by lia. now apply (hot_elem n m r k x).
Qed.
(** and with enough iterations it ends without the warning *)
Theorem C114_converges ztol maxit n (m im : fmat R) t : (0 < n)%nat -> 0 < t -> 0 <= ztol <= 1 -> nr m = n -> nc m = n -> nr im = n -> nc im = n -> nonsingular n (el m) ->
  exists K, forall iter, (K <= iter)%Z -> exists x, zMatInvHotelling ztol maxit m im t iter = Ok (Some (x, true)).
Proof.
  intros Hn Ht Hz M1 M2 I1 I2 NS. destruct (hot_start ztol n m Hz M1 M2) as (S1 & S2 & c & Hc & Hcf & HE).
  destruct (start_nonsingular n m Hn _ c S1 S2 HE Hc Hcf NS) as (r & Hr & H0).
  destruct (pow_lt_1_zero r) with (y := t ^ 2) as (N & HN); [rewrite Rabs_right; lra|nra|].
  exists (Z.of_nat (S N)). intros iter Hi.
  destruct (hot_run ztol maxit n m im t iter r Hz ltac:(lra) M1 M2 I1 I2 H0) as (x & ok & E & H1 & H2). exists x. rewrite E. destruct ok; auto. exfalso.
  destruct (H2 eq_refl) as (_ & HA). destruct (Z.leb_spec iter 0); [lia|]. destruct (HA N) as (y & HI & HC); [lia|]. apply HC. intros i j Hi' Hj.
  pose proof (hot_elem n m r (S N) y HI i j Hi' Hj) as L. specialize (HN (2 ^ S N)%nat). rewrite Rabs_right in HN by (apply Rle_ge, pow_le; lra).
  assert (r ^ 2 ^ S N < t ^ 2). { apply HN. pose proof (Nat.pow_gt_lin_r 2 (S N) ltac:(lia)). lia. }
  apply Rsqr_incr_0_var; [|lra]. rewrite <- Rsqr_abs. unfold Rsqr. cbn [pow] in *. lra.
Qed.
(** an answer without the warning means that the matrix is nonsingular, if the tolerance is below 1/n *)
Theorem C114_singular ztol maxit n (m im x : fmat R) t iter : (0 < n)%nat -> 0 <= ztol <= 1 -> nr m = n -> nc m = n -> nr im = n -> nc im = n -> INR n * t < 1 ->
  zMatInvHotelling ztol maxit m im t iter = Ok (Some (x, true)) -> nonsingular n (el m).
Proof.
  intros Hn Hz M1 M2 I1 I2 Ht E0. destruct (hot_start ztol n m Hz M1 M2) as (S1 & S2 & c & Hc & Hcf & HE).
  pose proof (start_any n m _ c S1 S2 HE Hc Hcf) as H0.
  destruct (hot_run ztol maxit n m im t iter 1 Hz ltac:(lra) M1 M2 I1 I2 H0) as (x' & ok & E & H1 & _). rewrite E0 in E. injection E as <- <-.
  destruct (H1 eq_refl) as (k & _ & HI & HT). set (Y := el (hot_next m x)) in *.
  apply (nonsingular_t n (fun i j => el m j i) Hn). intros y Hy.
  (* y = y (I - M Y) *)
  assert (Q : forall j, (j < n)%nat -> y j = rsum n (fun i => y i * residual n (el m) Y i j)).
  { intros j Hj. unfold residual. rewrite (rsum_ext n _ (fun i => y i * dl i j - rsum n (fun k => Y k j * (el m i k * y i)))).
    - rewrite rsum_sub, (dl_r n j y Hj), rsum_swap. rewrite (rsum_0 n (fun j0 => rsum n (fun i => Y j0 j * (el m i j0 * y i)))); [lra|].
      intros q Hq. rewrite rsum_scal. specialize (Hy q Hq). unfold mv in Hy. rewrite Hy. ring.
    - intros i Hi. rewrite Rmult_minus_distr_l. unfold dl. f_equal. rewrite <- rsum_scal. apply rsum_ext. intros; ring. }
  set (N1 := rsum n (fun i => Rabs (y i))).
  assert (B : N1 <= INR n * t * N1).
  { unfold N1 at 1. eapply Rle_trans; [apply (rsum_le n _ (fun j => t * N1))|].
    - intros j Hj. rewrite (Q j Hj). eapply Rle_trans; [apply Hess2_Proofs.rsum_abs|]. unfold N1. rewrite <- rsum_scal. apply rsum_le. intros i Hi. rewrite Rabs_mult.
      specialize (HT i j Hi Hj). pose proof (Rabs_pos (y i)). nra.
    - rewrite rsum_const. lra. }
  assert (N0 : 0 <= N1) by (apply rsum_nonneg; intros; apply Rabs_pos). assert (Z : N1 = 0) by nra.
  intros i Hi. pose proof (rsum_nonneg_0 n (fun i => Rabs (y i)) ltac:(intros; apply Rabs_pos) Z i Hi) as A. cbn beta in A. destruct (Req_dec (y i) 0) as [|N]; auto. pose proof (Rabs_pos_lt _ N). lra.
Qed.
Theorem C114_rejects {T} {ST : Scalar T} ztol maxit (m im : fmat T) t iter : ~ (nr m = nc m /\ nr m = nr im /\ nc m = nc im) -> zMatInvHotelling ztol maxit m im t iter = Ok None.
Proof. intros N. unfold zMatInvHotelling. rej N. Qed.
(** any scalar: an answer in every case *)
Theorem C114_total {T} {ST : Scalar T} ztol maxit (m im : fmat T) t iter : exists o, zMatInvHotelling ztol maxit m im t iter = Ok o.
Proof.
  unfold zMatInvHotelling. destruct (negb (nr m =? nc m)%nat); eauto. destruct (negb ((nr m =? nr im)%nat && (nc m =? nc im)%nat)); eauto. cbv zeta.
  match goal with |- context [forb 0 ?q ?f ?s] => destruct (forb_inv (fun _ _ => True) (fun _ : fmat T => True) 0 q f s) as (o & Eo & Ho) end.
  - lia.
  - exact I.
  - intros k [[mc mn] isim] _ _. destruct (zMatIsTol t (hot_error m (hot_next m mc))); eexists; (split; [reflexivity|]); exact I.
  - rewrite Eo. cbn [bind]. eauto.
Qed.
(** "Without the warning M X is within the tolerance of the identity" is false: the matrix before the one that passed the
    test is returned.  Here the tolerance is 1/2 and an element of M X - I is 16/25. *)
Definition diag21 : fmat Q := mat_of 0%Q [[2; 0]; [0; 1]]%Q.
Theorem C114_tolerance_refuted : match zMatInvHotelling tol12 10 diag21 diag21 (1 # 2)%Q 0 with
  | Ok (Some (x, ok)) => ok && negb (zMatIsTol (1 # 2)%Q (hot_error diag21 x)) && Qeq_bool (el (hot_error diag21 x) 1 1) (- 16 # 25) | _ => false end = true.
Proof. vm_compute. reflexivity. Qed.
(** and a singular matrix is never inverted: 10 iterations, the warning *)
Example C114_case : match zMatInvHotelling tol12 4 (mat_of 0%Q [[2; 1]; [1; 3]]%Q) diag21 (1 # 100)%Q 20 with Ok (Some (x, ok)) => ok && zMatIsTol (1 # 10)%Q (hot_error (mat_of 0%Q [[2; 1]; [1; 3]]%Q) x) | _ => false end = true /\
  match zMatInvHotelling tol12 4 (mat_of 0%Q [[1; 1]; [1; 1]]%Q) diag21 (1 # 100)%Q 0 with Ok (Some (x, ok)) => negb ok | _ => false end = true.
Proof. split; vm_compute; reflexivity. Qed.

(** * C115 *)
(** the decomposition with full rank, for every tolerance *)
Lemma luDST_full tol n (m l u : fmat R) : 0 <= tol -> nr m = n -> nc m = n -> nr l = n -> nc l = n -> nr u = n -> nc u = n ->
  exists m' l' u' idx' r, zMatDecompLUDST tol m l u (List.seq 0 n) = Ok (l', u', idx', r) /\ luP tol n n (el m) n (m', l', u', idx', r) /\
    (r = n -> luinv tol n n (el m) n n m' l' u' idx').
Proof.
  intros Ht M1 M2 L1 L2 U1 U2. unfold zMatDecompLUDST. rewrite M1, M2, L1, L2, U1, U2.
  match goal with |- context [for_ ?lo ?hi ?f ?s00] => destruct (for_inv (fun c st => luP tol n n (el m) c st /\ let '(m', l', u', idx', r) := st in r = c -> luinv tol n n (el m) c c m' l' u' idx') lo hi f s00) as ([[[[m' l'] u'] idx'] r'] & E & H & HF) end.
  - lia.
  - assert (I : luinv tol n n (el m) 0 0 m (zmat n n) (zmat n n) (List.seq 0 n)) by (constructor; auto; try lia; intros a k _ _; cbn; lra).
    split; auto. unfold luP. conjs; auto; try lia. { unfold ludims, zmat; conjs; auto using perm_seq. } left. destruct (0 <? n)%nat; auto.
  - intros c [[[[m0 l0] u0] idx0] r0] Hc (HP & HI). destruct (lu_step_inv tol Ht n n (el m) c (m0, l0, u0, idx0, r0)) as (st' & E & HP'); auto; try lia. exists st'. split; auto. split; auto.
    destruct st' as [[[[m1 l1] u1] idx1] r1]. intros ->. destruct HP as (D & Hrc & HrR & _).
    destruct (Nat.eq_dec r0 n) as [->|Nr]; [lia|].
    destruct (lu_step_ok tol Ht n n r0 c m0 l0 u0 idx0) as (idx' & pi & Hpi & Sw & [(E' & D' & Z)|(m' & l' & u' & E' & D' & NZ & LP)]); auto; try lia; rewrite E' in E; injection E as <- <- <- <- E1; [lia|].
    assert (r0 = c) as -> by lia. apply (luinv_pivot tol Ht n n (el m) c m0 l0 u0 idx'); auto; try lia; [apply D'|]. apply luinv_swap with (idx := idx0) (pi := pi); auto. apply D'.
  - rewrite E. cbn [bind]. exists m', l', u', idx', r'. split; auto.
Qed.

Lemma C115_lu tol n (m : fmat R) : 0 <= tol -> nr m = n -> nc m = n ->
  exists L U idx rank, zMatDecompLU tol m (zmat n n) (zmat n n) (List.seq 0 n) = Ok (Some (L, U, idx, rank)) /\ (rank <= n)%nat /\
   (rank = n -> nonsingular n (el m) /\ forall b ans, vlen b = n -> vlen ans = n -> exists x, zLESolveLU L U b ans idx = Ok (Some x) /\ vlen x = n /\ solves n n (el m) (vel x) (vel b)).
Proof.
  intros Ht M1 M2. unfold zMatDecompLU. rewrite M1, M2, List.seq_length. cbn [zmat nr nc]. rewrite !Nat.eqb_refl. cbn [negb orb andb].
  destruct (luDST_full tol n m (zmat n n) (zmat n n) Ht M1 M2 eq_refl eq_refl eq_refl eq_refl) as (m' & L & U & idx & r & E & (D & Hrc & HrR & U0 & _) & HF).
  rewrite E. cbn [rmap]. destruct D as (P & D1 & D2 & D3 & D4 & D5 & D6). exists L, U, idx, r. split; auto. split; auto. intros ->. specialize (HF eq_refl). destruct HF as [Ir IM Il Iu1 Iu0 Iz Ip].
  assert (HM : forall i j, (i < n)%nat -> (j < n)%nat -> el m i j = mm n (el L) (el U) i j).
  { intros i j Hi Hj. destruct (perm_onto n idx i) as (a & Ha & <-); auto. rewrite IM by auto. unfold mm. replace ((n <=? a)%nat && (n <=? j)%nat) with false by nbts. lra. }
  assert (HL : forall t, (t < n)%nat -> el L (pos idx t) t <> 0). { intros t H Z. specialize (Ip t H). rewrite Z, Rabs_R0 in Ip. lra. }
  split.
  - intros x Hx. apply (ut_inj n (el U)); auto.
    assert (G : forall k i, (i < k)%nat -> (i < n)%nat -> rowdot n (el U i) x = 0).
    { induction k as [|k IH]; intros i Hi Hn; [lia|]. assert (Hp : (pos idx i < n)%nat) by (now apply perm_lt). pose proof (Hx (pos idx i) Hp) as Q.
      unfold mv in Q. rewrite (rsum_ext n _ (fun c => rsum n (fun t => el L (pos idx i) t * (el U t c * x c)))) in Q.
      2:{ intros c Hc. rewrite HM by auto. unfold mm. rewrite <- rsum_scal_r. apply rsum_ext. intros; ring. }
      rewrite rsum_swap in Q. rewrite (rsum_ext n _ (fun t => if (t =? i)%nat then el L (pos idx i) i * rowdot n (el U i) x else 0)) in Q.
      2:{ intros t Htn. rewrite rsum_scal. change (rsum n (fun c => el U t c * x c)) with (rowdot n (el U t) x). destruct (Nat.eqb_spec t i) as [->|]; auto. destruct (Nat.lt_ge_cases t i).
        - rewrite (IH t) by lia. lra.
        - rewrite Il by lia. lra. }
      rewrite (rsum_delta n i) in Q; [|auto|intros q _ Hq; now destruct (Nat.eqb_spec q i)]. rewrite Nat.eqb_refl in Q. specialize (HL i Hn). apply Rmult_integral in Q. tauto. }
    intros i Hi. apply (G (S i)); auto.
  - intros b ans B A. destruct (C24_lu n L U b ans idx) as (x & Ex & Vx & Hx); auto. { intros i j Hi Hj. apply Il; lia. } exists x. split; auto. split; auto. intros i Hi. rewrite <- (Hx i Hi). apply rsum_ext. intros c Hc. now rewrite HM by auto.
Qed.

(** every square system over the reals: an answer solves the system and the matrix is nonsingular; two iterations are
    enough; a refusal without a tolerance means that the matrix is singular *)
Theorem C115_luri_partial tol maxit huge n (a : fmat R) (b ans : fvec R) : 0 <= tol -> 0 < huge -> nr a = n -> nc a = n -> vlen b = n -> vlen ans = n ->
  exists o, zLESolveLURI tol maxit huge a b ans = Ok o /\
    match o with
    | Some (x, ok) => vlen x = n /\ solves n n (el a) (vel x) (vel b) /\ nonsingular n (el a) /\ ((2 <= maxit)%nat -> ok = true)
    | None => tol = 0 -> ~ nonsingular n (el a)
    end.
Proof.
  intros Ht Hh A1 A2 B X. unfold zLESolveLURI. rewrite B. cbv zeta. destruct (C115_lu tol n a Ht A1 A2) as (L & U & idx & rank & E & Hr & HF). rewrite E. cbn [bind]. rewrite A1.
  destruct (Nat.ltb_spec rank n) as [Hlt|Hge].
  - eexists. split; [reflexivity|]. intros -> NS.
    destruct (C25_full_rank n n a (zmat n n) (zmat n n) (List.seq 0 n)) as (L' & U' & idx' & E' & _); auto using List.seq_length. rewrite E in E'. injection E' as _ _ _ ->. lia.
  - destruct (HF ltac:(lia)) as (NS & HS). unfold solve_lu_into. destruct (HS b ans B X) as (x0 & Ex & Vx & Hx). rewrite Ex. cbn [bind].
    assert (RZ : forall v r, vlen v = n -> vlen r = n -> solves n n (el a) (vel v) (vel b) -> exists r', zLEResidual a b v r = Ok r' /\ vlen r' = n /\ (forall i, (i < n)%nat -> vel r' i = 0) /\ ssqrt (zVecSqrNorm r') = 0).
    { intros v r V R0 S. unfold zLEResidual. destruct (mulmv_R a v r) as (w & -> & W1 & W2); try lia. cbn [bind]. unfold vzip. rewrite W1, R0, B, Nat.leb_refl. cbn [andb]. eexists. split; [reflexivity|].
      cbn [vlen vel]. split; auto. assert (Z : forall i, (i < n)%nat -> vel b i - vel w i = 0). { intros i Hi. rewrite W2 by lia. rewrite V. rewrite <- (S i Hi). unfold mv, Qp_Spec.mulv. lra. }
      split; [exact Z|]. unfold zVecSqrNorm. cbn [vlen vel]. rewrite ksum_R. rewrite (rsum_0 n); [apply sqrt_0|]. intros i Hi. cbn. rewrite (Z i Hi). apply Rmult_0_l. }
    match goal with |- context [forb 0 ?q ?f ?s] => destruct (forb_inv (fun k st => let '(v, r, e, old) := st in vlen v = n /\ vlen r = n /\ vlen e = n /\ solves n n (el a) (vel v) (vel b) /\ (k < 2)%nat /\ 0 <= old /\ (k = 1%nat -> old = 0) /\ (k = 0%nat -> 0 < old))
      (fun v : fvec R => vlen v = n /\ solves n n (el a) (vel v) (vel b)) 0 q f s) as (o & Eo & Ho) end.
    + lia.
    + cbn [zvec vlen]. conjs; auto; try lia; try lra.
    + intros k [[[v r] e] old] Hk (V & R0 & E0 & S & K2 & O0 & O1 & O2). destruct (RZ v r V R0 S) as (r' & -> & R1 & RZ' & RN). cbn [bind]. cbv zeta.
      change (sle old (ssqrt (zVecSqrNorm r'))) with (Rleb old (ssqrt (zVecSqrNorm r'))). rewrite RN. destruct (Rleb_spec old 0) as [Hle|Hgt].
      * eexists. split; [reflexivity|]. split; [exact V|exact S].
      * assert (K0 : k = 0%nat). { destruct (Nat.eq_dec k 1) as [K1|K1]; [specialize (O1 K1); lra|lia]. } subst k.
        destruct (HS r' e R1 E0) as (e' & -> & Ve & He). cbn [bind]. unfold vzip. rewrite V, Ve, Nat.leb_refl. cbn [andb bind]. eexists. split; [reflexivity|]. cbn [vlen vel]. conjs; auto; try lia; try lra.
        intros i Hi. rewrite <- (S i Hi). specialize (He i Hi). rewrite RZ' in He by auto. unfold mv in *.
        transitivity (rsum n (fun c => el a i c * vel v c) + rsum n (fun c => el a i c * vel e' c)); [|rewrite He; lra]. rewrite <- rsum_add. apply rsum_ext. intros c _. cbn. ring.
    + rewrite Eo. cbn [bind]. eexists. split; [reflexivity|]. destruct o as [[[[v r] e] old]|v]; cbv beta iota.
      * destruct Ho as (V & _ & _ & S & K & _). conjs; auto. lia.
      * destruct Ho. auto.
Qed.
(** a matrix that does not fit b is refused *)
Theorem C115_rejects {T} {ST : Scalar T} tol maxit huge (a : fmat T) (b ans : fvec T) : ~ (nr a = vlen b /\ nc a = vlen b) -> zLESolveLURI tol maxit huge a b ans = Ok None.
Proof.
  intros N. unfold zLESolveLURI. cbv zeta. unfold zMatDecompLU. cbn [zmat nr nc]. rewrite Nat.eqb_refl. cbn [negb].
  destruct (Nat.eqb_spec (nr a) (vlen b)); cbn [negb orb andb]; auto. destruct (Nat.eqb_spec (nc a) (vlen b)); cbn [negb orb andb]; auto. tauto.
Qed.
(** the size of the answer is not checked: a shorter and a longer one are read or written out of bounds *)
Theorem C115_size_refuted : exists a : fmat Q, exists b,
  zLESolveLURI tol12 10 (10 ^ 300)%Q a b (vec_of 0%Q [0]%Q) = UB /\ zLESolveLURI tol12 10 (10 ^ 300)%Q a b (vec_of 0%Q [0; 0; 0]%Q) = UB.
Proof. exists (mat_of 0%Q [[1; 0]; [0; 1]]%Q), (vec_of 0%Q [1; 1]%Q). split; vm_compute; reflexivity. Qed.
(** "the residual of the answer is not larger than that of the plain LU solution" is false in double precision: the test
    stops after a step that made it larger, and keeps that step *)
Definition ri_a : fmat float := mat_of 0%float [[-9; 4]; [8; -6]]%float.
Definition ri_b : fvec float := vec_of 0%float [-4; 0]%float.
Definition ri_err (x : fvec float) : float := match zLEResidual ri_a ri_b x (zvec 2) with Ok r => ssqrt (zVecSqrNorm r) | UB => 0%float end.
Theorem C115_worse_refuted : match zMatDecompLU 1e-12%float ri_a (zmat 2 2) (zmat 2 2) [0; 1]%nat with
  | Ok (Some (l, u, idx, _)) => match zLESolveLU l u ri_b (zvec 2) idx, zLESolveLURI 1e-12%float 100 infinity ri_a ri_b (zvec 2) with
      | Ok (Some x), Ok (Some (y, ok)) => ok && PrimFloat.ltb (ri_err x) (ri_err y) | _, _ => false end
  | _ => false end = true.
Proof. vm_compute. reflexivity. Qed.

(** the matrix and the vector are solved for the same matrix a + E *)
Theorem C115_both_partial tol n q (a b ans : fmat R) (v va : fvec R) : 0 <= tol -> (0 < n)%nat -> nr a = n -> nc a = n -> nr b = n -> nc b = q -> vlen v = n -> nr ans = n -> nc ans = q -> vlen va = n ->
  exists o, zMulInvMatMatAndVec tol a b v ans va = Ok o /\
   match o with
   | Some (X, x) => nr X = n /\ nc X = q /\ vlen x = n /\ exists E, negligible tol n (el a) E /\ nonsingular n (madd (el a) E) /\
       (forall r j, (r < n)%nat -> (j < q)%nat -> mm n (madd (el a) E) (el X) r j = el b r j) /\ solves n n (madd (el a) E) (vel x) (vel v)
   | None => exists E, negligible tol n (el a) E /\ ~ nonsingular n (madd (el a) E)
   end.
Proof.
  intros Ht Hn A1 A2 B1 B2 V X1 X2 VA. unfold zMulInvMatMatAndVec. rewrite A1, A2, B1, B2, X1, X2, V, VA, !Nat.eqb_refl. cbn [negb orb andb]. unfold zMulInvMatMatAndVecNC. rewrite A1.
  destruct (mul_inv_ok tol n (S q) a (augment b v) (augment ans va) (List.seq 0 n) (zvec n)) as (o & E & H); cbn [augment nr nc]; auto using perm_seq. rewrite E. cbn [bind]. eexists. split; [reflexivity|]. destruct o as [Y|]; cbn [option_map].
  - destruct H as (Y1 & Y2 & F & SF & HY & HI). cbn [nr nc vlen vel el]. split; auto. split; auto. split; auto. exists F. split; auto. split; auto. split.
    + intros r j Hr Hj. pose proof (HY j ltac:(lia) r Hr) as Q. cbn [augment el] in Q. rewrite B2 in Q. destruct (Nat.ltb_spec j q); [exact Q|lia].
    + intros r Hr. pose proof (HY q ltac:(lia) r Hr) as Q. cbn [augment el] in Q. rewrite B2, Nat.ltb_irrefl in Q. rewrite X2. exact Q.
  - destruct H as (F & i & x & SF & Hi & Nx & HK). exists F. split; [exact SF|]. intros N. apply Nx. exact (N x HK i Hi).
Qed.
Theorem C115_both_exact n q (a b ans : fmat R) (v va : fvec R) : (0 < n)%nat -> nr a = n -> nc a = n -> nr b = n -> nc b = q -> vlen v = n -> nr ans = n -> nc ans = q -> vlen va = n ->
  exists o, zMulInvMatMatAndVec 0 a b v ans va = Ok o /\
   match o with
   | Some (X, x) => nonsingular n (el a) /\ (forall r j, (r < n)%nat -> (j < q)%nat -> mm n (el a) (el X) r j = el b r j) /\ solves n n (el a) (vel x) (vel v)
   | None => ~ nonsingular n (el a)
   end.
Proof.
  intros Hn A1 A2 B1 B2 V X1 X2 VA. destruct (C115_both_partial 0 n q a b ans v va) as (o & E & H); auto; try lra. exists o. split; auto. destruct o as [[X x]|].
  - destruct H as (_ & _ & _ & F & SF & H1 & H2 & H3). pose proof (negligible_0 _ _ _ SF) as Z. apply nonsingular_madd0 in H1; auto. split; auto. split.
    + intros r j Hr Hj. rewrite <- H2 by auto. symmetry. now apply mm_madd0.
    + intros r Hr. rewrite <- (H3 r Hr). apply rsum_ext. intros c Hc. unfold madd. rewrite Z by auto. ring.
  - destruct H as (F & SF & H). pose proof (negligible_0 _ _ _ SF) as Z. now rewrite nonsingular_madd0 in H.
Qed.
Theorem C115_both_rejects {T} {ST : Scalar T} tol (a b ans : fmat T) (v va : fvec T) :
  ~ (nr a = nc a /\ nc a = nr b /\ nr b = nr ans /\ nc b = nc ans /\ nc a = vlen v /\ vlen v = vlen va) -> zMulInvMatMatAndVec tol a b v ans va = Ok None.
Proof. intros N. unfold zMulInvMatMatAndVec. repeat match goal with |- context [(?x =? ?y)%nat] => destruct (Nat.eqb_spec x y); cbn [negb orb andb]; auto end. exfalso. apply N. conjs; auto. Qed.
Theorem C115_both_safe {T} {ST : Scalar T} tol (a b ans : fmat T) (v va : fvec T) : (0 < nr a)%nat -> exists o, zMulInvMatMatAndVec tol a b v ans va = Ok o.
Proof.
  intros Hn. unfold zMulInvMatMatAndVec. destruct (Nat.eqb_spec (nr a) (nc a)) as [E1|]; cbn [negb]; eauto. destruct (Nat.eqb_spec (nc a) (nr b)) as [E2|]; cbn [negb orb]; eauto.
  destruct (Nat.eqb_spec (nr b) (nr ans)) as [E3|]; cbn [negb orb andb]; eauto. destruct (Nat.eqb_spec (nc b) (nc ans)) as [E4|]; cbn [negb orb andb]; eauto.
  destruct (Nat.eqb_spec (nc a) (vlen v)) as [E5|]; cbn [negb orb andb]; eauto. destruct (Nat.eqb_spec (vlen v) (vlen va)) as [E6|]; cbn [negb orb andb]; eauto. unfold zMulInvMatMatAndVecNC.
  destruct (LE9_Proofs.s_mul_inv tol (nr a) (S (nc b)) a (augment b v) (augment ans va) (List.seq 0 (nr a)) (Some (zvec (nr a)))) as (o & E & _); eauto using perm_seq; try (split; cbn [augment nr nc]; congruence).
  rewrite E. cbn [bind]. eauto.
Qed.
Example C115_case : match zLESolveLURI tol12 10 (10 ^ 300)%Q exlu (vec_of 0%Q [1; 2; 3]%Q) (zvec 3) with Ok (Some (x, ok)) => ok && forallb (fun i => Qeq_bool (ksum 3 (fun k => el exlu i k * vel x k)%Q) (vel (vec_of 0%Q [1; 2; 3]%Q) i)) [0; 1; 2]%nat | _ => false end = true /\
  match zMulInvMatMatAndVec tol12 exlu (ident 3) (vec_of 0%Q [1; 2; 3]%Q) (zmat 3 3) (zvec 3) with Ok (Some (X, x)) => meq_q (mul_q 3 exlu X) (ident 3) && forallb (fun i => Qeq_bool (ksum 3 (fun k => el exlu i k * vel x k)%Q) (vel (vec_of 0%Q [1; 2; 3]%Q) i)) [0; 1; 2]%nat | _ => false end = true.
Proof. split; vm_compute; reflexivity. Qed.

Print Assumptions C113_residual_partial.
Print Assumptions C113_dominant.
Print Assumptions C113_dominant_ends.
Print Assumptions C113_rejects.
Print Assumptions C113_safe.
Print Assumptions C113_row_dominant_refuted.
Print Assumptions C113_division_refuted.
Print Assumptions C114_residual_partial.
Print Assumptions C114_rate.
Print Assumptions C114_converges.
Print Assumptions C114_singular.
Print Assumptions C114_rejects.
Print Assumptions C114_total.
Print Assumptions C114_tolerance_refuted.
Print Assumptions C115_luri_partial.
Print Assumptions C115_rejects.
Print Assumptions C115_size_refuted.
Print Assumptions C115_worse_refuted.
Print Assumptions C115_both_partial.
Print Assumptions C115_both_exact.
Print Assumptions C115_both_rejects.
Print Assumptions C115_both_safe.
