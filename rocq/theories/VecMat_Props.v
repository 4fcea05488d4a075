(** C08 (quadratic products), C10, C11, C63-C66: vector and matrix objects.
    Vocabulary: Raw_Spec.v, VecMat_Spec.v. *)
From Coq Require Import PrimFloat.
From Verif Require Import Prelude Prelude_Proofs Scalar RealLib Raw_Model Raw_Spec Raw_Proofs
  RawMat_Proofs RawReal_Proofs VecMat_Model VecMat_Spec VecMat_Proofs VecMat2_Proofs VecMat3_Proofs.

(** ** C10 - index checks.  Any scalar type.  Element access is safe for every integer
    index; the block, row and column functions for every non-negative index (and for
    zVecSwap, one that is not the size itself). *)
Section C10.
  Context {T : Type} {ST : Scalar T}.
  Implicit Types (m : mem T) (v w d : zVec) (A B D : zMat).
  Theorem C10_vec_elem m v x n : vholds m v x ->
    zVecElem m v n = Ok (if (0 <=? n)%Z && (n <? vsize v)%Z then x (Z.to_nat n) else s0).
  Proof. apply zVecElem_ok. Qed.
  Theorem C10_vec_set_elem m v x n e : vholds m v x ->
    exists m', zVecSetElem m v n e = Ok m' /\
      vholds m' v (fun i => if (Z.of_nat i =? n)%Z then e else x i) /\ vframe m m' v.
  Proof. apply zVecSetElem_ok. Qed.
  Theorem C10_mat_elem m A x r c : mholds m A x ->
    zMatElem m A r c = Ok (if (0 <=? r)%Z && (r <? mrow A)%Z && (0 <=? c)%Z && (c <? mcol A)%Z
                           then x (Z.to_nat r) (Z.to_nat c) else s0).
  Proof. apply zMatElem_ok. Qed.
  Theorem C10_mat_set_elem m A x r c e : mholds m A x ->
    exists m', zMatSetElem m A r c e = Ok m' /\
      mholds m' A (fun i j => if (Z.of_nat i =? r)%Z && (Z.of_nat j =? c)%Z then e else x i j) /\ Mframe m m' A.
  Proof. apply zMatSetElem_ok. Qed.
  Theorem C10_vec_swap_partial m v x i1 i2 : vholds m v x -> (0 <= i1)%Z -> (0 <= i2)%Z -> i1 <> vsize v -> i2 <> vsize v ->
    if (i1 <? vsize v)%Z && (i2 <? vsize v)%Z then
      exists m', zVecSwap m v i1 i2 = Ok (Some m') /\
        vholds m' v (fun i => if i =? Z.to_nat i1 then x (Z.to_nat i2) else if i =? Z.to_nat i2 then x (Z.to_nat i1) else x i) /\
        vframe m m' v
    else zVecSwap m v i1 i2 = Ok None.
  Proof. apply zVecSwap_ok. Qed.
  Theorem C10_vec_get_partial m v d x pos : vholds m v x -> valloc m d -> (0 <= pos)%Z ->
    disj (vcells v) (vcells d) ->
    if (pos + vsize d <=? vsize v)%Z then
      exists m', zVecGet m v pos d = Ok (Some m') /\ vholds m' d (fun i => x (Z.to_nat pos + i)) /\ vframe m m' d
    else zVecGet m v pos d = Ok None.
  Proof. apply zVecGet_ok. Qed.
  Theorem C10_vec_put_partial m d v x y pos : vholds m v x -> vholds m d y -> (0 <= pos)%Z ->
    disj (vcells v) (vcells d) ->
    if (pos + vsize v <=? vsize d)%Z then
      exists m', zVecPut m d pos v = Ok (Some m') /\
        vholds m' d (fun i => if (Z.to_nat pos <=? i) && (i <? Z.to_nat pos + vlen v) then x (i - Z.to_nat pos) else y i) /\
        vframe m m' d
    else zVecPut m d pos v = Ok None.
  Proof. apply zVecPut_ok. Qed.
  Theorem C10_mat_swap_row_partial m A x r1 r2 : mholds m A x -> (0 <= r1)%Z -> (0 <= r2)%Z ->
    if (r1 <? mrow A)%Z && (r2 <? mrow A)%Z then
      exists m', zMatSwapRow m A r1 r2 = Ok (Some m') /\
        mholds m' A (fun i j => if i =? Z.to_nat r1 then x (Z.to_nat r2) j else if i =? Z.to_nat r2 then x (Z.to_nat r1) j else x i j) /\
        Mframe m m' A
    else zMatSwapRow m A r1 r2 = Ok None.
  Proof. apply zMatSwapRow_ok. Qed.
  Theorem C10_mat_swap_col_partial m A x c1 c2 : mholds m A x -> (0 <= c1)%Z -> (0 <= c2)%Z ->
    if (c1 <? mcol A)%Z && (c2 <? mcol A)%Z then
      exists m', zMatSwapCol m A c1 c2 = Ok (Some m') /\
        mholds m' A (fun i j => if j =? Z.to_nat c1 then x i (Z.to_nat c2) else if j =? Z.to_nat c2 then x i (Z.to_nat c1) else x i j) /\
        Mframe m m' A
    else zMatSwapCol m A c1 c2 = Ok None.
  Proof. apply zMatSwapCol_ok. Qed.
  Theorem C10_mat_get_row_partial m A x r v : mholds m A x -> valloc m v -> (0 <= r)%Z -> disj (mcells A) (vcells v) ->
    if (mcol A =? vsize v)%Z && (r <? mrow A)%Z then
      exists m', zMatGetRow m A r v = Ok (Some m') /\ vholds m' v (x (Z.to_nat r)) /\ vframe m m' v
    else zMatGetRow m A r v = Ok None.
  Proof. apply zMatGetRow_ok. Qed.
  Theorem C10_mat_get_col_partial m A x c v : mholds m A x -> valloc m v -> (0 <= c)%Z -> disj (mcells A) (vcells v) ->
    if (mrow A =? vsize v)%Z && (c <? mcol A)%Z then
      exists m', zMatGetCol m A c v = Ok (Some m') /\ vholds m' v (fun i => x i (Z.to_nat c)) /\ vframe m m' v
    else zMatGetCol m A c v = Ok None.
  Proof. apply zMatGetCol_ok. Qed.
  Theorem C10_mat_put_row_partial m A x r v y : mholds m A x -> vholds m v y -> (0 <= r)%Z -> disj (mcells A) (vcells v) ->
    if (mcol A =? vsize v)%Z && (r <? mrow A)%Z then
      exists m', zMatPutRow m A r v = Ok (Some m') /\
        mholds m' A (fun i j => if i =? Z.to_nat r then y j else x i j) /\ Mframe m m' A
    else zMatPutRow m A r v = Ok None.
  Proof. apply zMatPutRow_ok. Qed.
  Theorem C10_mat_put_col_partial m A x c v y : mholds m A x -> vholds m v y -> (0 <= c)%Z -> disj (mcells A) (vcells v) ->
    if (mrow A =? vsize v)%Z && (c <? mcol A)%Z then
      exists m', zMatPutCol m A c v = Ok (Some m') /\
        mholds m' A (fun i j => if j =? Z.to_nat c then y i else x i j) /\ Mframe m m' A
    else zMatPutCol m A c v = Ok None.
  Proof. apply zMatPutCol_ok. Qed.
  Theorem C10_mat_get_partial m A x r c D : mholds m A x -> malloc m D -> (0 <= r)%Z -> (0 <= c)%Z -> disj (mcells A) (mcells D) ->
    if (r + mrow D <=? mrow A)%Z && (c + mcol D <=? mcol A)%Z then
      exists m', zMatGet m A r c D = Ok (Some m') /\
        mholds m' D (fun i j => x (Z.to_nat r + i) (Z.to_nat c + j)) /\ Mframe m m' D
    else zMatGet m A r c D = Ok None.
  Proof. apply zMatGet_ok. Qed.
  Theorem C10_mat_put_partial m D x y r c A : mholds m A x -> mholds m D y -> (0 <= r)%Z -> (0 <= c)%Z -> disj (mcells A) (mcells D) ->
    if (r + mrow A <=? mrow D)%Z && (c + mcol A <=? mcol D)%Z then
      exists m', zMatPut m D r c A = Ok (Some m') /\
        mholds m' D (fun i j => if (Z.to_nat r <=? i) && (i <? Z.to_nat r + mrows A) && (Z.to_nat c <=? j) && (j <? Z.to_nat c + mcols A)
                                then x (i - Z.to_nat r) (j - Z.to_nat c) else y i j) /\ Mframe m m' D
    else zMatPut m D r c A = Ok None.
  Proof. apply zMatPut_ok. Qed.
  Theorem C10_mat_tget_partial m A x r c D : mholds m A x -> malloc m D -> (0 <= r)%Z -> (0 <= c)%Z -> disj (mcells A) (mcells D) ->
    if (r + mcol D <=? mrow A)%Z && (c + mrow D <=? mcol A)%Z then
      exists m', zMatTGet m A r c D = Ok (Some m') /\
        mholds m' D (fun i j => x (Z.to_nat r + j) (Z.to_nat c + i)) /\ Mframe m m' D
    else zMatTGet m A r c D = Ok None.
  Proof. apply zMatTGet_ok. Qed.
  Theorem C10_mat_tput_partial m D x y r c A : mholds m A x -> mholds m D y -> (0 <= r)%Z -> (0 <= c)%Z -> disj (mcells A) (mcells D) ->
    if (r + mcol A <=? mrow D)%Z && (c + mrow A <=? mcol D)%Z then
      exists m', zMatTPut m D r c A = Ok (Some m') /\
        mholds m' D (fun i j => if (Z.to_nat r <=? i) && (i <? Z.to_nat r + mcols A) && (Z.to_nat c <=? j) && (j <? Z.to_nat c + mrows A)
                                then x (j - Z.to_nat c) (i - Z.to_nat r) else y i j) /\ Mframe m m' D
    else zMatTPut m D r c A = Ok None.
  Proof. apply zMatTPut_ok. Qed.
End C10.
Print Assumptions C10_vec_elem.
Print Assumptions C10_vec_set_elem.
Print Assumptions C10_mat_elem.
Print Assumptions C10_mat_set_elem.
Print Assumptions C10_vec_swap_partial.
Print Assumptions C10_vec_get_partial.
Print Assumptions C10_vec_put_partial.
Print Assumptions C10_mat_swap_row_partial.
Print Assumptions C10_mat_get_row_partial.
Print Assumptions C10_mat_put_col_partial.
Print Assumptions C10_mat_get_partial.
Print Assumptions C10_mat_put_partial.
Print Assumptions C10_mat_tget_partial.
Print Assumptions C10_mat_tput_partial.

(** The full claim fails: zVecSwap accepts an index equal to the size and accesses the
    cell after the buffer, and negative indices are not rejected. *)
Definition vm_mem : mem float :=
  fun b => match b with O => [1; 2; 3]%float | 1%nat => [1; 2; 99; 3; 4; 99]%float | 2%nat => [7; 8]%float | _ => [] end.
Definition vm_v : zVec := MkVec (0%nat, 0%Z) 3.
Definition vm_A : zMat := MkMat (1%nat, 0%Z) 2 2 2 3.
Definition vm_w : zVec := MkVec (2%nat, 0%Z) 2.
Theorem C10_swap_at_size_refuted :
  exists (m : mem float) v x, vholds m v x /\ zVecSwap m v 0 (vsize v) = UB.
Proof.
  exists vm_mem, vm_v, (fun i => nth i [1; 2; 3]%float 0%float). split; [split; [cbn; lia|]|vm_compute; reflexivity].
  intros [|[|[|i]]] H; try reflexivity. cbn in H. unfold vlen in H; cbn in H. lia.
Qed.
Theorem C10_negative_index_refuted :
  exists (m : mem float) v A w, (exists x, vholds m v x) /\ (exists x, mholds m A x) /\ (exists x, vholds m w x) /\
    disj (mcells A) (vcells w) /\
    zVecSwap m v (-1) 0 = UB /\ zVecGet m v (-1) w = UB /\ zVecPut m v (-1) w = UB /\
    zMatSwapRow m A (-1) 0 = UB /\ zMatSwapCol m A (-1) 0 = UB /\
    zMatGetRow m A (-1) w = UB /\ zMatPutRow m A (-1) w = UB /\
    zMatGetCol m A (-1) w = UB /\ zMatPutCol m A (-1) w = UB.
Proof.
  exists vm_mem, vm_v, vm_A, vm_w.
  split. { exists (fun i => nth i [1; 2; 3]%float 0%float). split; [cbn; lia|].
    intros [|[|[|i]]] H; try reflexivity. unfold vlen in H; cbn in H. lia. }
  split. { exists (fun i j => nth (2 * i + j) [1; 2; 3; 4]%float 0%float). split; [cbn; lia|]. split; [cbn; lia|].
    intros [|[|i]] [|[|j]] Hi Hj; try reflexivity; unfold mrows, mcols in *; cbn in *; lia. }
  split. { exists (fun i => nth i [7; 8]%float 0%float). split; [cbn; lia|].
    intros [|[|i]] H; try reflexivity. unfold vlen in H; cbn in H. lia. }
  split. { intros q (i & j & _ & _ & ->) (Q & _). discriminate Q. }
  repeat split; vm_compute; reflexivity.
Qed.
(** A negative column of a row other than the first stays inside the buffer but hits
    another element: getting "column -1" of the lower block silently answers with the
    padding cell of the previous row. *)
Example C10_ex_accept : rmap (option_map (fun m => m 1%nat)) (zMatSwapRow vm_mem vm_A 0 1)
  = Ok (Some [3; 4; 99; 1; 2; 99]%float).
Proof. vm_compute. reflexivity. Qed.
Example C10_ex_reject : rmap (option_map (fun m => m 1%nat)) (zMatSwapRow vm_mem vm_A 0 2) = Ok None.
Proof. vm_compute. reflexivity. Qed.
Print Assumptions C10_swap_at_size_refuted.
Print Assumptions C10_negative_index_refuted.

(** ** C11 - two matrices with the same logical size and elements, in any memories,
    with any capacities and any stale cells, are indistinguishable by the functions
    below.  Any scalar type. *)
Section C11.
  Context {T : Type} {ST : Scalar T}.
  Implicit Types (m : mem T) (A B D : zMat).
  Theorem C11_readers : forall eq (tol : T) m A m' A' x,
    mholds m A x -> mholds m' A' x -> mrow A = mrow A' -> mcol A = mcol A' ->
    (forall r c, zMatElem m A r c = zMatElem m' A' r c) /\
    zMatSqrNorm m A = zMatSqrNorm m' A' /\ zMatTrace m A = zMatTrace m' A' /\
    zMatIsTol m A tol = zMatIsTol m' A' tol /\ zMatIsDiag m A tol = zMatIsDiag m' A' tol /\
    zMatIsIdent eq m A tol = zMatIsIdent eq m' A' tol /\ zMatIsSymmetric m A = zMatIsSymmetric m' A'.
  Proof.
    intros eq tol m A m' A' x Hx Hy E1 E2. repeat split.
    - intros. eapply reader_elem; eauto.
    - eapply reader_sqrnorm; eauto.
    - eapply reader_trace; eauto.
    - eapply reader_istol; eauto.
    - eapply reader_isdiag; eauto.
    - eapply reader_isident; eauto.
    - eapply reader_issym; eauto.
  Qed.
  (** Comparison, the products (C08, C63) and the block functions (C10) are stated
      directly in terms of the logical elements. *)
  Theorem C11_equal eq m A B x y : mholds m A x -> mholds m B y ->
    exists b, zMatEqual eq m A B = Ok b /\
      (b = true <-> mrow A = mrow B /\ mcol A = mcol B /\
         forall i j, i < mrows A -> j < mcols A -> eq (x i j) (y i j) = true).
  Proof. apply zMatEqual_ok. Qed.
  Theorem C11_infnorm_partial m A x : mholds m A x -> mccap A = mcol A ->
    zMatInfNorm m A = Ok (infnorm (mrows A) (mcols A) x).
  Proof. apply zMatInfNorm_ok. Qed.
End C11.
Print Assumptions C11_readers.
Print Assumptions C11_equal.
Print Assumptions C11_infnorm_partial.
(** The infinity norm of a shrunk matrix reads the stale cells. *)
Theorem C11_infnorm_refuted :
  exists (m m' : mem float) A x, mholds m A x /\ mholds m' A x /\ zMatInfNorm m A <> zMatInfNorm m' A.
Proof.
  exists vm_mem, (fun b => match b with 1%nat => [1; 2; 0; 3; 4; 0]%float | _ => [] end), vm_A,
    (fun i j => nth (2 * i + j) [1; 2; 3; 4]%float 0%float).
  assert (forall k, mholds (fun b => match b with 1%nat => [1; 2; k; 3; 4; k]%float | _ => [] end) vm_A
            (fun i j => nth (2 * i + j) [1; 2; 3; 4]%float 0%float)) as H.
  { intros k. split; [cbn; lia|]. split; [cbn; lia|].
    intros [|[|i]] [|[|j]] Hi Hj; try reflexivity; unfold mrows, mcols in *; cbn in *; lia. }
  split; [|split; [apply (H 0%float)|]].
  - destruct (H 99%float) as (H1 & H2 & H3). exact (conj H1 (conj H2 H3)).
  - intros C. apply (f_equal (fun r => match r with Ok a => PrimFloat.leb a 50 | UB => true end)) in C.
    vm_compute in C. discriminate C.
Qed.
Print Assumptions C11_infnorm_refuted.
(** Non-vacuity of C11_readers: same elements, strides 3 and 2. *)
Example C11_ex : exists x,
  mholds vm_mem vm_A x /\ mholds (fun b => match b with 5%nat => [1; 2; 3; 4]%float | _ => [] end) (MkMat (5%nat, 0%Z) 2 2 2 2) x.
Proof.
  exists (fun i j => nth (2 * i + j) [1; 2; 3; 4]%float 0%float).
  split; (split; [cbn; lia|]; split; [cbn; lia|];
    intros [|[|i]] [|[|j]] Hi Hj; try reflexivity; unfold mrows, mcols in *; cbn in *; lia).
Qed.
Example C11_ex_norm : zMatInfNorm vm_mem vm_A = Ok 102%float. (* |99| + |3|, not 3 + 4 *)
Proof. vm_compute. reflexivity. Qed.

(** ** C63 - size-checked arithmetic: performed on matching sizes, refused (NULL,
    nothing changed) otherwise.  Any scalar type. *)
Section C63.
  Context {T : Type} {ST : Scalar T}.
  Implicit Types (m : mem T) (v w d : zVec) (A B D : zMat).
  Local Open Scope S_scope.
  Theorem C63_vec_binary : forall (k : T) m v w d x y,
    vholds m v x -> vholds m w y -> valloc m d -> fwd (vbuf v) (vbuf d) (vlen d) -> fwd (vbuf w) (vbuf d) (vlen d) ->
    forall op f, In (op, f) [ (zVecAdd m v w d, sadd); (zVecSub m v w d, ssub); (zVecAmp m v w d, smul);
                              (zVecDem m v w d, sdiv); (zVecCat m v k w d, fun x y => x + y * k) ] ->
    (vsize v = vsize w /\ vsize v = vsize d ->
       exists m', op = Ok (Some m') /\ vholds m' d (fun i => f (x i) (y i)) /\ vframe m m' d) /\
    (~ (vsize v = vsize w /\ vsize v = vsize d) -> op = Ok None).
  Proof.
    intros k m v w d x y Hx Hy Hd F1 F2 op f HI. cbn in HI.
    repeat destruct HI as [E|HI]; try contradiction; inversion E; subst;
      exact (vec_binary _ m v w d x y Hx Hy Hd F1 F2).
  Qed.
  Theorem C63_vec_unary : forall (tol k : T) m v d x,
    vholds m v x -> valloc m d -> fwd (vbuf v) (vbuf d) (vlen d) ->
    forall op ok f, In (op, ok, f) [ (zVecRev m v d, true, sopp); (zVecMul m v k d, true, fun x => x * k);
                                     (zVecDiv tol m v k d, negb (is_tol tol k), fun x => x * (1 / k)) ] ->
    (vsize v = vsize d /\ ok = true ->
       exists m', op = Ok (Some m') /\ vholds m' d (fun i => f (x i)) /\ vframe m m' d) /\
    (~ (vsize v = vsize d /\ ok = true) -> op = Ok None).
  Proof.
    intros tol k m v d x Hx Hd F op ok f HI.
    pose proof (fun b g => vec_unary b g m v d x Hx Hd F) as V. cbn zeta in V. cbn in HI.
    repeat destruct HI as [E|HI]; try contradiction; inversion E; subst; clear E.
    - specialize (V true sopp). rewrite andb_true_r in V. exact V.
    - specialize (V true (fun x => x * k)). rewrite andb_true_r in V. exact V.
    - exact (V _ (fun x => x * (1 / k))).
  Qed.
  Theorem C63_mat_binary : forall (k : T) m A B D x y,
    mholds m A x -> mholds m B y -> malloc m D -> same_or_disj A D -> same_or_disj B D ->
    forall op f, In (op, f) [ (zMatAdd m A B D, sadd); (zMatSub m A B D, ssub); (zMatCat m A k B D, fun x y => x + y * k) ] ->
    let fits := mrow A = mrow B /\ mcol A = mcol B /\ mrow A = mrow D /\ mcol A = mcol D in
    (fits -> exists m', op = Ok (Some m') /\ mholds m' D (fun i j => f (x i j) (y i j)) /\ Mframe m m' D) /\
    (~ fits -> op = Ok None).
  Proof.
    intros k m A B D x y Hx Hy HD S1 S2 op f HI fits.
    assert (forall g, fits -> exists m', rmap Some (rows (mrow D) (fun i m => pass2 (mcol D) (row (mbuf A) (mccap A) i) (row (mbuf B) (mccap B) i)
               (row (mbuf D) (mccap D) i) g m) m) = Ok (Some m') /\ mholds m' D (fun i j => g (x i j) (y i j)) /\ Mframe m m' D) as V.
    { intros g F. destruct (mat_binary _ _ (matwise2_pass g) m A B D x y Hx Hy HD F S1 S2) as (m' & E & A1 & F1).
      exists m'. rewrite E. auto. }
    assert (fits -> mseq A B && mseq A D = true) as OK1 by (unfold mseq, fits; lia).
    assert (~ fits -> mseq A B && mseq A D = false) as OK2 by (unfold mseq, fits; lia). cbn in HI.
    repeat destruct HI as [E|HI]; try contradiction; injection E as <- <-;
      (split; intros F; [unfold zMatAdd, zMatSub, zMatCat, chk; rewrite (OK1 F); first [exact (V sadd F)|exact (V ssub F)|exact (V (fun x y => x + y * k) F)]|apply chk_false, OK2, F]).
  Qed.
  Theorem C63_mat_unary : forall (tol k : T) m A D x,
    mholds m A x -> malloc m D -> same_or_disj A D ->
    forall op ok f, In (op, ok, f) [ (zMatRev m A D, true, sopp); (zMatMul m A k D, true, fun x => x * k);
                                     (zMatDiv tol m A k D, negb (is_tol tol k), fun x => x * (1 / k)) ] ->
    let fits := mrow A = mrow D /\ mcol A = mcol D /\ ok = true in
    (fits -> exists m', op = Ok (Some m') /\ mholds m' D (fun i j => f (x i j)) /\ Mframe m m' D) /\
    (~ fits -> op = Ok None).
  Proof.
    intros tol k m A D x Hx HD S1 op ok f HI fits.
    assert (forall g, mrow A = mrow D /\ mcol A = mcol D -> exists m', rmap Some (rows (mrow D) (fun i m => pass1 (mcol D) (row (mbuf A) (mccap A) i)
               (row (mbuf D) (mccap D) i) g m) m) = Ok (Some m') /\ mholds m' D (fun i j => g (x i j)) /\ Mframe m m' D) as V.
    { intros g F. destruct (mat_unary _ _ (matwise1_pass g) m A D x Hx HD F S1) as (m' & E & A1 & F1).
      exists m'. rewrite E. auto. }
    assert (mrow A = mrow D /\ mcol A = mcol D <-> mseq A D = true) as SQ by (unfold mseq; lia). cbn in HI.
    repeat destruct HI as [E|HI]; try contradiction; injection E as <- <- <-;
      (split; [intros (F1 & F2 & F3); unfold zMatRev, zMatMul, zMatDiv, chk; rewrite (proj1 SQ (conj F1 F2)), ?F3; pose proof (conj F1 F2) as F4;
               first [exact (V sopp F4)|exact (V (fun x => x * k) F4)|exact (V (fun x => x * (1 / k)) F4)]
              |intros F; apply chk_false; unfold fits in F; destruct (mseq A D) eqn:E'; [|reflexivity];
               destruct (negb (is_tol tol k)); intuition]).
  Qed.
  (** copies, between separate objects *)
  Theorem C63_copy : forall m v d A D x y,
    (vholds m v x -> valloc m d -> disj (vcells v) (vcells d) ->
       (vsize v = vsize d -> exists m', zVecCopy m v d = Ok (Some m') /\ vholds m' d x /\ vframe m m' d) /\
       (vsize v <> vsize d -> zVecCopy m v d = Ok None)) /\
    (mholds m A y -> malloc m D -> disj (mcells A) (mcells D) ->
       (mrow A = mrow D /\ mcol A = mcol D -> exists m', zMatCopy m A D = Ok (Some m') /\ mholds m' D y /\ Mframe m m' D) /\
       (~ (mrow A = mrow D /\ mcol A = mcol D) -> zMatCopy m A D = Ok None)).
  Proof.
    intros m v d A D x y. split.
    - intros (H0 & Hx) (H1 & Ha) Hd. unfold zVecCopy, zVecCopyNC, vseq. split; [intros E|intros N; apply chk_false; lia].
      destruct (zRawVecCopy_ok m (vbuf v) (vbuf d) (vlen d) x) as (m' & E' & A1 & F); auto.
      + unfold vlen in *. now rewrite <- E.
      + intros q Q1 Q2. apply (Hd q); auto. unfold vcells, vlen in *. now rewrite E.
      + unfold vlen in E'. rewrite Z2Nat.id in E' by lia. exists m'. split; [apply chk_ok; auto; lia|]. split; [split|]; auto.
    - intros (H0 & H1 & Hx) (H2 & H3 & Ha) Hd. unfold zMatCopy, zMatCopyNC. split; [intros (E1 & E2)|intros N; apply chk_false; unfold mseq; lia].
      assert (mrows A = mrows D) as R1 by (unfold mrows; now rewrite E1). assert (mcols A = mcols D) as R2 by (unfold mcols; now rewrite E2).
      destruct (zRawMatCopy_ok m (mbuf A) (mccap A) (mbuf D) (mccap D) (mrows D) (mcols D) y) as (m' & E' & A1 & F); auto.
      + now rewrite <- R1, <- R2.
      + unfold mcols. lia.
      + intros q Q1 Q2. apply (Hd q); auto. unfold mcells. now rewrite R1, R2.
      + unfold mrows, mcols in E'. rewrite !Z2Nat.id in E' by lia. exists m'. split; [apply chk_ok; auto; unfold mseq; lia|]. split; [split; [|split]|]; auto.
  Qed.
End C63.
Print Assumptions C63_copy.
Print Assumptions C63_vec_binary.
Print Assumptions C63_vec_unary.
Print Assumptions C63_mat_binary.
Print Assumptions C63_mat_unary.
Example C63_ex_ok : rmap (option_map (fun m => m 0%nat)) (zVecAdd vm_mem vm_v vm_v vm_v) = Ok (Some [2; 4; 6]%float).
Proof. vm_compute. reflexivity. Qed.
Example C63_ex_null : rmap (option_map (fun m => m 0%nat)) (zVecAdd vm_mem vm_v vm_w vm_v) = Ok None.
Proof. vm_compute. reflexivity. Qed.
Local Open Scope R_scope.
(** Products: refused on mismatching sizes ... *)
Theorem C63_products_null : forall (m : mem R) A B D v w,
  (~ (mcol A = vsize v /\ mrow A = vsize w) -> zMulMatVec m A v w = Ok None) /\
  (~ (mrow A = vsize v /\ mcol A = vsize w) -> zMulMatTVec m A v w = Ok None) /\
  (~ (mrow B = mcol A /\ mrow A = mrow D /\ mcol B = mcol D) -> zMulMatMat m A B D = Ok None) /\
  (~ (mcol A = mcol B /\ mrow A = mrow D /\ mrow B = mcol D) -> zMulMatMatT m A B D = Ok None) /\
  (~ (mrow A = mrow B /\ mrow D = mcol A /\ mcol B = mcol D) -> zMulMatTMat m A B D = Ok None).
Proof. intros. repeat split; intros H; apply chk_false; lia. Qed.
Print Assumptions C63_products_null.
(** ... except for A Q A^T and A^T Q A, which accept a result matrix of the wrong size
    and write outside it. *)
Theorem C63_triple_product_refuted :
  exists (m : mem float) A Q D x q, mholds m A x /\ mholds m Q q /\ malloc m D /\
    disj (mcells A) (mcells D) /\ disj (mcells Q) (mcells D) /\ mrow D <> mrow A /\
    zMulMatMatMatT m A Q D = UB.
Proof.
  exists (fun b => match b with O => [1; 2]%float | 1%nat => [1]%float | 2%nat => [0]%float | _ => [] end),
    (MkMat (0%nat, 0%Z) 2 1 2 1), (MkMat (1%nat, 0%Z) 1 1 1 1), (MkMat (2%nat, 0%Z) 1 1 1 1),
    (fun i j => nth i [1; 2]%float 0%float), (fun i j => 1%float).
  split; [split; [cbn; lia|]; split; [cbn; lia|]; intros [|[|i]] [|j] Hi Hj; try reflexivity; unfold mrows, mcols in *; cbn in *; lia|].
  split; [split; [cbn; lia|]; split; [cbn; lia|]; intros [|i] [|j] Hi Hj; try reflexivity; unfold mrows, mcols in *; cbn in *; lia|].
  split; [split; [cbn; lia|]; split; [cbn; lia|]; intros [|i] [|j] Hi Hj; try discriminate; unfold mrows, mcols in *; cbn in *; lia|].
  split; [intros p (i & j & _ & _ & ->) (i' & j' & _ & _ & E); discriminate E|].
  split; [intros p (i & j & _ & _ & ->) (i' & j' & _ & _ & E); discriminate E|].
  split; [cbn; lia|]. vm_compute. reflexivity.
Qed.
Print Assumptions C63_triple_product_refuted.

(** ** C08, object level *)
Section Reals.
Implicit Types (m : mem R) (A B D Q : zMat).
Theorem C08_zMulMatVec m A v d x y : mholds m A x -> vholds m v y -> valloc m d ->
  mcol A = vsize v -> mrow A = vsize d -> disj (mcells A) (vcells d) -> disj (vcells v) (vcells d) ->
  exists m', zMulMatVec m A v d = Ok (Some m') /\
    vholds m' d (fun i => rsum (mcols A) (fun j => x i j * y j)) /\ vframe m m' d.
Proof. apply zMulMatVec_ok. Qed.
Theorem C08_zMulMatTVec m A v d x y : mholds m A x -> vholds m v y -> valloc m d ->
  mrow A = vsize v -> mcol A = vsize d -> disj (mcells A) (vcells d) -> disj (vcells v) (vcells d) ->
  exists m', zMulMatTVec m A v d = Ok (Some m') /\
    vholds m' d (fun j => rsum (mrows A) (fun i => x i j * y i)) /\ vframe m m' d.
Proof. apply zMulMatTVec_ok. Qed.
Theorem C08_zMulMatMat m A B D x y : mholds m A x -> mholds m B y -> malloc m D ->
  mrow B = mcol A -> mrow A = mrow D -> mcol B = mcol D -> disj (mcells A) (mcells D) -> disj (mcells B) (mcells D) ->
  exists m', zMulMatMat m A B D = Ok (Some m') /\
    mholds m' D (fun i j => rsum (mcols A) (fun l => x i l * y l j)) /\ Mframe m m' D.
Proof. apply zMulMatMat_ok. Qed.
Theorem C08_zMulMatMatT m A B D x y : mholds m A x -> mholds m B y -> malloc m D ->
  mcol A = mcol B -> mrow A = mrow D -> mrow B = mcol D -> disj (mcells A) (mcells D) -> disj (mcells B) (mcells D) ->
  exists m', zMulMatMatT m A B D = Ok (Some m') /\
    mholds m' D (fun i j => rsum (mcols A) (fun l => x i l * y j l)) /\ Mframe m m' D.
Proof. apply zMulMatMatT_ok. Qed.
Theorem C08_zMulMatTMat m A B D x y : mholds m A x -> mholds m B y -> malloc m D ->
  mrow A = mrow B -> mrow D = mcol A -> mcol B = mcol D -> disj (mcells A) (mcells D) -> disj (mcells B) (mcells D) ->
  exists m', zMulMatTMat m A B D = Ok (Some m') /\
    mholds m' D (fun i j => rsum (mrows A) (fun l => x l i * y l j)) /\ Mframe m m' D.
Proof. apply zMulMatTMat_ok. Qed.
(** A diag(w) A^T and A^T diag(w) A; [wholds]: the weights wf, or all ones for w = NULL. *)
Theorem C08_zMatQuad m A ow Q x wf : mholds m A x -> malloc m Q -> wholds m ow (mcols A) wf Q ->
  mrow A = mrow Q -> mrow Q = mcol Q -> disj (mcells A) (mcells Q) ->
  exists m', zMatQuad m A ow Q = Ok (Some m') /\
    mholds m' Q (fun i j => rsum (mcols A) (fun k => wf k * x i k * x j k)) /\ Mframe m m' Q.
Proof. apply zMatQuad_ok. Qed.
Theorem C08_zMatTQuad m A ow Q x wf : mholds m A x -> malloc m Q -> wholds m ow (mrows A) wf Q ->
  mcol A = mrow Q -> mrow Q = mcol Q -> disj (mcells A) (mcells Q) ->
  exists m', zMatTQuad m A ow Q = Ok (Some m') /\
    mholds m' Q (fun i j => rsum (mrows A) (fun k => wf k * x k i * x k j)) /\ Mframe m m' Q.
Proof. apply zMatTQuad_ok. Qed.
(** A Q A^T and A^T Q A. *)
Theorem C08_zMulMatMatMatT m A Q D x q : mholds m A x -> mholds m Q q -> malloc m D ->
  mrow Q = mcol Q -> mrow Q = mcol A -> mrow D = mcol D -> mrow D = mrow A ->
  disj (mcells A) (mcells D) -> disj (mcells Q) (mcells D) ->
  exists m', zMulMatMatMatT m A Q D = Ok (Some m') /\
    mholds m' D (fun k j => rsum (mcols A) (fun i => x k i * rsum (mcols A) (fun l => q i l * x j l))) /\ Mframe m m' D.
Proof. apply zMulMatMatMatT_ok. Qed.
Theorem C08_zMulMatTMatMat m A Q D x q : mholds m A x -> mholds m Q q -> malloc m D ->
  mrow Q = mcol Q -> mrow Q = mrow A -> mrow D = mcol D -> mrow D = mcol A ->
  disj (mcells A) (mcells D) -> disj (mcells Q) (mcells D) ->
  exists m', zMulMatTMatMat m A Q D = Ok (Some m') /\
    mholds m' D (fun k j => rsum (mrows A) (fun i => x i k * rsum (mrows A) (fun l => q i l * x l j))) /\ Mframe m m' D.
Proof. apply zMulMatTMatMat_ok. Qed.
Print Assumptions C08_zMulMatVec.
Print Assumptions C08_zMulMatMat.
Print Assumptions C08_zMatQuad.
Print Assumptions C08_zMatTQuad.
Print Assumptions C08_zMulMatMatMatT.
Print Assumptions C08_zMulMatTMatMat.
Definition quad_mem : mem float :=
  fun b => match b with O => [1; 2; 3; 4; 5; 6]%float | 1%nat => [9; 9; 9; 9]%float | 2%nat => [1; 10; 100]%float | _ => [] end.
Example C08_ex_quad : rmap (option_map (fun s => s 1%nat))
   (zMatQuad quad_mem (MkMat (0%nat, 0%Z) 2 3 2 3) (Some (MkVec (2%nat, 0%Z) 3)) (MkMat (1%nat, 0%Z) 2 2 2 2))
   = Ok (Some [941; 1904; 1904; 3866]%float).
Proof. vm_compute. reflexivity. Qed.

(** ** C64 - v := M v through a temporary vector in a fresh block b. *)
Theorem C64_mul_in_place m A v b x y : mholds m A x -> vholds m v y -> m b = [] ->
  mrow A = mcol A -> mcol A = vsize v ->
  exists m', zMulMatVecDRC m A v b = Ok m' /\
    vholds m' v (fun i => rsum (mcols A) (fun j => x i j * y j)) /\ vframe m m' v.
Proof. apply zMulMatVecDRC_ok. Qed.
Theorem C64_mul_transposed_in_place m A v b x y : mholds m A x -> vholds m v y -> m b = [] ->
  mrow A = mcol A -> mcol A = vsize v ->
  exists m', zMulMatTVecDRC m A v b = Ok m' /\
    vholds m' v (fun j => rsum (mrows A) (fun i => x i j * y i)) /\ vframe m m' v.
Proof. apply zMulMatTVecDRC_ok. Qed.
(** With any other shape the function reports success and zeroes the vector. *)
Theorem C64_mismatch_zeroes m A v b x y : mholds m A x -> vholds m v y -> m b = [] ->
  ~ (mrow A = vsize v /\ mcol A = vsize v) ->
  exists m', zMulMatVecDRC m A v b = Ok m' /\ vholds m' v (fun i => 0) /\ vframe m m' v.
Proof. apply zMulMatVecDRC_mismatch. Qed.
Theorem C64_mismatch_refuted : exists m A v x y, mholds m A x /\ vholds m v y /\ mcol A = vsize v /\
  exists m', zMulMatVecDRC m A v 7 = Ok m' /\ ~ vholds m' v y.
Proof.
  set (m := (fun b => match b with O => [1; 1] | 1%nat => [5; 6] | _ => [] end) : mem R).
  assert (mholds m (MkMat (0%nat, 0%Z) 1 2 1 2) (fun _ _ => 1)) as HA.
  { split; [cbn; lia|]. split; [cbn; lia|]. intros [|i] [|[|j]] Hi Hj; try reflexivity; unfold mrows, mcols in *; cbn in *; lia. }
  assert (vholds m (MkVec (1%nat, 0%Z) 2) (fun i => nth i [5; 6] 0)) as HV.
  { split; [cbn; lia|]. intros [|[|i]] H; try reflexivity. unfold vlen in H; cbn in H. lia. }
  exists m, (MkMat (0%nat, 0%Z) 1 2 1 2), (MkVec (1%nat, 0%Z) 2), (fun _ _ => 1), (fun i => nth i [5; 6] 0).
  split; auto. split; auto. split; auto.
  destruct (zMulMatVecDRC_mismatch m _ _ 7 _ _ HA HV eq_refl) as (m' & E & (_ & A1) & F); [cbn; lia|].
  exists m'. split; auto. intros (_ & C). specialize (A1 0%nat ltac:(unfold vlen; cbn; lia)). specialize (C 0%nat ltac:(unfold vlen; cbn; lia)).
  rewrite A1 in C. injection C as C. lra.
Qed.
Print Assumptions C64_mul_in_place.
Print Assumptions C64_mul_transposed_in_place.
Print Assumptions C64_mismatch_zeroes.
Print Assumptions C64_mismatch_refuted.
Example C64_ex : rmap (fun s => s 1%nat)
   (zMulMatVecDRC (fun b => match b with O => [0; 1; 1; 1]%float | 1%nat => [3; 5]%float | _ => [] end)
      (MkMat (0%nat, 0%Z) 2 2 2 2) (MkVec (1%nat, 0%Z) 2) 7) = Ok [5; 8]%float.
Proof. vm_compute. reflexivity. Qed.

(** ** C65 - projection, orthogonalisation, distance to a line. *)
Theorem C65_projection m v n d x y : vholds m v x -> vholds m n y -> valloc m d -> fwd (vbuf n) (vbuf d) (vlen d) ->
  vsize v = vsize n -> vsize v = vsize d ->
  exists m', zVecProj m v n d = Ok (Some m') /\
    vholds m' d (fun i => y i * (dot (vlen v) x y / dot (vlen v) y y)) /\ vframe m m' d.
Proof. apply zVecProj_ok. Qed.
Theorem C65_orthogonalize m v n d x y : vholds m v x -> vholds m n y -> valloc m d -> fwd (vbuf n) (vbuf d) (vlen d) ->
  vsize v = vsize n -> vsize v = vsize d -> disj (vcells v) (vcells d) ->
  exists m', zVecOrthogonalize m v n d = Ok (Some m') /\
    vholds m' d (fun i => x i - y i * (dot (vlen v) x y / dot (vlen v) y y)) /\ vframe m m' d.
Proof. apply zVecOrthogonalize_ok. Qed.
(** What is left after removing the projection is orthogonal to n. *)
Theorem C65_remainder_orthogonal n x y : dot n y y <> 0 -> dot n (fun i => x i - y i * (dot n x y / dot n y y)) y = 0.
Proof. apply proj_orth. Qed.
(** zVecEdgeDist is the distance from x to the infinite line through x1 and x2 ([at_ t]
    is the distance to the point of parameter t), or to x1 if these coincide. *)
Theorem C65_edge_dist tol m v v1 v2 x x1 x2 : 0 <= tol -> vholds m v x -> vholds m v1 x1 -> vholds m v2 x2 ->
  vsize v = vsize v1 -> vsize v = vsize v2 ->
  let n := vlen v in
  let at_ t := sqrt (rsum n (fun i => (t * (x2 i - x1 i) - (x i - x1 i)) * (t * (x2 i - x1 i) - (x i - x1 i)))) in
  exists d, zVecEdgeDist tol m v v1 v2 = Ok d /\
    (rsum n (fun i => (x2 i - x1 i) * (x2 i - x1 i)) <= tol -> d = at_ 0) /\
    (tol < rsum n (fun i => (x2 i - x1 i) * (x2 i - x1 i)) -> (exists t, d = at_ t) /\ forall t, d <= at_ t).
Proof. apply zVecEdgeDist_ok. Qed.
(** It is therefore not the distance to the segment [x1,x2]. *)
Theorem C65_segment_refuted : exists (m : mem float) v v1 v2,
  zVecEdgeDist 0x1p-40%float m v v1 v2 = Ok 0%float /\ zVecDist m v v1 = Ok 1%float /\ zVecDist m v v2 = Ok 2%float.
Proof.
  exists (fun b => match b with O => [-1; 0; 1]%float | _ => [] end), (MkVec (0%nat, 0%Z) 1), (MkVec (0%nat, 1%Z) 1), (MkVec (0%nat, 2%Z) 1).
  repeat split; vm_compute; reflexivity.
Qed.
(** Orthogonalising in place destroys the operand before it is used. *)
Theorem C65_orthogonalize_in_place_refuted : exists (s : mem float) v n,
  rmap (option_map (fun s => s 0%nat)) (zVecOrthogonalize s v n v) = Ok (Some [0; 0]%float) /\
  s 0%nat = [1; 1]%float /\ s 1%nat = [1; 0]%float /\ v = MkVec (0%nat, 0%Z) 2 /\ n = MkVec (1%nat, 0%Z) 2.
Proof.
  exists (fun b => match b with O => [1; 1]%float | 1%nat => [1; 0]%float | _ => [] end), (MkVec (0%nat, 0%Z) 2), (MkVec (1%nat, 0%Z) 2).
  repeat split; vm_compute; reflexivity.
Qed.
Print Assumptions C65_projection.
Print Assumptions C65_orthogonalize.
Print Assumptions C65_remainder_orthogonal.
Print Assumptions C65_edge_dist.
Print Assumptions C65_segment_refuted.
Print Assumptions C65_orthogonalize_in_place_refuted.

End Reals.

(** ** C66 - structural predicates of a matrix answer true exactly when every element
    meets the condition.  Any scalar type. *)
Section C66.
  Local Open Scope nat_scope.
  Context {T : Type} {ST : Scalar T}.
  Implicit Types (m : mem T) (A B D : zMat).
  Theorem C66_equal eq m A B x y : mholds m A x -> mholds m B y ->
    exists b, zMatEqual eq m A B = Ok b /\
      (b = true <-> mrow A = mrow B /\ mcol A = mcol B /\
         forall i j, i < mrows A -> j < mcols A -> eq (x i j) (y i j) = true).
  Proof. apply zMatEqual_ok. Qed.
  Theorem C66_isdiag m A x tol : mholds m A x ->
    exists b, zMatIsDiag m A tol = Ok b /\
      (b = true <-> forall i j, i < mrows A -> j < mcols A -> i <> j -> is_tol tol (x i j) = true).
  Proof. apply zMatIsDiag_ok. Qed.
  Theorem C66_isident eq m A x tol : mholds m A x ->
    exists b, zMatIsIdent eq m A tol = Ok b /\
      (b = true <-> forall i j, i < mrows A -> j < mcols A ->
                      (if i =? j then eq (x i j) s1 else is_tol tol (x i j)) = true).
  Proof. apply zMatIsIdent_ok. Qed.
  Theorem C66_issymmetric m A x : mholds m A x ->
    exists b, zMatIsSymmetric m A = Ok b /\
      (b = true <-> mrow A = mcol A /\ forall i j, i < j < mrows A -> seq (x i j) (x j i) = true).
  Proof. apply zMatIsSymmetric_ok. Qed.
End C66.
Print Assumptions C66_equal.
Print Assumptions C66_isdiag.
Print Assumptions C66_isident.
Print Assumptions C66_issymmetric.
Example C66_ex : zMatIsDiag vm_mem vm_A 0%float = Ok false /\
  zMatIsDiag (fun b => [1; 0; 99; 0; 4; 99]%float) vm_A 0%float = Ok true /\
  zMatIsSymmetric (fun b => [1; 2; 99; 2; 4; 98]%float) vm_A = Ok true.
Proof. repeat split; vm_compute; reflexivity. Qed.
