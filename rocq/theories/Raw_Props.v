(** C05-C09: raw vectors and matrices.  Vocabulary: Raw_Spec.v. *)
From Coq Require Import PrimFloat.
From Verif Require Import Prelude Prelude_Proofs Scalar RealLib Raw_Model Raw_Spec Raw_Proofs
  RawMat_Proofs RawReal_Proofs Tdrc_Model Tdrc_Proofs.

(** ** C05 — any scalar type (bit-exact, in particular for [double]). *)
Section C05.
  Context {T : Type} {ST : Scalar T}.
  Local Open Scope S_scope.

  (** One source operand. *)
  Theorem C05_unary : forall (k shift lo hi : T),
    elementwise1 zRawVecRev sopp /\
    elementwise1 (fun m s d n => zRawVecMul m s k d n) (fun x => x * k) /\
    elementwise1 (fun m s d n => zRawVecDiv m s k d n) (fun x => x * (1 / k)) /\
    elementwise1 (fun m s d n => zRawVecShift m s n shift d) (fun x => x + shift) /\
    elementwise1 (fun m s d n => zRawVecScaleUniform m s lo hi d n) (fun x => lo + x * (hi - lo)).
  Proof. intros. repeat split; intros m s d n x Hx Ha Hf; exact (pass1_ok n s d _ m x Hx Ha Hf). Qed.

  (** Two source operands. *)
  Theorem C05_binary : forall (k ratio : T),
    elementwise2 zRawVecAdd sadd /\ elementwise2 zRawVecSub ssub /\
    elementwise2 zRawVecAmp smul /\ elementwise2 zRawVecDem sdiv /\
    elementwise2 (fun m s1 s2 d n => zRawVecCat m s1 k s2 d n) (fun x y => x + y * k) /\
    elementwise2 (fun m s1 s2 d n => zRawVecInterDiv m s1 s2 ratio d n) (fun x y => x + ratio * (y - x)) /\
    elementwise2 zRawVecMid (fun x y => sofZ 1 / sofZ 2 * (x + y)).
  Proof.
    intros. repeat split; intros m s1 s2 d n x y Hx Hy Ha Hf1 Hf2;
      exact (pass2_ok n s1 s2 d _ m x y Hx Hy Ha Hf1 Hf2).
  Qed.
  Theorem C05_scale : elementwise3 zRawVecScale (fun x lo hi => lo + x * (hi - lo)).
  Proof.
    intros m s1 s2 s3 d n x y z Hx Hy Hz Ha H1 H2 H3.
    exact (pass3_ok n s1 s2 s3 d _ m x y z Hx Hy Hz Ha H1 H2 H3).
  Qed.

  (** In-place versions are the destination = first operand case. *)
  Theorem C05_in_place : forall (k ratio : T) m v v2 (n : nat) x y,
    vecat m v n x -> vecat m v2 n y -> fwd v2 v n ->
    forall op f,
      In (op, f) [ (zRawVecAddDRC m v v2 (Z.of_nat n), sadd);
                   (zRawVecSubDRC m v v2 (Z.of_nat n), ssub);
                   (zRawVecAmpDRC m v v2 (Z.of_nat n), smul);
                   (zRawVecDemDRC m v v2 (Z.of_nat n), sdiv);
                   (zRawVecCatDRC m v k v2 (Z.of_nat n), (fun x y => x + y * k));
                   (zRawVecInterDivDRC m v v2 ratio (Z.of_nat n), (fun x y => x + ratio * (y - x)));
                   (zRawVecRevDRC m v (Z.of_nat n), (fun x _ => - x));
                   (zRawVecMulDRC m v k (Z.of_nat n), (fun x _ => x * k));
                   (zRawVecDivDRC m v k (Z.of_nat n), (fun x _ => x * (1 / k))) ] ->
      exists m', op = Ok m' /\ vecat m' v n (fun i => f (x i) (y i)) /\ frame m m' v n.
  Proof.
    intros k ratio m v v2 n x y Hx Hy Hf op f HI.
    assert (Ha := vecat_alloc m v n x Hx). assert (Hr := fwd_refl v n).
    cbn in HI. repeat destruct HI as [E|HI]; try contradiction; inversion E; subst;
      first [ exact (pass2_ok n v v2 v _ m x y Hx Hy Ha Hr Hf)
            | exact (pass1_ok n v v _ m x Hx Ha Hr) ].
  Qed.

  (** memset/memcpy based operations; copying needs disjoint areas, overlapping
      areas are undefined behaviour. *)
  Theorem C05_zero : forall (m : mem T) v (n : nat), allocated m v n ->
    exists m', zRawVecZero m v (Z.of_nat n) = Ok m' /\ vecat m' v n (fun _ => 0) /\ frame m m' v n.
  Proof. exact zRawVecZero_ok. Qed.
  Theorem C05_copy : forall (m : mem T) s d (n : nat) x, vecat m s n x -> allocated m d n -> apart s n d n ->
    exists m', zRawVecCopy m s d (Z.of_nat n) = Ok m' /\ vecat m' d n x /\ frame m m' d n.
  Proof. exact zRawVecCopy_ok. Qed.
  Theorem C05_copy_overlap : forall (m : mem T) s d (n : nat),
    ~ apart s n d n -> zRawVecCopy m s d (Z.of_nat n) = UB.
  Proof. exact zRawVecCopy_overlap. Qed.
  Theorem C05_setall : forall (m : mem T) v (n : nat) c, allocated m v n ->
    exists m', zRawVecSetAll m v (Z.of_nat n) c = Ok m' /\ vecat m' v n (fun _ => c) /\ frame m m' v n.
  Proof. exact zRawVecSetAll_ok. Qed.
  Theorem C05_touchup : forall (m : mem T) v (n : nat) tol x, vecat m v n x ->
    exists m', zRawVecTouchup m v (Z.of_nat n) tol = Ok m' /\
      vecat m' v n (fun i => if is_tol tol (x i) then 0 else x i) /\ frame m m' v n.
  Proof. exact zRawVecTouchup_ok. Qed.
  Theorem C05_swap : forall (m : mem T) v (n : nat) x i1 i2, vecat m v n x -> (i1 < n)%nat -> (i2 < n)%nat ->
    exists m', zRawVecSwap m v (Z.of_nat i1) (Z.of_nat i2) = Ok m' /\
      vecat m' v n (fun i => if (i =? i1)%nat then x i2 else if (i =? i2)%nat then x i1 else x i) /\
      frame m m' v n.
  Proof. exact zRawVecSwap_ok. Qed.
  (** Linear sum  k1 y1 + ... + kj yj  over a list of (scalar, array) arguments that
      do not overlap the destination. *)
  Theorem C05_linear_sum : forall (m : mem T) v (n : nat) args ys,
    allocated m v n -> length ys = length args ->
    (forall j, (j < length args)%nat -> vecat m (snd (nth j args (0, v))) n (nth j ys (fun _ => 0)) /\
               apart (snd (nth j args (0, v))) n v n) ->
    exists m', zRawVecLinearSum m v (Z.of_nat n) args = Ok m' /\
      vecat m' v n (fun i => fold_left (fun acc ky => acc + snd ky i * fst ky)
                               (combine (map fst args) ys) 0) /\ frame m m' v n.
  Proof. exact zRawVecLinearSum_ok. Qed.
  (** Comparisons look at every element. *)
  Theorem C05_equal : forall eq m v1 v2 (n : nat) (x y : nat -> T), vecat m v1 n x -> vecat m v2 n y ->
    exists b, zRawVecEqual eq m v1 v2 (Z.of_nat n) = Ok b /\
      (b = true <-> forall i, (i < n)%nat -> eq (x i) (y i) = true).
  Proof. exact zRawVecEqual_ok. Qed.
  Theorem C05_istol : forall (m : mem T) v (n : nat) tol x, vecat m v n x ->
    exists b, zRawVecIsTol m v (Z.of_nat n) tol = Ok b /\
      (b = true <-> forall i, (i < n)%nat -> is_tol tol (x i) = true).
  Proof. exact zRawVecIsTol_ok. Qed.
  Theorem C05_isnan : forall bad m v (n : nat) (x : nat -> T), vecat m v n x ->
    exists b, zRawVecIsNan bad m v (Z.of_nat n) = Ok b /\
      (b = true <-> exists i, (i < n)%nat /\ bad (x i) = true).
  Proof. exact zRawVecIsNan_ok. Qed.

  (** Strided matrices, element by element. *)
  Theorem C05_matrix_unary : forall k : T,
    matwise1 zRawMatRev sopp /\
    matwise1 (fun m s c1 d c2 rs cs => zRawMatMul m s c1 k d c2 rs cs) (fun x => x * k) /\
    matwise1 (fun m s c1 d c2 rs cs => zRawMatDiv m s c1 k d c2 rs cs) (fun x => x * (1 / k)).
  Proof. intros. repeat split; exact (matwise1_pass _). Qed.
  Theorem C05_matrix_binary : forall k : T,
    matwise2 zRawMatAdd sadd /\ matwise2 zRawMatSub ssub /\
    matwise2 (fun m s1 c1 s2 c2 d c3 rs cs => zRawMatCat m s1 c1 k s2 c2 d c3 rs cs) (fun x y => x + y * k).
  Proof. intros. repeat split; exact (matwise2_pass _). Qed.
  Theorem C05_matrix_in_place : forall (k : T) m v cap v2 cap2 (rs cs : nat) x y,
    matat m v cap rs cs x -> matat m v2 cap2 rs cs y -> (Z.of_nat cs <= cap)%Z -> (Z.of_nat cs <= cap2)%Z ->
    same_or_apart v2 cap2 v cap rs cs ->
    forall op f,
      In (op, f) [ (zRawMatAddDRC m v cap v2 cap2 (Z.of_nat rs) (Z.of_nat cs), sadd);
                   (zRawMatSubDRC m v cap v2 cap2 (Z.of_nat rs) (Z.of_nat cs), ssub);
                   (zRawMatCatDRC m v cap k v2 cap2 (Z.of_nat rs) (Z.of_nat cs), (fun x y => x + y * k));
                   (zRawMatRevDRC m v cap (Z.of_nat rs) (Z.of_nat cs), (fun x _ => - x));
                   (zRawMatMulDRC m v cap k (Z.of_nat rs) (Z.of_nat cs), (fun x _ => x * k));
                   (zRawMatDivDRC m v cap k (Z.of_nat rs) (Z.of_nat cs), (fun x _ => x * (1 / k))) ] ->
      exists m', op = Ok m' /\ matat m' v cap rs cs (fun i j => f (x i j) (y i j)) /\ mframe m m' v cap rs cs.
  Proof.
    intros k m v cap v2 cap2 rs cs x y Hx Hy Hc Hc2 Ho op f HI.
    assert (Ha := matat_malloc m v cap rs cs x Hx). assert (Hs := same_self v cap rs cs).
    cbn in HI. repeat destruct HI as [E|HI]; try contradiction; inversion E; subst;
      first [ exact (matwise2_pass _ m v cap v2 cap2 v cap rs cs x y Hx Hy Ha Hc Hc Hc2 Hs Ho)
            | exact (matwise1_pass _ m v cap v cap rs cs x Hx Ha Hc Hc Hs) ].
  Qed.
  Theorem C05_matrix_copy : forall (m : mem T) s scap d dcap (rs cs : nat) x,
      matat m s scap rs cs x -> mallocated m d dcap rs cs ->
      (Z.of_nat cs <= dcap)%Z -> mapart s scap rs cs d dcap rs cs ->
      exists m', zRawMatCopy m s scap d dcap (Z.of_nat rs) (Z.of_nat cs) = Ok m' /\
        matat m' d dcap rs cs x /\ mframe m m' d dcap rs cs.
  Proof. exact zRawMatCopy_ok. Qed.
  Theorem C05_matrix_zero : forall (m : mem T) d dcap (rs cs : nat), mallocated m d dcap rs cs -> (Z.of_nat cs <= dcap)%Z ->
    exists m', zRawMatZero m d dcap (Z.of_nat rs) (Z.of_nat cs) = Ok m' /\
      matat m' d dcap rs cs (fun _ _ => 0) /\ mframe m m' d dcap rs cs.
  Proof. exact zRawMatZero_ok. Qed.
  Theorem C05_matrix_touchup : forall (m : mem T) d dcap (rs cs : nat) tol x, matat m d dcap rs cs x -> (Z.of_nat cs <= dcap)%Z ->
    exists m', zRawMatTouchup m d dcap (Z.of_nat rs) (Z.of_nat cs) tol = Ok m' /\
      matat m' d dcap rs cs (fun i j => if is_tol tol (x i j) then 0 else x i j) /\ mframe m m' d dcap rs cs.
  Proof. exact zRawMatTouchup_ok. Qed.
  Theorem C05_matrix_ident : forall (m : mem T) d dcap (rs cs : nat), mallocated m d dcap rs cs -> (Z.of_nat cs <= dcap)%Z ->
    exists m', zRawMatIdent m d dcap (Z.of_nat rs) (Z.of_nat cs) = Ok m' /\
      matat m' d dcap rs cs (fun i j => if (i =? j)%nat then 1 else 0) /\ mframe m m' d dcap rs cs.
  Proof. exact zRawMatIdent_ok. Qed.
  Theorem C05_matrix_diag : forall (m : mem T) d dcap (rs cs : nat) v y, mallocated m d dcap rs cs -> (Z.of_nat cs <= dcap)%Z ->
    vecat m v (Nat.min rs cs) y ->
    (forall q, inmat d dcap rs cs q -> ~ inrange v (Nat.min rs cs) q) ->
    exists m', zRawMatDiag m d dcap v (Z.of_nat rs) (Z.of_nat cs) = Ok m' /\
      matat m' d dcap rs cs (fun i j => if (i =? j)%nat then y i else 0) /\ mframe m m' d dcap rs cs.
  Proof. exact zRawMatDiag_ok. Qed.
  Theorem C05_matrix_equal : forall eq m a cap1 b cap2 (rs cs : nat) (x y : nat -> nat -> T),
    matat m a cap1 rs cs x -> matat m b cap2 rs cs y ->
    exists t, zRawMatEqual eq m a cap1 b cap2 (Z.of_nat rs) (Z.of_nat cs) = Ok t /\
      (t = true <-> forall i j, (i < rs)%nat -> (j < cs)%nat -> eq (x i j) (y i j) = true).
  Proof. exact zRawMatEqual_ok. Qed.
  Theorem C05_matrix_istol : forall (m : mem T) a cap (rs cs : nat) tol x, matat m a cap rs cs x ->
    exists t, zRawMatIsTol m a cap (Z.of_nat rs) (Z.of_nat cs) tol = Ok t /\
      (t = true <-> forall i j, (i < rs)%nat -> (j < cs)%nat -> is_tol tol (x i j) = true).
  Proof. exact zRawMatIsTol_ok. Qed.
End C05.
Print Assumptions C05_unary.
Print Assumptions C05_binary.
Print Assumptions C05_in_place.
Print Assumptions C05_linear_sum.
Print Assumptions C05_matrix_in_place.

(** Non-vacuity: a memory with two arrays; adding in place, and adding with a
    destination that starts one cell before the source. *)
Local Open Scope float_scope.
Definition mem_ex : mem float := fun b => match b with O => [1; 2; 3; 4] | 1%nat => [10; 20; 30] | _ => [] end.
Example C05_ex_hyp : vecat mem_ex (0%nat, 1%Z) 3 (fun i => nth i [2; 3; 4] 0) /\
  vecat mem_ex (1%nat, 0%Z) 3 (fun i => nth i [10; 20; 30] 0) /\
  fwd (0%nat, 1%Z) (0%nat, 0%Z) 3 /\ allocated mem_ex (0%nat, 0%Z) 3.
Proof.
  split; [|split; [|split]].
  - intros [|[|[|i]]] H; try reflexivity; lia.
  - intros [|[|[|i]]] H; try reflexivity; lia.
  - unfold fwd; cbn; lia.
  - intros [|[|[|i]]] H; try discriminate; lia.
Qed.
Example C05_ex : rmap (fun m => (m 0%nat, m 1%nat))
    (zRawVecAdd mem_ex (0%nat, 1%Z) (1%nat, 0%Z) (0%nat, 0%Z) 3) = Ok ([12; 23; 34; 4], [10; 20; 30]).
Proof. vm_compute. reflexivity. Qed.
(** The excluded overlap really gives another result: each sum feeds the next. *)
Example C05_ex_smear : rmap (fun m => m 0%nat)
    (zRawVecAdd mem_ex (0%nat, 0%Z) (1%nat, 0%Z) (0%nat, 1%Z) 3) = Ok [1; 11; 31; 61].
Proof. vm_compute. reflexivity. Qed.
Example C05_ex_oob : zRawVecAdd mem_ex (0%nat, 0%Z) (1%nat, 0%Z) (0%nat, 0%Z) 4 = UB.
Proof. vm_compute. reflexivity. Qed.

(** Linear spacing, exact arithmetic; for size 1 the code divides 0 by 0. *)
Local Open Scope R_scope.
Theorem C05_linspace : forall m v (n : nat) (from to : R), (2 <= n)%nat -> allocated m v n ->
    exists m' x, zRawVecLinSpace m v (Z.of_nat n) from to = Ok m' /\ vecat m' v n x /\ frame m m' v n /\
      x O = from /\ x (n - 1)%nat = to /\
      (forall i, (S i < n)%nat -> x (S i) - x i = (to - from) / INR (n - 1)).
Proof. exact zRawVecLinSpace_R. Qed.
Print Assumptions C05_linspace.
Example C05_linspace_size1_nan :
  (exists m', zRawVecLinSpace mem_ex (0%nat, 0%Z) 1 5%float 5%float = Ok m' /\
    exists x, cell m' (0%nat, 0%Z) = Some x /\ PrimFloat.eqb x x = false).
Proof. eexists. split; [vm_compute; reflexivity|]. eexists. split; vm_compute; reflexivity. Qed.

(** Normalisation: refuses (NULL) exactly when the norm is within tolerance. *)
Theorem C05_normalize : forall tol m s d (n : nat) (x : nat -> R), 0 <= tol ->
    vecat m s n x -> allocated m d n -> fwd s d n ->
    let l := sqrt (rsum n (fun i => x i * x i)) in
    (l <= tol -> zRawVecNormalize tol m s (Z.of_nat n) d = Ok None) /\
    (tol < l -> exists m', zRawVecNormalize tol m s (Z.of_nat n) d = Ok (Some m') /\
       vecat m' d n (fun i => x i / l) /\ frame m m' d n /\
       rsum n (fun i => (x i / l) * (x i / l)) = 1).
Proof. exact zRawVecNormalize_R. Qed.
Print Assumptions C05_normalize.

(** ** C06 — any element type, any sizes. *)
Theorem C06_transpose_in_place : forall (T : Type) (r c : nat) (l : list T) d, length l = (r * c)%nat ->
  exists l', zRawMatTDRC l r c = Ok l' /\ length l' = (r * c)%nat /\
    (forall i j, (i < r)%nat -> (j < c)%nat -> nth (j * r + i) l' d = nth (i * c + j) l d).
Proof. exact @zRawMatTDRC_spec. Qed.
Print Assumptions C06_transpose_in_place.
Theorem C06_involutive : forall (T : Type) (r c : nat) (l : list T), length l = (r * c)%nat ->
  (l' <- zRawMatTDRC l r c ;; zRawMatTDRC l' c r) = Ok l.
Proof. exact @zRawMatTDRC_invol. Qed.
Print Assumptions C06_involutive.
Example C06_ex : zRawMatTDRC [1; 2; 3; 4; 5; 6; 7; 8; 9; 10; 11; 12]%nat 3 4
  = Ok [1; 5; 9; 2; 6; 10; 3; 7; 11; 4; 8; 12]%nat.
Proof. reflexivity. Qed.

(** ** C07 *)
Section C07.
  Context {T : Type} {ST : Scalar T}.
  (** [h] x [w] is the part of the requested block lying inside the matrix; the
      functions cut the request down to it. *)
  Theorem C07_get : forall (m : mem T) s scap (srs scs r c : nat) d dcap (drs dcs : nat) (x : nat -> nat -> T),
    (r <= srs)%nat -> (c <= scs)%nat ->
    let h := Nat.min drs (srs - r) in let w := Nat.min dcs (scs - c) in
    matat m s scap srs scs x -> mallocated m d dcap h w ->
    (Z.of_nat w <= dcap)%Z -> mapart s scap srs scs d dcap h w ->
    exists m', zRawMatGet m s scap (Z.of_nat srs) (Z.of_nat scs) (Z.of_nat r) (Z.of_nat c)
                 d dcap (Z.of_nat drs) (Z.of_nat dcs) = Ok m' /\
      matat m' d dcap h w (fun i j => x (r + i)%nat (c + j)%nat) /\ mframe m m' d dcap h w.
  Proof. exact zRawMatGet_ok. Qed.
  Theorem C07_put : forall (m : mem T) d dcap (drs dcs r c : nat) s scap (srs scs : nat) (x y : nat -> nat -> T),
    (r <= drs)%nat -> (c <= dcs)%nat ->
    let h := Nat.min srs (drs - r) in let w := Nat.min scs (dcs - c) in
    matat m d dcap drs dcs y -> matat m s scap h w x ->
    (Z.of_nat dcs <= dcap)%Z -> mapart s scap h w d dcap drs dcs ->
    exists m', zRawMatPut m d dcap (Z.of_nat drs) (Z.of_nat dcs) (Z.of_nat r) (Z.of_nat c)
                 s scap (Z.of_nat srs) (Z.of_nat scs) = Ok m' /\
      matat m' d dcap drs dcs (fun i j => if ((r <=? i) && (i <? r + h) && (c <=? j) && (j <? c + w))%nat
                                          then x (i - r)%nat (j - c)%nat else y i j) /\
      mframe m m' d dcap drs dcs.
  Proof. exact zRawMatPut_ok. Qed.
  Theorem C07_tget : forall (m : mem T) s scap (srs scs r c : nat) d dcap (drs dcs : nat) (x : nat -> nat -> T),
    (r <= srs)%nat -> (c <= scs)%nat ->
    let h := Nat.min drs (scs - c) in let w := Nat.min dcs (srs - r) in
    matat m s scap srs scs x -> mallocated m d dcap h w ->
    (Z.of_nat w <= dcap)%Z -> mapart s scap srs scs d dcap h w ->
    exists m', zRawMatTGet m s scap (Z.of_nat srs) (Z.of_nat scs) (Z.of_nat r) (Z.of_nat c)
                 d dcap (Z.of_nat drs) (Z.of_nat dcs) = Ok m' /\
      matat m' d dcap h w (fun i j => x (r + j)%nat (c + i)%nat) /\ mframe m m' d dcap h w.
  Proof. exact zRawMatTGet_ok. Qed.
  Theorem C07_tput : forall (m : mem T) d dcap (drs dcs r c : nat) s scap (srs scs : nat) (x y : nat -> nat -> T),
    (r <= drs)%nat -> (c <= dcs)%nat ->
    let h := Nat.min scs (drs - r) in let w := Nat.min srs (dcs - c) in
    matat m d dcap drs dcs y -> matat m s scap w h x ->
    (Z.of_nat dcs <= dcap)%Z -> mapart s scap w h d dcap drs dcs ->
    exists m', zRawMatTPut m d dcap (Z.of_nat drs) (Z.of_nat dcs) (Z.of_nat r) (Z.of_nat c)
                 s scap (Z.of_nat srs) (Z.of_nat scs) = Ok m' /\
      matat m' d dcap drs dcs (fun i j => if ((r <=? i) && (i <? r + h) && (c <=? j) && (j <? c + w))%nat
                                          then x (j - c)%nat (i - r)%nat else y i j) /\
      mframe m m' d dcap drs dcs.
  Proof. exact zRawMatTPut_ok. Qed.
  Theorem C07_transpose : forall (m : mem T) a cap1 t cap2 (rs cs : nat) (x : nat -> nat -> T),
    matat m a cap1 rs cs x -> mallocated m t cap2 cs rs ->
    (Z.of_nat rs <= cap2)%Z -> mapart a cap1 rs cs t cap2 cs rs ->
    exists m', zRawMatT m a cap1 t cap2 (Z.of_nat rs) (Z.of_nat cs) = Ok m' /\
      matat m' t cap2 cs rs (fun i j => x j i) /\ mframe m m' t cap2 cs rs.
  Proof. exact zRawMatT_ok. Qed.
  (** Put then get: round trip. *)
  Theorem C07_put_get : forall (m : mem T) d dcap (drs dcs r c : nat) s scap (h w : nat) o ocap (x y : nat -> nat -> T),
    (r + h <= drs)%nat -> (c + w <= dcs)%nat ->
    matat m d dcap drs dcs y -> matat m s scap h w x -> mallocated m o ocap h w ->
    (Z.of_nat dcs <= dcap)%Z -> (Z.of_nat w <= ocap)%Z ->
    mapart s scap h w d dcap drs dcs -> mapart d dcap drs dcs o ocap h w ->
    exists m1 m2,
      zRawMatPut m d dcap (Z.of_nat drs) (Z.of_nat dcs) (Z.of_nat r) (Z.of_nat c)
                 s scap (Z.of_nat h) (Z.of_nat w) = Ok m1 /\
      zRawMatGet m1 d dcap (Z.of_nat drs) (Z.of_nat dcs) (Z.of_nat r) (Z.of_nat c)
                 o ocap (Z.of_nat h) (Z.of_nat w) = Ok m2 /\
      matat m2 o ocap h w x.
  Proof.
    intros m d dcap drs dcs r c s scap h w o ocap x y Hr Hc Hy Hx Ho H1 H2 D1 D2.
    destruct (zRawMatPut_ok m d dcap drs dcs r c s scap h w x y) as (m1 & E1 & A1 & F1); auto; try lia.
    { replace (Nat.min h (drs - r)) with h by lia. replace (Nat.min w (dcs - c)) with w by lia. auto. }
    { replace (Nat.min h (drs - r)) with h by lia. replace (Nat.min w (dcs - c)) with w by lia. auto. }
    replace (Nat.min h (drs - r)) with h in A1 by lia. replace (Nat.min w (dcs - c)) with w in A1 by lia.
    destruct (zRawMatGet_ok m1 d dcap drs dcs r c o ocap h w _ ltac:(lia) ltac:(lia) A1) as (m2 & E2 & A2 & F2).
    - replace (Nat.min h (drs - r)) with h by lia. replace (Nat.min w (dcs - c)) with w by lia.
      intros i j Hi Hj. rewrite F1; auto. intros H. apply (D2 _ H). exists i, j; auto.
    - lia.
    - replace (Nat.min h (drs - r)) with h by lia. replace (Nat.min w (dcs - c)) with w by lia. auto.
    - exists m1, m2. split; auto. split; auto.
      replace (Nat.min h (drs - r)) with h in A2 by lia. replace (Nat.min w (dcs - c)) with w in A2 by lia.
      intros i j Hi Hj. rewrite A2 by auto. f_equal.
      replace ((r <=? r + i) && (r + i <? r + h) && (c <=? c + j) && (c + j <? c + w))%nat with true by lia.
      f_equal; lia.
  Qed.
  Theorem C07_swap_rows : forall (m : mem T) a cap (rs cs r1 r2 : nat) (x : nat -> nat -> T),
    (Z.of_nat cs <= cap)%Z -> matat m a cap rs cs x -> (r1 < rs)%nat -> (r2 < rs)%nat ->
    exists m', zRawMatSwapRow m a cap (Z.of_nat rs) (Z.of_nat cs) (Z.of_nat r1) (Z.of_nat r2) = Ok m' /\
      matat m' a cap rs cs (fun i j => if (i =? r1)%nat then x r2 j else if (i =? r2)%nat then x r1 j else x i j) /\
      mframe m m' a cap rs cs.
  Proof. exact zRawMatSwapRow_ok. Qed.
  Theorem C07_swap_cols : forall (m : mem T) a cap (rs cs c1 c2 : nat) (x : nat -> nat -> T),
    (Z.of_nat cs <= cap)%Z -> matat m a cap rs cs x -> (c1 < cs)%nat -> (c2 < cs)%nat ->
    exists m', zRawMatSwapCol m a cap (Z.of_nat rs) (Z.of_nat cs) (Z.of_nat c1) (Z.of_nat c2) = Ok m' /\
      matat m' a cap rs cs (fun i j => if (j =? c1)%nat then x i c2 else if (j =? c2)%nat then x i c1 else x i j) /\
      mframe m m' a cap rs cs.
  Proof. exact zRawMatSwapCol_ok. Qed.
  Theorem C07_get_row : forall (m : mem T) a cap (rs cs r : nat) v (x : nat -> nat -> T),
    matat m a cap rs cs x -> (r < rs)%nat -> allocated m v cs ->
    (forall q, inmat a cap rs cs q -> ~ inrange v cs q) ->
    exists m', zRawMatGetRow m a cap (Z.of_nat rs) (Z.of_nat cs) (Z.of_nat r) v = Ok m' /\
      vecat m' v cs (x r) /\ frame m m' v cs.
  Proof. exact zRawMatGetRow_ok. Qed.
  Theorem C07_get_col : forall (m : mem T) a cap (rs cs c : nat) v (x : nat -> nat -> T),
    matat m a cap rs cs x -> (c < cs)%nat -> allocated m v rs ->
    (forall q, inmat a cap rs cs q -> ~ inrange v rs q) ->
    exists m', zRawMatGetCol m a cap (Z.of_nat rs) (Z.of_nat cs) (Z.of_nat c) v = Ok m' /\
      vecat m' v rs (fun i => x i c) /\ frame m m' v rs.
  Proof. exact zRawMatGetCol_ok. Qed.
  Theorem C07_put_row : forall (m : mem T) a cap (rs cs r : nat) v x (y : nat -> T),
    (Z.of_nat cs <= cap)%Z -> matat m a cap rs cs x -> (r < rs)%nat -> vecat m v cs y ->
    (forall q, inmat a cap rs cs q -> ~ inrange v cs q) ->
    exists m', zRawMatPutRow m a cap (Z.of_nat rs) (Z.of_nat cs) (Z.of_nat r) v = Ok m' /\
      matat m' a cap rs cs (fun i j => if (i =? r)%nat then y j else x i j) /\ mframe m m' a cap rs cs.
  Proof. exact zRawMatPutRow_ok. Qed.
  Theorem C07_put_col : forall (m : mem T) a cap (rs cs c : nat) v x (y : nat -> T),
    (Z.of_nat cs <= cap)%Z -> matat m a cap rs cs x -> (c < cs)%nat -> vecat m v rs y ->
    (forall q, inmat a cap rs cs q -> ~ inrange v rs q) ->
    exists m', zRawMatPutCol m a cap (Z.of_nat rs) (Z.of_nat cs) (Z.of_nat c) v = Ok m' /\
      matat m' a cap rs cs (fun i j => if (j =? c)%nat then y i else x i j) /\ mframe m m' a cap rs cs.
  Proof. exact zRawMatPutCol_ok. Qed.
  (** Arithmetic on one column. *)
  Theorem C07_column_arith : forall (k : T) m a cap (rs cs c : nat) x v y,
    (Z.of_nat cs <= cap)%Z -> matat m a cap rs cs x -> (c < cs)%nat -> vecat m v rs y ->
    (forall q, inmat a cap rs cs q -> ~ inrange v rs q) ->
    forall op f,
      In (op, f) [ (zRawMatColAddDRC m a cap v (Z.of_nat rs) (Z.of_nat cs) (Z.of_nat c), sadd);
                   (zRawMatColSubDRC m a cap v (Z.of_nat rs) (Z.of_nat cs) (Z.of_nat c), ssub);
                   (zRawMatColCatDRC m a cap k v (Z.of_nat rs) (Z.of_nat cs) (Z.of_nat c),
                    (fun x y => sadd x (smul k y))) ] ->
    exists m', op = Ok m' /\
      matat m' a cap rs cs (fun i j => if (j =? c)%nat then f (x i j) (y i) else x i j) /\
      mframe m m' a cap rs cs.
  Proof.
    intros k m a cap rs cs c x v y Hc Hx Hcs Hy Hd op f HI.
    cbn in HI. repeat destruct HI as [E|HI]; try contradiction; inversion E; subst;
      exact (colpass_vec m a cap rs cs c x _ v y Hc Hx Hcs Hy Hd).
  Qed.
  Theorem C07_column_scale : forall (k : T) m a cap (rs cs c : nat) x,
    (Z.of_nat cs <= cap)%Z -> matat m a cap rs cs x -> (c < cs)%nat ->
    exists m', zRawMatColMulDRC m a cap k (Z.of_nat rs) (Z.of_nat cs) (Z.of_nat c) = Ok m' /\
      matat m' a cap rs cs (fun i j => if (j =? c)%nat then smul (x i c) k else x i j) /\
      mframe m m' a cap rs cs.
  Proof.
    intros k m a cap rs cs c x Hc Hx Hcs.
    exact (colpass_ok m a cap rs cs c x _ (fun i => smul (x i c) k) Hc Hx Hcs (fun _ _ _ _ => eq_refl)).
  Qed.
End C07.
Print Assumptions C07_get.
Print Assumptions C07_put.
Print Assumptions C07_tput.
Print Assumptions C07_put_get.
Print Assumptions C07_swap_rows.
Print Assumptions C07_column_arith.
(** Non-vacuity: block 2x2 put at (1,1) into a 3x3 matrix stored with stride 4. *)
Definition mem_mat : mem nat :=
  fun b => match b with O => [1; 2; 3; 99; 4; 5; 6; 99; 7; 8; 9; 99]%nat | 1%nat => [50; 51; 52; 53]%nat | _ => [] end.
Example C07_ex_hyp : matat mem_mat (0%nat, 0%Z) 4 3 3 (fun i j => (3 * i + j + 1)%nat) /\
  matat mem_mat (1%nat, 0%Z) 2 2 2 (fun i j => (50 + 2 * i + j)%nat) /\
  mapart (1%nat, 0%Z) 2 2 2 (0%nat, 0%Z) 4 3 3.
Proof.
  split; [|split].
  - intros [|[|[|i]]] [|[|[|j]]] Hi Hj; try reflexivity; lia.
  - intros [|[|[|i]]] [|[|[|j]]] Hi Hj; try reflexivity; lia.
  - intros q (i & j & _ & _ & ->) (i' & j' & _ & _ & E). discriminate E.
Qed.
Example C07_ex : rmap (fun m => m 0%nat)
   (zRawMatPut mem_mat (0%nat, 0%Z) 4 3 3 1 1 (1%nat, 0%Z) 2 2 2)
   = Ok [1; 2; 3; 99; 4; 50; 51; 99; 7; 52; 53; 99]%nat.
Proof. reflexivity. Qed.

(** ** C08 — exact arithmetic. *)
Theorem C08_mat_vec : forall m a cap v (rs cs : nat) d (x : nat -> nat -> R) y,
    matat m a cap rs cs x -> vecat m v cs y -> allocated m d rs ->
    (forall q, inrange d rs q -> ~ inmat a cap rs cs q /\ ~ inrange v cs q) ->
    exists m', zRawMulMatVec m a cap v (Z.of_nat rs) (Z.of_nat cs) d = Ok m' /\
      vecat m' d rs (fun i => rsum cs (fun j => x i j * y j)) /\ frame m m' d rs.
Proof. exact zRawMulMatVec_R. Qed.
Print Assumptions C08_mat_vec.
Theorem C08_matT_vec : forall m a cap v (rs cs : nat) d (x : nat -> nat -> R) y,
    matat m a cap rs cs x -> vecat m v rs y -> allocated m d cs ->
    (forall q, inrange d cs q -> ~ inmat a cap rs cs q /\ ~ inrange v rs q) ->
    exists m', zRawMulMatTVec m a cap v (Z.of_nat rs) (Z.of_nat cs) d = Ok m' /\
      vecat m' d cs (fun j => rsum rs (fun i => x i j * y i)) /\ frame m m' d cs.
Proof. exact zRawMulMatTVec_R. Qed.
Print Assumptions C08_matT_vec.
Theorem C08_mat_mat : forall m a1 cap1 (rs1 k cs2 : nat) a2 cap2 d cap3 (x y : nat -> nat -> R),
    matat m a1 cap1 rs1 k x -> matat m a2 cap2 k cs2 y -> mallocated m d cap3 rs1 cs2 ->
    (Z.of_nat cs2 <= cap3)%Z ->
    mapart a1 cap1 rs1 k d cap3 rs1 cs2 -> mapart a2 cap2 k cs2 d cap3 rs1 cs2 ->
    exists m', zRawMulMatMat m a1 cap1 (Z.of_nat rs1) (Z.of_nat k) a2 cap2 (Z.of_nat k) (Z.of_nat cs2) d cap3 = Ok m' /\
      matat m' d cap3 rs1 cs2 (fun i j => rsum k (fun l => x i l * y l j)) /\ mframe m m' d cap3 rs1 cs2.
Proof. exact zRawMulMatMat_R. Qed.
Print Assumptions C08_mat_mat.
Theorem C08_mat_matT : forall m a1 cap1 (rs1 k rs2 : nat) a2 cap2 d cap3 (x y : nat -> nat -> R),
    matat m a1 cap1 rs1 k x -> matat m a2 cap2 rs2 k y -> mallocated m d cap3 rs1 rs2 ->
    (Z.of_nat rs2 <= cap3)%Z ->
    mapart a1 cap1 rs1 k d cap3 rs1 rs2 -> mapart a2 cap2 rs2 k d cap3 rs1 rs2 ->
    exists m', zRawMulMatMatT m a1 cap1 (Z.of_nat rs1) (Z.of_nat k) a2 cap2 (Z.of_nat rs2) (Z.of_nat k) d cap3 = Ok m' /\
      matat m' d cap3 rs1 rs2 (fun i j => rsum k (fun l => x i l * y j l)) /\ mframe m m' d cap3 rs1 rs2.
Proof. exact zRawMulMatMatT_R. Qed.
Print Assumptions C08_mat_matT.
Theorem C08_matT_mat : forall m a1 cap1 (k cs1 cs2 : nat) a2 cap2 d cap3 (x y : nat -> nat -> R),
    matat m a1 cap1 k cs1 x -> matat m a2 cap2 k cs2 y -> mallocated m d cap3 cs1 cs2 ->
    (Z.of_nat cs2 <= cap3)%Z ->
    mapart a1 cap1 k cs1 d cap3 cs1 cs2 -> mapart a2 cap2 k cs2 d cap3 cs1 cs2 ->
    exists m', zRawMulMatTMat m a1 cap1 (Z.of_nat k) (Z.of_nat cs1) a2 cap2 (Z.of_nat k) (Z.of_nat cs2) d cap3 = Ok m' /\
      matat m' d cap3 cs1 cs2 (fun i j => rsum k (fun l => x l i * y l j)) /\ mframe m m' d cap3 cs1 cs2.
Proof. exact zRawMulMatTMat_R. Qed.
Print Assumptions C08_matT_mat.
(** Dyads hold for any scalar type. *)
Theorem C08_dyad : forall (T : Type) (ST : Scalar T) m v1 (n1 : nat) v2 (n2 : nat) a cap (x y : nat -> T),
    vecat m v1 n1 x -> vecat m v2 n2 y -> mallocated m a cap n1 n2 -> (Z.of_nat n2 <= cap)%Z ->
    (forall q, inmat a cap n1 n2 q -> ~ inrange v1 n1 q /\ ~ inrange v2 n2 q) ->
    exists m', zRawVecDyad m v1 (Z.of_nat n1) v2 (Z.of_nat n2) a cap = Ok m' /\
      matat m' a cap n1 n2 (fun i j => smul (x i) (y j)) /\ mframe m m' a cap n1 n2.
Proof. exact @zRawVecDyad_ok. Qed.
Print Assumptions C08_dyad.
Theorem C08_add_dyad : forall (T : Type) (ST : Scalar T) (k : T) m v1 (n1 : nat) v2 (n2 : nat) a cap (x y : nat -> T) z,
    vecat m v1 n1 x -> vecat m v2 n2 y -> matat m a cap n1 n2 z -> (Z.of_nat n2 <= cap)%Z ->
    (forall q, inmat a cap n1 n2 q -> ~ inrange v1 n1 q /\ ~ inrange v2 n2 q) ->
    forall op f,
      In (op, f) [ (zRawMatAddDyad m a cap v1 (Z.of_nat n1) v2 (Z.of_nat n2), (fun z x y => sadd z (smul x y)));
                   (zRawMatSubDyad m a cap v1 (Z.of_nat n1) v2 (Z.of_nat n2), (fun z x y => ssub z (smul x y)));
                   (zRawMatCatDyad m a cap k v1 (Z.of_nat n1) v2 (Z.of_nat n2),
                     (fun z x y => sadd z (smul (smul k x) y))) ] ->
    exists m', op = Ok m' /\
      matat m' a cap n1 n2 (fun i j => f (z i j) (x i) (y j)) /\ mframe m m' a cap n1 n2.
Proof.
  intros T ST k m v1 n1 v2 n2 a cap x y z Hx Hy Hz Hc Hd op f HI.
  cbn in HI. repeat destruct HI as [E|HI]; try contradiction; inversion E; subst;
    exact (dyadpass_ok m v1 n1 v2 n2 a cap _ x y z Hx Hy Hz Hc Hd).
Qed.
Print Assumptions C08_add_dyad.
Definition mem_mul : mem float :=
  fun b => match b with O => [1; 2; 99; 3; 4; 99]%float | 1%nat => [5; 6; 7; 8]%float | 2%nat => [0; 0; 0; 0]%float | _ => [] end.
Example C08_ex : rmap (fun m => m 2%nat) (zRawMulMatMat mem_mul (0%nat, 0%Z) 3 2 2 (1%nat, 0%Z) 2 2 2 (2%nat, 0%Z) 2)
  = Ok [19; 22; 43; 50]%float.
Proof. vm_compute. reflexivity. Qed.

(** ** C09 — exact arithmetic: the compensation does not change the sum. *)
Theorem C09_inner_prod : forall m v1 v2 (n : nat) (x y : nat -> R), vecat m v1 n x -> vecat m v2 n y ->
    zRawVecInnerProd m v1 v2 (Z.of_nat n) = Ok (rsum n (fun i => x i * y i)).
Proof. exact zRawVecInnerProd_R. Qed.
Print Assumptions C09_inner_prod.
Theorem C09_weighted_norm : forall m v w (n : nat) (x y : nat -> R), vecat m v n x -> vecat m w n y ->
    zRawVecWSqrNorm m v w (Z.of_nat n) = Ok (rsum n (fun i => y i * (x i * x i))).
Proof. exact zRawVecWSqrNorm_R. Qed.
Print Assumptions C09_weighted_norm.
Theorem C09_col_inner_prod : forall m a cap v (rs cs c : nat) (x : nat -> nat -> R) y,
    matat m a cap rs cs x -> (c < cs)%nat -> vecat m v rs y ->
    zRawMatColInnerProd m a cap v (Z.of_nat rs) (Z.of_nat cs) (Z.of_nat c) = Ok (rsum rs (fun i => x i c * y i)).
Proof. exact zRawMatColInnerProd_R. Qed.
Print Assumptions C09_col_inner_prod.
Theorem C09_trace : forall m a cap (rs cs : nat) (x : nat -> nat -> R), matat m a cap rs cs x ->
    zRawMatTrace m a cap (Z.of_nat rs) (Z.of_nat cs) = Ok (rsum (Nat.min rs cs) (fun i => x i i)).
Proof. exact zRawMatTrace_R. Qed.
Print Assumptions C09_trace.
Theorem C09_mat_sqr_norm : forall m a cap (rs cs : nat) (x : nat -> nat -> R), matat m a cap rs cs x ->
    zRawMatSqrNorm m a cap (Z.of_nat rs) (Z.of_nat cs) = Ok (rsum rs (fun i => rsum cs (fun j => x i j * x i j))).
Proof. exact zRawMatSqrNorm_R. Qed.
Print Assumptions C09_mat_sqr_norm.
Theorem C09_sqr_dist : forall m v1 v2 (n : nat) (x y : nat -> R), vecat m v1 n x -> vecat m v2 n y ->
    zRawVecSqrDist m v1 v2 (Z.of_nat n) = Ok (rsum n (fun i => (x i - y i) * (x i - y i))).
Proof. exact zRawVecSqrDist_R. Qed.
Print Assumptions C09_sqr_dist.
(** Executed in binary64 the compensation is effective: a plain left-to-right sum
    of 1e16*1 + 1*1 + (-1e16)*1 loses the 1, the compensated one does not. *)
Example C09_ex :
  let m : mem float := fun b => match b with O => [10000000000000000; 1; -10000000000000000]%float | _ => [1; 1; 1]%float end in
  zRawVecInnerProd m (0%nat, 0%Z) (1%nat, 0%Z) 3 = Ok 1%float /\
  ((10000000000000000 + 1) + -10000000000000000)%float = 0%float.
Proof. vm_compute. split; reflexivity. Qed.
