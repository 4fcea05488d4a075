(** Raw kernels over the reals: sums, inner products, matrix products. *)
From Verif Require Import Prelude Prelude_Proofs Scalar RealLib Raw_Model Raw_Spec Raw_Proofs RawMat_Proofs.
Local Open Scope R_scope.

Lemma forZ_inv {St} (P : nat -> St -> Prop) (n : nat) f (s : St) :
  P O s -> (forall k s, (k < n)%nat -> P k s -> exists s', f (Z.of_nat k) s = Ok s' /\ P (S k) s') ->
  exists s', forZ (Z.of_nat n) f s = Ok s' /\ P n s'.
Proof.
  intros H0 Hs. unfold forZ. rewrite Nat2Z.id. apply (for_inv P); auto; [lia|].
  intros k s' Hk; apply Hs; lia.
Qed.

Lemma comp_sum_R (n : nat) (e : Z -> res R) (g : nat -> R) :
  (forall i, (i < n)%nat -> e (Z.of_nat i) = Ok (g i)) -> comp_sum (Z.of_nat n) e = Ok (rsum n g).
Proof.
  intros He. unfold comp_sum.
  destruct (forZ_inv (fun k st => st = (rsum k g, 0)) n
     (fun i st => x <- e i ;; Ok (comp_step st x)) (s0, s0)) as (st & E & ->).
  - reflexivity.
  - intros k st Hk ->. rewrite He by auto. cbn. eexists; split; [reflexivity|]. rs. f_equal. ring.
  - rewrite E. cbn. f_equal. ring.
Qed.

Section RealKernels.
  Implicit Types (m : mem R) (p q s d a v : ptr).

  Lemma zRawVecInnerProd_R m v1 v2 (n : nat) x y : vecat m v1 n x -> vecat m v2 n y ->
    zRawVecInnerProd m v1 v2 (Z.of_nat n) = Ok (rsum n (fun i => x i * y i)).
  Proof.
    intros Hx Hy. apply comp_sum_R. intros i Hi.
    rewrite (load_ok _ _ _ (Hx i Hi)). cbn. now rewrite (load_ok _ _ _ (Hy i Hi)).
  Qed.
  Lemma zRawVecWSqrNorm_R m v w (n : nat) x y : vecat m v n x -> vecat m w n y ->
    zRawVecWSqrNorm m v w (Z.of_nat n) = Ok (rsum n (fun i => y i * (x i * x i))).
  Proof.
    intros Hx Hy. unfold zRawVecWSqrNorm. rewrite (comp_sum_R n _ (fun i => y i * x i * x i)).
    - f_equal. apply rsum_ext. intros; ring.
    - intros i Hi. rewrite (load_ok _ _ _ (Hy i Hi)). cbn. now rewrite (load_ok _ _ _ (Hx i Hi)).
  Qed.
  Lemma zRawVecSqrDist_R m v1 v2 (n : nat) x y : vecat m v1 n x -> vecat m v2 n y ->
    zRawVecSqrDist m v1 v2 (Z.of_nat n) = Ok (rsum n (fun i => (x i - y i) * (x i - y i))).
  Proof.
    intros Hx Hy. unfold zRawVecSqrDist.
    destruct (forZ_inv (fun k acc => acc = rsum k (fun i => (x i - y i) * (x i - y i))) n
      (fun i acc => x <- load m (padd v1 i) ;; y <- load m (padd v2 i) ;;
                  Ok (acc + (x - y) * (x - y))) s0) as (acc & E & ->).
    - reflexivity.
    - intros k acc Hk ->. rewrite (load_ok _ _ _ (Hx k Hk)). cbn. rewrite (load_ok _ _ _ (Hy k Hk)). cbn. eauto.
    - exact E.
  Qed.
  Lemma zRawMatColInnerProd_R m a cap v (rs cs c : nat) x y :
    matat m a cap rs cs x -> (c < cs)%nat -> vecat m v rs y ->
    zRawMatColInnerProd m a cap v (Z.of_nat rs) (Z.of_nat cs) (Z.of_nat c) = Ok (rsum rs (fun i => x i c * y i)).
  Proof.
    intros Hx Hc Hy. apply comp_sum_R. intros i Hi.
    rewrite (load_ok m _ (x i c)).
    - cbn. now rewrite (load_ok _ _ _ (Hy i Hi)).
    - replace (padd (padd a (Z.of_nat c)) (Z.of_nat i * cap)) with (at2 a cap i c); auto.
      unfold at2. rewrite padd_padd. f_equal. lia.
  Qed.
  Lemma zRawMatTrace_R m a cap (rs cs : nat) x : matat m a cap rs cs x ->
    zRawMatTrace m a cap (Z.of_nat rs) (Z.of_nat cs) = Ok (rsum (Nat.min rs cs) (fun i => x i i)).
  Proof.
    intros Hx. unfold zRawMatTrace.
    replace (Z.min (Z.of_nat rs) (Z.of_nat cs)) with (Z.of_nat (Nat.min rs cs)) by lia.
    apply comp_sum_R. intros i Hi. apply load_ok.
    replace (padd a (Z.of_nat i * (cap + 1))) with (at2 a cap i i).
    - apply Hx; lia.
    - unfold at2. f_equal. lia.
  Qed.
  Lemma zRawMatSqrNorm_R m a cap (rs cs : nat) x : matat m a cap rs cs x ->
    zRawMatSqrNorm m a cap (Z.of_nat rs) (Z.of_nat cs) = Ok (rsum rs (fun i => rsum cs (fun j => x i j * x i j))).
  Proof.
    intros Hx. unfold zRawMatSqrNorm.
    destruct (forZ_inv (fun k acc => acc = rsum k (fun i => rsum cs (fun j => x i j * x i j))) rs
      (fun i norm => x <- zRawVecSqrNorm m (row a cap i) (Z.of_nat cs) ;; Ok (sadd norm x)) s0) as (acc & E & ->).
    - reflexivity.
    - intros k acc Hk ->. unfold zRawVecSqrNorm.
      rewrite (zRawVecInnerProd_R m _ _ cs (x k) (x k)) by (eapply matat_row; eauto). cbn. eauto.
    - exact E.
  Qed.

  Lemma zRawVecNormalize_R tol m s d (n : nat) x : 0 <= tol ->
    vecat m s n x -> allocated m d n -> fwd s d n ->
    let l := sqrt (rsum n (fun i => x i * x i)) in
    (l <= tol -> zRawVecNormalize tol m s (Z.of_nat n) d = Ok None) /\
    (tol < l -> exists m', zRawVecNormalize tol m s (Z.of_nat n) d = Ok (Some m') /\
       vecat m' d n (fun i => x i / l) /\ frame m m' d n /\
       rsum n (fun i => (x i / l) * (x i / l)) = 1).
  Proof.
    intros Ht Hx Ha Hf l. unfold zRawVecNormalize, zRawVecNorm, zRawVecSqrNorm.
    rewrite (zRawVecInnerProd_R m s s n x x) by auto. cbn [bind]. rs. fold l.
    assert (Hl : 0 <= l) by apply sqrt_pos.
    unfold is_tol; rs; rewrite Rabs_pos_eq by auto. split; intros H.
    - now rewrite Rleb_true.
    - rewrite Rleb_false by lra.
      destruct (pass1_ok n s d (fun x => x * (1 / l)) m x) as (m' & E & A & F); auto.
      unfold zRawVecMul. rs. rewrite E. cbn. exists m'. split; auto. split; [|split; auto].
      + eapply vecat_ext; [exact A|]. intros i Hi. cbn. field. lra.
      + rewrite (rsum_ext n _ (fun i => / (l * l) * (x i * x i))) by (intros; field; lra).
        rewrite rsum_scal. unfold l at 1 2. rewrite sqrt_sqrt.
        * apply Rinv_l. intros E0. unfold l in H. rewrite E0, sqrt_0 in H. lra.
        * apply rsum_nonneg. intros. apply Rle_0_sqr.
  Qed.

  (** Linear spacing. *)
  Lemma zRawVecLinSpace_R m v (n : nat) from to : (2 <= n)%nat -> allocated m v n ->
    exists m' x, zRawVecLinSpace m v (Z.of_nat n) from to = Ok m' /\ vecat m' v n x /\ frame m m' v n /\
      x O = from /\ x (n - 1)%nat = to /\
      (forall i, (S i < n)%nat -> x (S i) - x i = (to - from) / INR (n - 1)).
  Proof.
    intros Hn Ha.
    set (g := fun i : nat => (to - from) * IZR (Z.of_nat i) / IZR (Z.of_nat n - 1) + from).
    destruct (pass_ok n v (fun i (_ : mem R) => Ok ((to - from) * IZR i / IZR (Z.of_nat n - 1) + from)) g m) as (m' & E & A & F); auto.
    exists m', g. split; [exact E|]. split; auto. split; auto.
    assert (EN : IZR (Z.of_nat n - 1) = INR (n - 1)).
    { rewrite INR_IZR_INZ. f_equal. lia. }
    assert (NZ : INR (n - 1) <> 0) by (apply not_0_INR; lia).
    unfold g. split; [|split].
    - cbn. unfold Rdiv. ring.
    - rewrite EN. rewrite <- INR_IZR_INZ. field. auto.
    - intros i Hi. rewrite EN, <- !INR_IZR_INZ, S_INR. field. auto.
  Qed.

  (** Products. *)
  Lemma zRawMulMatVec_R m a cap v (rs cs : nat) d x y :
    matat m a cap rs cs x -> vecat m v cs y -> allocated m d rs ->
    (forall q, inrange d rs q -> ~ inmat a cap rs cs q /\ ~ inrange v cs q) ->
    exists m', zRawMulMatVec m a cap v (Z.of_nat rs) (Z.of_nat cs) d = Ok m' /\
      vecat m' d rs (fun i => rsum cs (fun j => x i j * y j)) /\ frame m m' d rs.
  Proof.
    intros Hx Hy Ha Hd. unfold zRawMulMatVec.
    apply (pass_ok rs d (fun i m => zRawVecInnerProd m (row a cap i) v (Z.of_nat cs))
             (fun i => rsum cs (fun j => x i j * y j)) m); auto.
    intros i m' Hi HF.
    assert (HF' : forall q, inrange d i q -> inrange d rs q) by (unfold inrange; intros; lia).
    apply zRawVecInnerProd_R.
    - intros j Hj. rewrite row_at2, HF; auto. intros H. apply (proj1 (Hd _ (HF' _ H))). exists i, j; auto.
    - intros j Hj. rewrite HF; auto. intros H. apply (proj2 (Hd _ (HF' _ H))). apply inrange_iff; eauto.
  Qed.
  Lemma zRawMulMatTVec_R m a cap v (rs cs : nat) d x y :
    matat m a cap rs cs x -> vecat m v rs y -> allocated m d cs ->
    (forall q, inrange d cs q -> ~ inmat a cap rs cs q /\ ~ inrange v rs q) ->
    exists m', zRawMulMatTVec m a cap v (Z.of_nat rs) (Z.of_nat cs) d = Ok m' /\
      vecat m' d cs (fun j => rsum rs (fun i => x i j * y i)) /\ frame m m' d cs.
  Proof.
    intros Hx Hy Ha Hd. unfold zRawMulMatTVec.
    apply (pass_ok cs d (fun i m => zRawMatColInnerProd m a cap v (Z.of_nat rs) (Z.of_nat cs) i)
             (fun j => rsum rs (fun i => x i j * y i)) m); auto.
    intros i m' Hi HF.
    assert (HF' : forall q, inrange d i q -> inrange d cs q) by (unfold inrange; intros; lia).
    apply zRawMatColInnerProd_R; auto.
    - intros j k Hj Hk. rewrite HF; auto. intros H. apply (proj1 (Hd _ (HF' _ H))). exists j, k; auto.
    - intros j Hj. rewrite HF; auto. intros H. apply (proj2 (Hd _ (HF' _ H))). apply inrange_iff; eauto.
  Qed.

  Lemma frame_in_rows m m' d cap rs cs i q : (i < rs)%nat -> mframe m m' d cap i cs ->
    ~ inmat d cap rs cs q -> cell m' q = cell m q.
  Proof. intros Hi HF Hq. apply HF. intros H. apply Hq. eapply inmat_mono; [|exact H]. lia. Qed.

  Lemma zRawMulMatMat_R m a1 cap1 (rs1 k cs2 : nat) a2 cap2 d cap3 x y :
    matat m a1 cap1 rs1 k x -> matat m a2 cap2 k cs2 y -> mallocated m d cap3 rs1 cs2 ->
    (Z.of_nat cs2 <= cap3)%Z ->
    mapart a1 cap1 rs1 k d cap3 rs1 cs2 -> mapart a2 cap2 k cs2 d cap3 rs1 cs2 ->
    exists m', zRawMulMatMat m a1 cap1 (Z.of_nat rs1) (Z.of_nat k) a2 cap2 (Z.of_nat k) (Z.of_nat cs2) d cap3 = Ok m' /\
      matat m' d cap3 rs1 cs2 (fun i j => rsum k (fun l => x i l * y l j)) /\ mframe m m' d cap3 rs1 cs2.
  Proof.
    intros Hx Hy Ha Hc D1 D2. unfold zRawMulMatMat.
    apply (rows_ok rs1 cs2 d cap3 (fun i j => rsum k (fun l => x i l * y l j))); auto.
    intros i m' Hi HF.
    destruct (zRawMulMatTVec_R m' a2 cap2 (row a1 cap1 (Z.of_nat i)) k cs2 (row d cap3 (Z.of_nat i)) y (x i))
      as (m2 & E & A & F).
    - intros l j Hl Hj. rewrite (frame_in_rows m m' d cap3 rs1 cs2 i); auto.
      intros H. apply (D2 _ (ex_intro _ l (ex_intro _ j (conj Hl (conj Hj eq_refl)))) H).
    - intros l Hl. rewrite row_at2. rewrite (frame_in_rows m m' d cap3 rs1 cs2 i); auto.
      intros H. apply (D1 _ (ex_intro _ i (ex_intro _ l (conj Hi (conj Hl eq_refl)))) H).
    - eapply alloc_row; eauto.
    - intros q Hq. apply (inmat_row _ _ rs1) in Hq; auto. split; intros H; [apply (D2 q)|apply (D1 q)]; auto.
      apply (inmat_row _ _ rs1 _ i); auto.
    - exists m2. split; auto. split; auto. eapply vecat_ext; [exact A|].
      intros j Hj. cbn. apply rsum_ext. intros; ring.
  Qed.
  Lemma zRawMulMatMatT_R m a1 cap1 (rs1 k rs2 : nat) a2 cap2 d cap3 x y :
    matat m a1 cap1 rs1 k x -> matat m a2 cap2 rs2 k y -> mallocated m d cap3 rs1 rs2 ->
    (Z.of_nat rs2 <= cap3)%Z ->
    mapart a1 cap1 rs1 k d cap3 rs1 rs2 -> mapart a2 cap2 rs2 k d cap3 rs1 rs2 ->
    exists m', zRawMulMatMatT m a1 cap1 (Z.of_nat rs1) (Z.of_nat k) a2 cap2 (Z.of_nat rs2) (Z.of_nat k) d cap3 = Ok m' /\
      matat m' d cap3 rs1 rs2 (fun i j => rsum k (fun l => x i l * y j l)) /\ mframe m m' d cap3 rs1 rs2.
  Proof.
    intros Hx Hy Ha Hc D1 D2. unfold zRawMulMatMatT.
    apply (rows_ok rs1 rs2 d cap3 (fun i j => rsum k (fun l => x i l * y j l))); auto.
    intros i m' Hi HF.
    destruct (zRawMulMatVec_R m' a2 cap2 (row a1 cap1 (Z.of_nat i)) rs2 k (row d cap3 (Z.of_nat i)) y (x i))
      as (m2 & E & A & F).
    - intros l j Hl Hj. rewrite (frame_in_rows m m' d cap3 rs1 rs2 i); auto.
      intros H. apply (D2 _ (ex_intro _ l (ex_intro _ j (conj Hl (conj Hj eq_refl)))) H).
    - intros l Hl. rewrite row_at2. rewrite (frame_in_rows m m' d cap3 rs1 rs2 i); auto.
      intros H. apply (D1 _ (ex_intro _ i (ex_intro _ l (conj Hi (conj Hl eq_refl)))) H).
    - eapply alloc_row; eauto.
    - intros q Hq. apply (inmat_row _ _ rs1) in Hq; auto. split; intros H; [apply (D2 q)|apply (D1 q)]; auto.
      apply (inmat_row _ _ rs1 _ i); auto.
    - exists m2. split; auto. split; auto. eapply vecat_ext; [exact A|].
      intros j Hj. cbn. apply rsum_ext. intros; ring.
  Qed.

  (** Accumulation into one memory cell. *)
  Lemma acc_cell m p (n : nat) (e : Z -> mem R -> res R) (g : nat -> R) z0 :
    cell m p = Some z0 ->
    (forall i m', (i < n)%nat -> (forall q, q <> p -> cell m' q = cell m q) -> e (Z.of_nat i) m' = Ok (g i)) ->
    exists m', forZ (Z.of_nat n) (fun j m => z <- load m p ;; v <- e j m ;; store m p (z + v)) m = Ok m' /\
      cell m' p = Some (z0 + rsum n g) /\ (forall q, q <> p -> cell m' q = cell m q).
  Proof.
    intros Hp He.
    destruct (forZ_inv (fun k m' => cell m' p = Some (z0 + rsum k g) /\ (forall q, q <> p -> cell m' q = cell m q)) n
      (fun j m => z <- load m p ;; v <- e j m ;; store m p (z + v)) m) as (m' & E & A & F).
    - split; auto. rewrite Hp. cbn. f_equal. ring.
    - intros k m1 Hk [A F]. rewrite (load_ok _ _ _ A). cbn. rewrite (He k m1) by auto. cbn.
      destruct (store_spec m1 p (z0 + rsum k g + g k)) as (m2 & E2 & A2 & F2); [congruence|].
      exists m2. split; auto. split.
      + rewrite A2. f_equal. cbn. ring.
      + intros q Hq. rewrite F2; auto.
    - exists m'; auto.
  Qed.

  Lemma zRawMulMatTMat_R m a1 cap1 (k cs1 cs2 : nat) a2 cap2 d cap3 x y :
    matat m a1 cap1 k cs1 x -> matat m a2 cap2 k cs2 y -> mallocated m d cap3 cs1 cs2 ->
    (Z.of_nat cs2 <= cap3)%Z ->
    mapart a1 cap1 k cs1 d cap3 cs1 cs2 -> mapart a2 cap2 k cs2 d cap3 cs1 cs2 ->
    exists m', zRawMulMatTMat m a1 cap1 (Z.of_nat k) (Z.of_nat cs1) a2 cap2 (Z.of_nat k) (Z.of_nat cs2) d cap3 = Ok m' /\
      matat m' d cap3 cs1 cs2 (fun i j => rsum k (fun l => x l i * y l j)) /\ mframe m m' d cap3 cs1 cs2.
  Proof.
    intros Hx Hy Ha Hc D1 D2. unfold zRawMulMatTMat.
    apply (rows_ok cs1 cs2 d cap3 (fun i j => rsum k (fun l => x l i * y l j))); auto.
    intros i m1 Hi HF.
    destruct (forZ_cells2 cs2 1 (fun j _ => at2 d cap3 i j) (fun j _ => rsum k (fun l => x l i * y l j))
      (fun j m => m0 <- store m (padd (row d cap3 (Z.of_nat i)) j) s0 ;;
        forZ (Z.of_nat k) (fun l m =>
          z <- load m (padd (row d cap3 (Z.of_nat i)) j) ;;
          x <- load m (padd (padd a1 (Z.of_nat i)) (l * cap1)) ;;
          y <- load m (padd (padd a2 j) (l * cap2)) ;;
          store m (padd (row d cap3 (Z.of_nat i)) j) (z + x * y)) m0) m1) as (m2 & E & A & F).
    - intros j j' _ _ Hj _ _ E. apply (at2_inj d cap3 cs2) in E; lia.
    - intros j m2 Hj HF2. rewrite row_at2.
      assert (HK : forall q, ~ inmat d cap3 cs1 cs2 q -> cell m2 q = cell m q).
      { intros q Hq. rewrite HF2.
        - apply (frame_in_rows m m1 d cap3 cs1 cs2 i); auto.
        - intros j' _ Hj' _ ->. apply Hq. exists i, j'. repeat split; auto; lia. }
      destruct (store_spec m2 (at2 d cap3 i j) s0) as (m3 & E3 & A3 & F3).
      { rewrite HF2.
        - pose proof (alloc_row m m1 d cap3 cs1 cs2 i Hc Ha Hi HF j Hj) as H. now rewrite row_at2 in H.
        - intros j' _ Hj' _ E. apply (at2_inj d cap3 cs2) in E; lia. }
      rewrite E3. cbn [bind].
      destruct (acc_cell m3 (at2 d cap3 i j) k
        (fun l m => x <- load m (padd (padd a1 (Z.of_nat i)) (l * cap1)) ;;
                    y <- load m (padd (padd a2 (Z.of_nat j)) (l * cap2)) ;; Ok (x * y))
        (fun l => x l i * y l j) s0 A3) as (m4 & E4 & A4 & F4).
      + intros l m' Hl HFl.
        assert (Q1 : cell m' (padd (padd a1 (Z.of_nat i)) (Z.of_nat l * cap1)) = Some (x l i)).
        { replace (padd (padd a1 (Z.of_nat i)) (Z.of_nat l * cap1)) with (at2 a1 cap1 l i)
            by (unfold at2; rewrite padd_padd; f_equal; lia).
          assert (N : ~ inmat d cap3 cs1 cs2 (at2 a1 cap1 l i)).
          { intros H. apply (D1 _ (ex_intro _ l (ex_intro _ i (conj Hl (conj Hi eq_refl)))) H). }
          assert (N2 : at2 a1 cap1 l i <> at2 d cap3 i j).
          { intros H. apply N. exists i, j; auto. }
          rewrite HFl, F3, HK; auto. }
        assert (Q2 : cell m' (padd (padd a2 (Z.of_nat j)) (Z.of_nat l * cap2)) = Some (y l j)).
        { replace (padd (padd a2 (Z.of_nat j)) (Z.of_nat l * cap2)) with (at2 a2 cap2 l j)
            by (unfold at2; rewrite padd_padd; f_equal; lia).
          assert (N : ~ inmat d cap3 cs1 cs2 (at2 a2 cap2 l j)).
          { intros H. apply (D2 _ (ex_intro _ l (ex_intro _ j (conj Hl (conj Hj eq_refl)))) H). }
          assert (N2 : at2 a2 cap2 l j <> at2 d cap3 i j).
          { intros H. apply N. exists i, j; auto. }
          rewrite HFl, F3, HK; auto. }
        rewrite (load_ok _ _ _ Q1). cbn. now rewrite (load_ok _ _ _ Q2).
      + exists m4. split; [|split].
        * rewrite <- E4. apply for_ext_bind. intros l st. cbn.
          destruct (load st (at2 d cap3 i j)); cbn; auto.
          rewrite bind_assoc. destruct (load st (padd (padd a1 (Z.of_nat i)) (l * cap1))); cbn; auto.
          rewrite bind_assoc. reflexivity.
        * intros _ _. rewrite A4. f_equal. rs. ring.
        * intros q Hq. specialize (Hq O ltac:(lia)). cbn in Hq. rewrite F4, F3; auto.
    - exists m2. split; auto. split.
      + intros j Hj. rewrite row_at2. apply (A j O); auto.
      + intros q Hq. apply F. intros j _ Hj _ ->. apply Hq. apply inrange_iff. exists j. rewrite row_at2. auto.
  Qed.
End RealKernels.

Section Dyads.
  Context {T : Type} {ST : Scalar T}.
  Implicit Types (m : mem T) (p q s d a v : ptr).

  Lemma dyadpass_ok m v1 (n1 : nat) v2 (n2 : nat) a cap f x y z :
    vecat m v1 n1 x -> vecat m v2 n2 y -> matat m a cap n1 n2 z -> (Z.of_nat n2 <= cap)%Z ->
    (forall q, inmat a cap n1 n2 q -> ~ inrange v1 n1 q /\ ~ inrange v2 n2 q) ->
    exists m', dyadpass m v1 (Z.of_nat n1) v2 (Z.of_nat n2) a cap f = Ok m' /\
      matat m' a cap n1 n2 (fun i j => f (z i j) (x i) (y j)) /\ mframe m m' a cap n1 n2.
  Proof.
    intros Hx Hy Hz Hc Hd. unfold dyadpass.
    apply (rows_ok n1 n2 a cap (fun i j => f (z i j) (x i) (y j))); auto. intros i m1 Hi HF.
    destruct (pass_ok n2 (row a cap (Z.of_nat i))
      (fun j m => z <- load m (padd (row a cap (Z.of_nat i)) j) ;; x <- load m (padd v1 (Z.of_nat i)) ;;
                  y <- load m (padd v2 j) ;; Ok (f z x y))
      (fun j => f (z i j) (x i) (y j)) m1) as (m2 & E & A & F).
    - eapply alloc_row; eauto. eapply matat_malloc; eauto.
    - intros j m2 Hj HF2.
      assert (Q0 : cell m2 (padd (row a cap (Z.of_nat i)) (Z.of_nat j)) = Some (z i j)).
      { rewrite HF2.
        - rewrite row_at2, HF; auto. intros (i' & j' & Hi' & Hj' & E). apply (at2_inj a cap n2) in E; auto; lia.
        - unfold inrange, padd; cbn; lia. }
      assert (K : forall q, (inrange v1 n1 q \/ inrange v2 n2 q) -> cell m2 q = cell m q).
      { intros q Hq.
        assert (N : ~ inmat a cap n1 n2 q). { intros H. destruct (Hd q H); tauto. }
        rewrite HF2.
        - apply HF. intros H. apply N. eapply inmat_mono; [|exact H]. lia.
        - intros H. apply N. apply (inmat_row a cap n1 n2 i); auto. unfold inrange in *. lia. }
      rewrite (load_ok _ _ _ Q0). cbn.
      rewrite (load_ok m2 (padd v1 (Z.of_nat i)) (x i)).
      2: { rewrite K; auto. left. apply inrange_iff; eauto. }
      cbn. rewrite (load_ok m2 (padd v2 (Z.of_nat j)) (y j)).
      2: { rewrite K; auto. right. apply inrange_iff; eauto. }
      reflexivity.
    - exists m2. split; [|split; auto]. rewrite <- E. unfold pass. apply for_ext_bind. intros j st. cbn.
      destruct (load st (padd (row a cap (Z.of_nat i)) j)); cbn; auto.
      rewrite bind_assoc. destruct (load st (padd v1 (Z.of_nat i))); cbn; auto.
      rewrite bind_assoc. reflexivity.
  Qed.
  Lemma zRawVecDyad_ok m v1 (n1 : nat) v2 (n2 : nat) a cap x y :
    vecat m v1 n1 x -> vecat m v2 n2 y -> mallocated m a cap n1 n2 -> (Z.of_nat n2 <= cap)%Z ->
    (forall q, inmat a cap n1 n2 q -> ~ inrange v1 n1 q /\ ~ inrange v2 n2 q) ->
    exists m', zRawVecDyad m v1 (Z.of_nat n1) v2 (Z.of_nat n2) a cap = Ok m' /\
      matat m' a cap n1 n2 (fun i j => smul (x i) (y j)) /\ mframe m m' a cap n1 n2.
  Proof.
    intros Hx Hy Ha Hc Hd. unfold zRawVecDyad.
    apply (rows_ok n1 n2 a cap (fun i j => smul (x i) (y j))); auto. intros i m1 Hi HF.
    destruct (pass_ok n2 (row a cap (Z.of_nat i))
      (fun j m => x <- load m (padd v1 (Z.of_nat i)) ;;
                  y <- load m (padd v2 j) ;; Ok (smul x y))
      (fun j => smul (x i) (y j)) m1) as (m2 & E & A & F).
    - eapply alloc_row; eauto.
    - intros j m2 Hj HF2.
      assert (K : forall q, (inrange v1 n1 q \/ inrange v2 n2 q) -> cell m2 q = cell m q).
      { intros q Hq.
        assert (N : ~ inmat a cap n1 n2 q). { intros H. destruct (Hd q H); tauto. }
        rewrite HF2.
        - apply HF. intros H. apply N. eapply inmat_mono; [|exact H]. lia.
        - intros H. apply N. apply (inmat_row a cap n1 n2 i); auto. unfold inrange in *. lia. }
      rewrite (load_ok m2 (padd v1 (Z.of_nat i)) (x i)).
      2: { rewrite K; auto. left. apply inrange_iff; eauto. }
      cbn. rewrite (load_ok m2 (padd v2 (Z.of_nat j)) (y j)).
      2: { rewrite K; auto. right. apply inrange_iff; eauto. }
      reflexivity.
    - exists m2. split; [|split; auto]. rewrite <- E. unfold pass. apply for_ext_bind. intros j st. cbn.
      rewrite bind_assoc. destruct (load st (padd v1 (Z.of_nat i))); cbn; auto.
      rewrite bind_assoc. reflexivity.
  Qed.
End Dyads.
