(** zVec / zMat: checked arithmetic, predicates, quadratic products, projections. *)
From Verif Require Import Prelude Prelude_Proofs Scalar RealLib Raw_Model Raw_Spec Raw_Proofs
  RawMat_Proofs RawReal_Proofs VecMat_Model VecMat_Spec VecMat_Proofs.

Lemma all_loop_ext n i f g : (forall k, i <= k < i + n -> f k = g k) -> all_loop n i f = all_loop n i g.
Proof.
  revert i; induction n as [|n IH]; intros i H; cbn; auto.
  rewrite H by lia. destruct (g i) as [[|]|]; cbn; auto. apply IH. intros; apply H; lia.
Qed.
Lemma allZ_ext n f g : (forall k, k < Z.to_nat n -> f (Z.of_nat k) = g (Z.of_nat k)) -> allZ n f = allZ n g.
Proof. intros H. apply all_loop_ext. intros; apply H; lia. Qed.
Lemma forZ_ext {St} n (f g : Z -> St -> res St) s :
  (forall k s, k < Z.to_nat n -> f (Z.of_nat k) s = g (Z.of_nat k) s) -> forZ n f s = forZ n g s.
Proof. intros H. apply for_ext. intros; apply H; lia. Qed.

Section Gen.
  Context {T : Type} {ST : Scalar T}.
  Implicit Types (m : mem T) (v w d : zVec) (A B D : zMat).

  Lemma vholds_ext m v (x y : nat -> T) : vholds m v x -> (forall i, i < vlen v -> x i = y i) -> vholds m v y.
  Proof. intros (H1 & H2) H. split; auto. intros i Hi. rewrite H2, H; auto. Qed.
  Lemma mholds_ext m A (x y : nat -> nat -> T) : mholds m A x ->
    (forall i j, i < mrows A -> j < mcols A -> x i j = y i j) -> mholds m A y.
  Proof. intros (H1 & H2 & H3) H. split; auto. split; auto. intros i j Hi Hj. rewrite H3, H; auto. Qed.
  Lemma vholds_frame m m' A v x : vholds m v x -> Mframe m m' A -> disj (vcells v) (mcells A) -> vholds m' v x.
  Proof.
    intros (H1 & H2) F D. split; auto. intros i Hi. rewrite F; auto. intros C. apply (D (padd (vbuf v) (Z.of_nat i))); auto.
    split; cbn; lia.
  Qed.
  Lemma Mframe_trans m m' m'' A : Mframe m m' A -> Mframe m' m'' A -> Mframe m m'' A.
  Proof. intros F1 F2 q Hq. now rewrite F2, F1. Qed.

  (** size-checked vector arithmetic *)
  Lemma vec_binary (f : T -> T -> T) m v w d x y :
    vholds m v x -> vholds m w y -> valloc m d -> fwd (vbuf v) (vbuf d) (vlen d) -> fwd (vbuf w) (vbuf d) (vlen d) ->
    let r := chk (vseq v w && vseq v d) (pass2 (vsize d) (vbuf v) (vbuf w) (vbuf d) f m) in
    (vsize v = vsize w /\ vsize v = vsize d ->
       exists m', r = Ok (Some m') /\ vholds m' d (fun i => f (x i) (y i)) /\ vframe m m' d) /\
    (~ (vsize v = vsize w /\ vsize v = vsize d) -> r = Ok None).
  Proof.
    intros (H0 & Hx) (H1 & Hy) (H2 & Ha) F1 F2 r. unfold r, vseq. split.
    - intros (E1 & E2). destruct (pass2_ok (vlen d) (vbuf v) (vbuf w) (vbuf d) f m x y) as (m' & E & A1 & FR); auto.
      + unfold vlen in *. now rewrite <- E2.
      + unfold vlen in *. now rewrite <- E2, E1.
      + unfold vlen in E. rewrite <- zn in E by lia. exists m'. split; [apply chk_ok; auto; lia|]. split; [split|]; auto.
    - intros N. apply chk_false. lia.
  Qed.
  Lemma vec_unary (b : bool) (f : T -> T) m v d x :
    vholds m v x -> valloc m d -> fwd (vbuf v) (vbuf d) (vlen d) ->
    let r := chk (vseq v d && b) (pass1 (vsize d) (vbuf v) (vbuf d) f m) in
    (vsize v = vsize d /\ b = true -> exists m', r = Ok (Some m') /\ vholds m' d (fun i => f (x i)) /\ vframe m m' d) /\
    (~ (vsize v = vsize d /\ b = true) -> r = Ok None).
  Proof.
    intros (H0 & Hx) (H2 & Ha) F1 r. unfold r, vseq. split.
    - intros (E2 & Eb). destruct (pass1_ok (vlen d) (vbuf v) (vbuf d) f m x) as (m' & E & A1 & FR); auto.
      + unfold vlen in *. now rewrite <- E2.
      + unfold vlen in E. rewrite <- zn in E by lia. exists m'. split; [apply chk_ok; auto; lia|]. split; [split|]; auto.
    - intros N. apply chk_false. destruct b; lia.
  Qed.
  Lemma mat_binary op (f : T -> T -> T) : matwise2 op f -> forall m A B D x y,
    mholds m A x -> mholds m B y -> malloc m D ->
    mrow A = mrow B /\ mcol A = mcol B /\ mrow A = mrow D /\ mcol A = mcol D ->
    same_or_disj A D -> same_or_disj B D ->
    exists m', op m (mbuf A) (mccap A) (mbuf B) (mccap B) (mbuf D) (mccap D) (mrow D) (mcol D) = Ok m' /\
      mholds m' D (fun i j => f (x i j) (y i j)) /\ Mframe m m' D.
  Proof.
    intros Hop m A B D x y (H1 & H2 & Hx) (H3 & H4 & Hy) (H5 & H6 & Ha) (E1 & E2 & E3 & E4) S1 S2.
    assert (mrows A = mrows D) as R1 by (unfold mrows; now rewrite E3).
    assert (mcols A = mcols D) as R2 by (unfold mcols; now rewrite E4).
    assert (mrows B = mrows D) as R3 by (unfold mrows; now rewrite <- E1, E3).
    assert (mcols B = mcols D) as R4 by (unfold mcols; now rewrite <- E2, E4).
    destruct (Hop m (mbuf A) (mccap A) (mbuf B) (mccap B) (mbuf D) (mccap D) (mrows D) (mcols D) x y) as (m' & E & A1 & F).
    - now rewrite <- R1, <- R2.
    - now rewrite <- R3, <- R4.
    - auto.
    - unfold mcols; lia.
    - unfold mcols; lia.
    - unfold mcols; lia.
    - destruct S1 as [S1|S1]; [left; auto|right]. unfold disj, mcells in S1. rewrite R1, R2 in S1. intros q Q1 Q2; eauto.
    - destruct S2 as [S2|S2]; [left; auto|right]. unfold disj, mcells in S2. rewrite R3, R4 in S2. intros q Q1 Q2; eauto.
    - unfold mrows, mcols in E. rewrite <- !zn in E by lia. exists m'. split; auto. split; [split|]; auto.
  Qed.
  Lemma mat_unary op (f : T -> T) : matwise1 op f -> forall m A D x,
    mholds m A x -> malloc m D -> mrow A = mrow D /\ mcol A = mcol D -> same_or_disj A D ->
    exists m', op m (mbuf A) (mccap A) (mbuf D) (mccap D) (mrow D) (mcol D) = Ok m' /\
      mholds m' D (fun i j => f (x i j)) /\ Mframe m m' D.
  Proof.
    intros Hop m A D x (H1 & H2 & Hx) (H5 & H6 & Ha) (E3 & E4) S1.
    assert (mrows A = mrows D) as R1 by (unfold mrows; now rewrite E3).
    assert (mcols A = mcols D) as R2 by (unfold mcols; now rewrite E4).
    destruct (Hop m (mbuf A) (mccap A) (mbuf D) (mccap D) (mrows D) (mcols D) x) as (m' & E & A1 & F).
    - now rewrite <- R1, <- R2.
    - auto.
    - unfold mcols; lia.
    - unfold mcols; lia.
    - destruct S1 as [S1|S1]; [left; auto|right]. unfold disj, mcells in S1. rewrite R1, R2 in S1. intros q Q1 Q2; eauto.
    - unfold mrows, mcols in E. rewrite <- !zn in E by lia. exists m'. split; auto. split; [split|]; auto.
  Qed.

  (** predicates *)
  Lemma allZ2_spec (rs cs : nat) f (g : nat -> nat -> bool) :
    (forall i j, i < rs -> j < cs -> f (Z.of_nat i) (Z.of_nat j) = Ok (g i j)) ->
    exists b, allZ (Z.of_nat rs) (fun i => allZ (Z.of_nat cs) (fun j => f i j)) = Ok b /\
      (b = true <-> forall i j, i < rs -> j < cs -> g i j = true).
  Proof.
    intros H.
    assert (forall i, exists b, i < rs -> allZ (Z.of_nat cs) (fun j => f (Z.of_nat i) j) = Ok b /\
               (b = true <-> forall j, j < cs -> g i j = true)) as HH.
    { intros i. destruct (Nat.lt_ge_cases i rs) as [Hi|Hi]; [|exists true; lia].
      destruct (allZ_spec cs (f (Z.of_nat i)) (g i)) as (b & E & Hb); [auto|]. exists b; auto. }
    assert (exists bs : nat -> bool, forall i, i < rs -> allZ (Z.of_nat cs) (fun j => f (Z.of_nat i) j) = Ok (bs i) /\
               (bs i = true <-> forall j, j < cs -> g i j = true)) as (bs & Hbs).
    { exists (fun i => match allZ (Z.of_nat cs) (fun j => f (Z.of_nat i) j) with Ok b => b | UB => true end).
      intros i Hi. destruct (HH i) as (b & Hb). destruct (Hb Hi) as (E & E'). now rewrite E. }
    destruct (allZ_spec rs (fun i => allZ (Z.of_nat cs) (fun j => f i j)) bs) as (b & E & Hb).
    { intros k Hk. apply Hbs; auto. }
    exists b. split; auto. rewrite Hb. split.
    - intros HA i j Hi Hj. apply (Hbs i Hi); auto.
    - intros HA k Hk. apply (Hbs k Hk). auto.
  Qed.
  Lemma zMatEqual_ok eq m A B x y : mholds m A x -> mholds m B y ->
    exists b, zMatEqual eq m A B = Ok b /\
      (b = true <-> mrow A = mrow B /\ mcol A = mcol B /\
         forall i j, i < mrows A -> j < mcols A -> eq (x i j) (y i j) = true).
  Proof.
    intros Hx Hy. unfold zMatEqual, mseq. destruct ((mrow A =? mrow B)%Z && (mcol A =? mcol B)%Z) eqn:E; cbn.
    - assert (mrows A = mrows B) as R1 by (unfold mrows; lia). assert (mcols A = mcols B) as R2 by (unfold mcols; lia).
      destruct (allZ2_spec (mrows A) (mcols A) (fun i j => x <- load m (mcell A i j) ;; y <- load m (mcell B i j) ;; Ok (eq x y))
                  (fun i j => eq (x i j) (y i j))) as (b & Eb & Hb).
      { intros i j Hi Hj. rewrite (mload m A x) by auto. cbn. rewrite (mload m B y) by (auto; congruence). reflexivity. }
      unfold mrows, mcols in Eb. destruct Hx as (? & ? & ?). rewrite <- !zn in Eb by lia.
      exists b. split; [exact Eb|]. rewrite Hb. intuition lia.
    - exists false. split; auto. intuition lia.
  Qed.
  Lemma zMatIsDiag_ok m A x tol : mholds m A x ->
    exists b, zMatIsDiag m A tol = Ok b /\
      (b = true <-> forall i j, i < mrows A -> j < mcols A -> i <> j -> is_tol tol (x i j) = true).
  Proof.
    intros Hx. unfold zMatIsDiag.
    destruct (allZ2_spec (mrows A) (mcols A) (fun i j => if (j =? i)%Z then Ok true else x <- load m (mcell A i j) ;; Ok (is_tol tol x))
                  (fun i j => (j =? i) || is_tol tol (x i j))) as (b & Eb & Hb).
    { intros i j Hi Hj. destruct (Z.eqb_spec (Z.of_nat j) (Z.of_nat i)) as [e|n].
      - apply Nat2Z.inj in e. subst. now rewrite Nat.eqb_refl.
      - rewrite (mload m A x) by auto. cbn. destruct (Nat.eqb_spec j i); [lia|]. reflexivity. }
    unfold mrows, mcols in Eb. destruct Hx as (? & ? & ?). rewrite <- !zn in Eb by lia.
    exists b. split; [exact Eb|]. rewrite Hb. split.
    - intros HA i j Hi Hj N. specialize (HA i j Hi Hj). destruct (Nat.eqb_spec j i); [lia|exact HA].
    - intros HA i j Hi Hj. destruct (Nat.eqb_spec j i); [reflexivity|]. cbn. auto.
  Qed.
  Lemma zMatIsIdent_ok eq m A x tol : mholds m A x ->
    exists b, zMatIsIdent eq m A tol = Ok b /\
      (b = true <-> forall i j, i < mrows A -> j < mcols A ->
                      (if i =? j then eq (x i j) s1 else is_tol tol (x i j)) = true).
  Proof.
    intros Hx. unfold zMatIsIdent.
    destruct (allZ2_spec (mrows A) (mcols A) (fun i j => x <- load m (mcell A i j) ;; if (j =? i)%Z then Ok (eq x s1) else Ok (is_tol tol x))
                  (fun i j => if i =? j then eq (x i j) s1 else is_tol tol (x i j))) as (b & Eb & Hb).
    { intros i j Hi Hj. rewrite (mload m A x) by auto. cbn.
      destruct (Z.eqb_spec (Z.of_nat j) (Z.of_nat i)), (Nat.eqb_spec i j); auto; lia. }
    unfold mrows, mcols in Eb. destruct Hx as (? & ? & ?). rewrite <- !zn in Eb by lia.
    exists b. split; [exact Eb|]. exact Hb.
  Qed.
  Lemma zMatIsSymmetric_ok m A x : mholds m A x ->
    exists b, zMatIsSymmetric m A = Ok b /\
      (b = true <-> mrow A = mcol A /\ forall i j, i < j < mrows A -> seq (x i j) (x j i) = true).
  Proof.
    intros Hx. unfold zMatIsSymmetric, msqr. destruct (Z.eqb_spec (mrow A) (mcol A)) as [E|N]; cbn.
    - assert (mrows A = mcols A) as R1 by (unfold mrows, mcols; lia). pose proof Hx as (H1 & H2 & H3).
      set (f := fun i k => let j := (i + 1 + k)%Z in x <- load m (mcell A i j) ;; y <- load m (mcell A j i) ;; Ok (seq x y)).
      assert (exists bs : nat -> bool, forall i, i < mrows A -> allZ (mrow A - (Z.of_nat i + 1)) (f (Z.of_nat i)) = Ok (bs i) /\
               (bs i = true <-> forall j, i < j < mrows A -> seq (x i j) (x j i) = true)) as (bs & Hbs).
      { exists (fun i => match allZ (mrow A - (Z.of_nat i + 1)) (f (Z.of_nat i)) with Ok b => b | UB => true end).
        intros i Hi.
        destruct (allZ_spec (mrows A - S i) (f (Z.of_nat i)) (fun k => seq (x i (S i + k)) (x (S i + k) i))) as (b & Eb & Hb).
        { intros k Hk. unfold f. replace (Z.of_nat i + 1 + Z.of_nat k)%Z with (Z.of_nat (S i + k)) by lia.
          rewrite (mload m A x) by (auto; lia). cbn [bind]. rewrite (mload m A x) by (auto; lia). reflexivity. }
        replace (mrow A - (Z.of_nat i + 1))%Z with (Z.of_nat (mrows A - S i)) by (unfold mrows in *; lia).
        rewrite Eb. split; auto. rewrite Hb. split.
        - intros HA j Hj. replace j with (S i + (j - S i)) by lia. apply HA. lia.
        - intros HA k Hk. apply HA. lia. }
      destruct (allZ_spec (mrows A) (fun i => allZ (mrow A - (i + 1)) (f i)) bs) as (b & Eb & Hb).
      { intros k Hk. apply Hbs; auto. }
      unfold mrows in Eb. rewrite <- zn in Eb by lia. exists b. split; [exact Eb|]. rewrite Hb. split.
      + intros HA. split; auto. intros i j Hij. apply (Hbs i); auto; [lia|]. apply HA; lia.
      + intros (_ & HA) k Hk. apply (Hbs k Hk). auto.
    - exists false. split; auto. intuition congruence.
  Qed.

  (** Independence of everything but the logical elements *)
  Lemma load_row m A x (i : nat) : mholds m A x -> i < mrows A ->
    vecat m (row (mbuf A) (mccap A) (Z.of_nat i)) (mcols A) (x i).
  Proof.
    intros (H1 & H2 & H3) Hi j Hj. rewrite <- (H3 i j Hi Hj). unfold row, at2. rewrite padd_padd. reflexivity.
  Qed.
  Lemma reader_sqrnorm m A m' A' x : mholds m A x -> mholds m' A' x -> mrow A = mrow A' -> mcol A = mcol A' ->
    zMatSqrNorm m A = zMatSqrNorm m' A'.
  Proof.
    intros Hx Hy E1 E2. unfold zMatSqrNorm, zRawMatSqrNorm. rewrite E1, E2. apply forZ_ext. intros i s Hi. f_equal.
    unfold zRawVecSqrNorm, zRawVecInnerProd, comp_sum. f_equal. apply forZ_ext. intros k s' Hk.
    rewrite (load_ok m _ (x i k)), (load_ok m' _ (x i k)); auto.
    - apply (load_row m' A' x i Hy Hi k Hk).
    - apply (load_row m A x i Hx); [unfold mrows; now rewrite E1|unfold mcols; now rewrite E2].
  Qed.
  Lemma reader_trace m A m' A' x : mholds m A x -> mholds m' A' x -> mrow A = mrow A' -> mcol A = mcol A' ->
    zMatTrace m A = zMatTrace m' A'.
  Proof.
    intros Hx Hy E1 E2. unfold zMatTrace, msqr. rewrite E1, E2. destruct (negb _); auto.
    unfold zRawMatTrace, comp_sum. f_equal. apply forZ_ext. intros k s' Hk. f_equal.
    assert (forall A, padd (mbuf A) (Z.of_nat k * (mccap A + 1)) = mcell A (Z.of_nat k) (Z.of_nat k)) as EQ.
    { intros. unfold mcell. f_equal. lia. }
    rewrite !EQ, (mload m A x), (mload m' A' x); auto; unfold mrows, mcols; lia.
  Qed.
  Lemma reader_istol tol m A m' A' x : mholds m A x -> mholds m' A' x -> mrow A = mrow A' -> mcol A = mcol A' ->
    zMatIsTol m A tol = zMatIsTol m' A' tol.
  Proof.
    intros Hx Hy E1 E2. unfold zMatIsTol, zRawMatIsTol. rewrite E1, E2. apply allZ_ext. intros i Hi.
    apply allZ_ext. intros k Hk. rewrite (load_ok m _ (x i k)), (load_ok m' _ (x i k)); auto.
    - apply (load_row m' A' x i Hy Hi k Hk).
    - apply (load_row m A x i Hx); [unfold mrows; now rewrite E1|unfold mcols; now rewrite E2].
  Qed.
  Lemma reader_isdiag tol m A m' A' x : mholds m A x -> mholds m' A' x -> mrow A = mrow A' -> mcol A = mcol A' ->
    zMatIsDiag m A tol = zMatIsDiag m' A' tol.
  Proof.
    intros Hx Hy E1 E2. unfold zMatIsDiag. rewrite E1, E2. apply allZ_ext. intros i Hi.
    apply allZ_ext. intros k Hk. rewrite (mload m A x), (mload m' A' x); auto; unfold mrows, mcols; lia.
  Qed.
  Lemma reader_isident eq tol m A m' A' x : mholds m A x -> mholds m' A' x -> mrow A = mrow A' -> mcol A = mcol A' ->
    zMatIsIdent eq m A tol = zMatIsIdent eq m' A' tol.
  Proof.
    intros Hx Hy E1 E2. unfold zMatIsIdent. rewrite E1, E2. apply allZ_ext. intros i Hi.
    apply allZ_ext. intros k Hk. rewrite (mload m A x), (mload m' A' x); auto; unfold mrows, mcols; lia.
  Qed.
  Lemma reader_issym m A m' A' x : mholds m A x -> mholds m' A' x -> mrow A = mrow A' -> mcol A = mcol A' ->
    zMatIsSymmetric m A = zMatIsSymmetric m' A'.
  Proof.
    intros Hx Hy E1 E2. unfold zMatIsSymmetric, msqr. rewrite E1, E2.
    destruct (Z.eqb_spec (mrow A') (mcol A')); cbn; auto. apply allZ_ext. intros i Hi.
    apply allZ_ext. intros k Hk. replace (Z.of_nat i + 1 + Z.of_nat k)%Z with (Z.of_nat (S i + k)) by lia.
    rewrite !(mload m A x), !(mload m' A' x); auto; unfold mrows, mcols; lia.
  Qed.
  Lemma reader_elem m A m' A' x r c : mholds m A x -> mholds m' A' x -> mrow A = mrow A' -> mcol A = mcol A' ->
    zMatElem m A r c = zMatElem m' A' r c.
  Proof. intros Hx Hy E1 E2. rewrite (zMatElem_ok m A x), (zMatElem_ok m' A' x), E1, E2; auto. Qed.

  (** infinity norm *)
  Definition infnorm (rs cs : nat) (x : nat -> nat -> T) : T :=
    fold_left (fun mx i => let s := fold_left (fun s j => sadd s (sabs (x i j))) (List.seq 0 cs) s0 in
                           if slt mx s then s else mx) (List.seq 0 rs) s0.
  Lemma zMatInfNorm_ok m A x : mholds m A x -> mccap A = mcol A ->
    zMatInfNorm m A = Ok (infnorm (mrows A) (mcols A) x).
  Proof.
    intros Hx E. pose proof Hx as (H1 & H2 & H3). unfold zMatInfNorm.
    rewrite (zn (mrow A)) by lia. fold (mrows A).
    destruct (forZ_inv (fun k (st : Z * T) => st = ((Z.of_nat k * mcol A)%Z,
        fold_left (fun mx i => let s := fold_left (fun s j => sadd s (sabs (x i j))) (List.seq 0 (mcols A)) s0 in
                           if slt mx s then s else mx) (List.seq 0 k) s0)) (mrows A)
      (fun _ st => '(k, s) <- forZ (mcol A) (fun _ st =>
            x <- load m (padd (mbuf A) (fst st)) ;; Ok ((fst st + 1)%Z, sadd (snd st) (sabs x))) (fst st, s0) ;;
        Ok (k, if slt (snd st) s then s else snd st)) (0%Z, s0)) as (st & E1 & ->).
    - reflexivity.
    - intros k st Hk ->. cbn [fst snd].
      destruct (forZ_inv (fun j (st : Z * T) => st = ((Z.of_nat k * mcol A + Z.of_nat j)%Z,
                fold_left (fun s j => sadd s (sabs (x k j))) (List.seq 0 j) s0)) (mcols A)
         (fun _ st => x <- load m (padd (mbuf A) (fst st)) ;; Ok ((fst st + 1)%Z, sadd (snd st) (sabs x)))
         ((Z.of_nat k * mcol A)%Z, s0)) as (st & E1 & ->).
      + cbn. f_equal. lia.
      + intros j st Hj ->. cbn [fst snd].
        replace (padd (mbuf A) (Z.of_nat k * mcol A + Z.of_nat j)) with (mcell A (Z.of_nat k) (Z.of_nat j))
          by (unfold mcell; rewrite E; reflexivity).
        rewrite (mload m A x) by auto. cbn [bind]. eexists; split; [reflexivity|].
        rewrite seq_S, fold_left_app. cbn. f_equal. lia.
      + unfold mcols in E1 at 1. rewrite <- zn in E1 by lia. rewrite E1. cbn [bind]. eexists; split; [reflexivity|].
        rewrite seq_S, fold_left_app. cbn [fold_left]. f_equal. unfold mcols. lia.
    - rewrite E1. reflexivity.
  Qed.
End Gen.

Local Open Scope R_scope.
Section Quad.
  Implicit Types (m : mem R) (A B D Q : zMat).

  Lemma mholds_frame m m' A B x : mholds m A x -> Mframe m m' B -> disj (mcells A) (mcells B) -> mholds m' A x.
  Proof.
    intros (H1 & H2 & H3) F Dj. split; auto. split; auto. intros i j Hi Hj. rewrite F; auto.
    intros C. apply (Dj (at2 (mbuf A) (mccap A) i j)); auto. exists i, j; auto.
  Qed.

  Lemma zMatZero_ok m A : malloc m A ->
    exists m', zMatZero m A = Ok m' /\ mholds m' A (fun _ _ => 0) /\ Mframe m m' A.
  Proof.
    intros (H1 & H2 & H3). unfold zMatZero.
    destruct (zRawMatZero_ok m (mbuf A) (mccap A) (mrows A) (mcols A)) as (m' & E & A1 & F); auto; [unfold mcols; lia|].
    unfold mrows, mcols in E. rewrite <- !zn in E by lia. exists m'. split; auto. split; [split|]; auto.
  Qed.
  Lemma addcell_ok m A x (i j : nat) e : mholds m A x -> (i < mrows A)%nat -> (j < mcols A)%nat ->
    exists m', addcell m (mcell A (Z.of_nat i) (Z.of_nat j)) e = Ok m' /\
      mholds m' A (fun a b => if (a =? i)%nat && (b =? j)%nat then x i j + e else x a b) /\ Mframe m m' A.
  Proof.
    intros Hx Hi Hj. unfold addcell. rewrite (mload m A x) by auto. cbn [bind].
    destruct (mstore m A x i j (x i j + e)) as (m' & E & A1 & F); auto. exists m'. auto.
  Qed.

  Lemma quadNC_ok m Q (n l : nat) el (a : nat -> nat -> R) (ow : option zVec) wf :
    malloc m Q -> mrow Q = Z.of_nat n -> mcol Q = Z.of_nat n ->
    (forall k i, (k < l)%nat -> (i < n)%nat -> cell m (el (Z.of_nat k) (Z.of_nat i)) = Some (a i k) /\
                 ~ mcells Q (el (Z.of_nat k) (Z.of_nat i))) ->
    match ow with Some w => vholds m w wf /\ vlen w = l /\ disj (vcells w) (mcells Q) | None => forall k, wf k = 1 end ->
    exists m', quadNC m Q (Z.of_nat n) (Z.of_nat l) el ow = Ok m' /\
      mholds m' Q (fun i j => rsum l (fun k => wf k * a i k * a j k)) /\ Mframe m m' Q.
  Proof.
    intros HQ ER EC Hel Hw. unfold quadNC.
    assert (mrows Q = n) as RN by (unfold mrows; lia). assert (mcols Q = n) as CN by (unfold mcols; lia).
    destruct (zMatZero_ok m Q HQ) as (m0 & E0 & Z0 & F0). rewrite E0. cbn [bind].
    set (G := fun (i j : nat) (k : nat) => wf k * a i k * a j k).
    assert (forall m' k i, Mframe m m' Q -> (k < l)%nat -> (i < n)%nat -> load m' (el (Z.of_nat k) (Z.of_nat i)) = Ok (a i k)) as LD.
    { intros m' k i HF Hk Hi. apply load_ok. destruct (Hel k i Hk Hi) as (C1 & C2). rewrite HF; auto. }
    match goal with |- context [forZ (Z.of_nat l) ?f m0] =>
      destruct (forZ_inv (fun k m' => mholds m' Q (fun i j => if (i <=? j)%nat then rsum k (G i j) else 0) /\ Mframe m m' Q) l f m0)
        as (m1 & E1 & H1 & F1) end.
    { split; auto. eapply mholds_ext; [exact Z0|]. intros i j _ _. destruct (i <=? j)%nat; reflexivity. }
    { intros k mk Hk (Hm & Fk).
      match goal with |- context [forZ (Z.of_nat n) ?f mk] =>
        destruct (forZ_inv (fun i m' => mholds m' Q (fun p q => if (p <=? q)%nat then
             rsum (if (p <? i)%nat then S k else k) (G p q) else 0) /\ Mframe m m' Q) n f mk) as (m1 & E1 & H1 & F1) end.
      { split; auto. }
      { intros i mi Hi (Hmi & Fi). rewrite (LD mi k i Fi Hk Hi). cbn [bind].
        assert ((match ow with Some w => x <- zVecElem mi w (Z.of_nat k) ;; Ok (smul x (a i k)) | None => Ok (a i k) end)
                = Ok (wf k * a i k)) as EW.
        { destruct ow as [w|].
          - destruct Hw as (Hw & Hlen & Hdis). rewrite (zVecElem_ok mi w wf).
            + pose proof Hw as (HH & _). unfold vlen in Hlen.
              replace ((0 <=? Z.of_nat k)%Z && (Z.of_nat k <? vsize w)%Z) with true by lia. rewrite Nat2Z.id. reflexivity.
            + eapply vholds_frame; eauto.
          - rewrite Hw. f_equal. ring. }
        rewrite EW. cbn [bind].
        replace (Z.of_nat n - Z.of_nat i)%Z with (Z.of_nat (n - i)) by lia.
        match goal with |- context [forZ (Z.of_nat (n - i)) ?f mi] =>
          destruct (forZ_inv (fun d m' => mholds m' Q (fun p q => if (p <=? q)%nat then
             rsum (if (p <? i)%nat || (p =? i)%nat && (q <? i + d)%nat then S k else k) (G p q) else 0) /\ Mframe m m' Q) (n - i) f mi)
            as (m1 & E1 & H1 & F1) end.
        { split; auto. eapply mholds_ext; [exact Hmi|]. intros p q _ _. cbn beta.
          destruct (Nat.leb_spec p q); auto.
          destruct (Nat.ltb_spec p i), (Nat.eqb_spec p i), (Nat.ltb_spec q (i + 0)); cbn [orb andb]; auto; lia. }
        { intros d md Hd (Hmd & Fd). replace (Z.of_nat i + Z.of_nat d)%Z with (Z.of_nat (i + d)) by lia.
          rewrite (LD md k (i + d)%nat Fd Hk) by lia. cbn [bind].
          destruct (addcell_ok md Q _ i (i + d) (wf k * a i k * a (i + d)%nat k) Hmd) as (m2 & E2 & H2 & F2); try lia.
          exists m2. split; [exact E2|]. split; [|eapply Mframe_trans; eauto].
          eapply mholds_ext; [exact H2|]. intros p q Hp Hq. cbn beta.
          destruct (Nat.eqb_spec p i) as [->|N]; cbn [andb].
          - destruct (Nat.eqb_spec q (i + d)) as [->|N].
            + replace (i <=? i + d)%nat with true by lia. rewrite Nat.ltb_irrefl, ?Nat.eqb_refl. cbn [orb andb].
              replace (i + d <? i + d)%nat with false by lia. replace (i + d <? i + S d)%nat with true by lia.
              cbn [rsum]. reflexivity.
            + destruct (Nat.leb_spec i q); auto. rewrite Nat.ltb_irrefl, ?Nat.eqb_refl. cbn [orb andb].
              replace (q <? i + S d)%nat with (q <? i + d)%nat; auto. destruct (Nat.ltb_spec q (i+d)), (Nat.ltb_spec q (i + S d)); auto; lia.
          - rewrite !orb_false_r. reflexivity. }
        exists m1. split; [exact E1|]. split; auto. eapply mholds_ext; [exact H1|]. intros p q Hp Hq. cbn beta.
        destruct (Nat.leb_spec p q); auto.
        destruct (Nat.ltb_spec p i), (Nat.eqb_spec p i), (Nat.ltb_spec q (i + (n - i))), (Nat.ltb_spec p (S i)); cbn [orb andb]; auto; lia. }
      exists m1. split; [exact E1|]. split; auto. eapply mholds_ext; [exact H1|]. intros p q Hp Hq. cbn beta.
      replace (p <? n)%nat with true by lia. reflexivity. }
    rewrite E1. cbn [bind].
    (* mirror *)
    set (S1 := fun i j => rsum l (G i j)).
    assert (forall i j, S1 i j = S1 j i) as SYM.
    { intros. apply rsum_ext. intros. unfold G. ring. }
    match goal with |- context [forZ (Z.of_nat n) ?f m1] =>
      destruct (forZ_inv (fun i m' => mholds m' Q (fun p q => if (p <=? q)%nat || (q <? i)%nat then S1 p q else 0) /\ Mframe m m' Q) n f m1)
        as (m2 & E2 & H2 & F2) end.
    { split; auto. eapply mholds_ext; [exact H1|]. intros p q _ _. cbn beta. rewrite orb_false_r. reflexivity. }
    { intros i mi Hi (Hmi & Fi). replace (Z.of_nat n - Z.of_nat i)%Z with (Z.of_nat (n - i)) by lia.
      match goal with |- context [forZ (Z.of_nat (n - i)) ?f mi] =>
        destruct (forZ_inv (fun d m' => mholds m' Q (fun p q =>
            if (p <=? q)%nat || (q <? i)%nat || ((q =? i)%nat && (p <? i + d)%nat) then S1 p q else 0) /\ Mframe m m' Q) (n - i) f mi)
          as (m2 & E2 & H2 & F2) end.
      { split; auto. eapply mholds_ext; [exact Hmi|]. intros p q _ _. cbn beta.
        destruct (Nat.leb_spec p q), (Nat.ltb_spec q i), (Nat.eqb_spec q i), (Nat.ltb_spec p (i + 0)); cbn [orb andb]; auto; lia. }
      { intros d md Hd (Hmd & Fd). replace (Z.of_nat i + Z.of_nat d)%Z with (Z.of_nat (i + d)) by lia.
        rewrite (mload md Q _ i (i + d) Hmd) by lia. cbn [bind]. replace (i <=? i + d)%nat with true by lia. cbn [orb].
        destruct (mstore md Q _ (i + d) i (S1 i (i + d)%nat) Hmd) as (m2 & E2 & H2 & F2); try lia.
        exists m2. split; [exact E2|]. split; [|eapply Mframe_trans; eauto].
        eapply mholds_ext; [exact H2|]. intros p q Hp Hq. cbn beta.
        destruct (Nat.eqb_spec p (i + d)) as [->|N]; cbn [andb].
        - destruct (Nat.eqb_spec q i) as [->|N].
          + replace (i + d <? i + S d)%nat with true by lia. cbn [andb]. rewrite orb_true_r. apply SYM.
          + cbn [andb]. reflexivity.
        - destruct (Nat.leb_spec p q), (Nat.ltb_spec q i), (Nat.eqb_spec q i), (Nat.ltb_spec p (i + d)), (Nat.ltb_spec p (i + S d));
            cbn [orb andb]; auto; lia. }
      exists m2. split; [exact E2|]. split; auto. eapply mholds_ext; [exact H2|]. intros p q Hp Hq. cbn beta.
      destruct (Nat.leb_spec p q), (Nat.ltb_spec q i), (Nat.eqb_spec q i), (Nat.ltb_spec p (i + (n - i))), (Nat.ltb_spec q (S i)); cbn [orb andb]; auto; lia. }
    exists m2. split; [exact E2|]. split; auto. eapply mholds_ext; [exact H2|]. intros p q Hp Hq. cbn beta.
    replace (q <? n)%nat with true by lia. rewrite orb_true_r. reflexivity.
  Qed.

  Lemma mulQ_ok m Q D (n r : nat) el (a qf : nat -> nat -> R) :
    malloc m D -> mrow D = Z.of_nat n -> mcol D = Z.of_nat n -> mrow Q = Z.of_nat r -> mcol Q = Z.of_nat r ->
    mholds m Q qf -> disj (mcells Q) (mcells D) ->
    (forall i j, (i < n)%nat -> (j < r)%nat -> cell m (el (Z.of_nat i) (Z.of_nat j)) = Some (a i j) /\
                 ~ mcells D (el (Z.of_nat i) (Z.of_nat j))) ->
    exists m', mulQ m Q D (Z.of_nat n) el = Ok m' /\
      mholds m' D (fun k j => rsum r (fun i => a k i * rsum r (fun l => qf i l * a j l))) /\ Mframe m m' D.
  Proof.
    intros HD ER EC QR QC HQ Hdis Hel. unfold mulQ. rewrite QR, QC.
    assert (mrows D = n) as RN by (unfold mrows; lia). assert (mcols D = n) as CN by (unfold mcols; lia).
    assert (mrows Q = r) as QRN by (unfold mrows; lia). assert (mcols Q = r) as QCN by (unfold mcols; lia).
    destruct (zMatZero_ok m D HD) as (m0 & E0 & Z0 & F0). rewrite E0. cbn [bind].
    assert (forall m' k i, Mframe m m' D -> (k < n)%nat -> (i < r)%nat -> load m' (el (Z.of_nat k) (Z.of_nat i)) = Ok (a k i)) as LD.
    { intros m' k i HF Hk Hi. apply load_ok. destruct (Hel k i Hk Hi) as (C1 & C2). rewrite HF; auto. }
    set (G := fun (k j : nat) (i : nat) => a k i * rsum r (fun l => qf i l * a j l)).
    match goal with |- context [forZ (Z.of_nat r) ?f m0] =>
      destruct (forZ_inv (fun i m' => mholds m' D (fun k j => rsum i (G k j)) /\ Mframe m m' D) r f m0)
        as (m1 & E1 & H1 & F1) end.
    { split; auto. }
    { intros i mi Hi (Hmi & Fi).
      match goal with |- context [forZ (Z.of_nat n) ?f mi] =>
        destruct (forZ_inv (fun j m' => mholds m' D (fun p q => rsum (if (q <? j)%nat then S i else i) (G p q)) /\ Mframe m m' D) n f mi)
          as (m1 & E1 & H1 & F1) end.
      { split; auto. }
      { intros j mj Hj (Hmj & Fj).
        assert (forZ (Z.of_nat r) (fun k y => a <- load mj (mcell Q (Z.of_nat i) k) ;; b <- load mj (el (Z.of_nat j) k) ;; Ok (sadd y (smul a b))) s0
                = Ok (rsum r (fun l => qf i l * a j l))) as EY.
        { destruct (forZ_inv (fun k y => y = rsum k (fun l => qf i l * a j l)) r
             (fun k y => a <- load mj (mcell Q (Z.of_nat i) k) ;; b <- load mj (el (Z.of_nat j) k) ;; Ok (sadd y (smul a b))) s0) as (y & Ey & ->); auto.
          intros k y Hk ->. rewrite (mload mj Q qf) by (try lia; eapply mholds_frame; eauto). cbn [bind].
          rewrite (LD mj j k) by auto. cbn [bind]. eauto. }
        rewrite EY. cbn [bind].
        match goal with |- context [forZ (Z.of_nat n) ?f mj] =>
          destruct (forZ_inv (fun k m' => mholds m' D (fun p q => rsum (if (q <? j)%nat || (q =? j)%nat && (p <? k)%nat then S i else i) (G p q)) /\ Mframe m m' D) n f mj)
            as (m1 & E1 & H1 & F1) end.
        { split; auto. eapply mholds_ext; [exact Hmj|]. intros p q _ _. cbn beta. cbn [Nat.ltb]. 
          replace (p <? 0)%nat with false by lia. rewrite andb_false_r, orb_false_r. reflexivity. }
        { intros k mk Hk (Hmk & Fk). rewrite (LD mk k i) by auto. cbn [bind].
          destruct (addcell_ok mk D _ k j (a k i * rsum r (fun l => qf i l * a j l)) Hmk) as (m2 & E2 & H2 & F2); try lia.
          exists m2. split; [exact E2|]. split; [|eapply Mframe_trans; eauto].
          eapply mholds_ext; [exact H2|]. intros p q Hp Hq. cbn beta.
          destruct (Nat.eqb_spec p k) as [->|N]; cbn [andb].
          - destruct (Nat.eqb_spec q j) as [->|N].
            + rewrite !Nat.ltb_irrefl, !Nat.eqb_refl. cbn [orb andb]. replace (k <? S k)%nat with true by lia. cbn [rsum]. reflexivity.
            + cbn [andb]. reflexivity.
          - replace (p <? S k)%nat with (p <? k)%nat; auto. destruct (Nat.ltb_spec p k), (Nat.ltb_spec p (S k)); auto; lia. }
        exists m1. split; [exact E1|]. split; auto. eapply mholds_ext; [exact H1|]. intros p q Hp Hq. cbn beta.
        destruct (Nat.ltb_spec q j), (Nat.eqb_spec q j), (Nat.ltb_spec p n), (Nat.ltb_spec q (S j)); cbn [orb andb]; auto; lia. }
      exists m1. split; [exact E1|]. split; auto. eapply mholds_ext; [exact H1|]. intros p q Hp Hq. cbn beta.
      replace (q <? n)%nat with true by lia. reflexivity. }
    exists m1. split; [exact E1|]. split; auto.
  Qed.
End Quad.
