(** zVec / zMat: checked products, products through a temporary, projections. *)
From Verif Require Import Prelude Prelude_Proofs Scalar RealLib Raw_Model Raw_Spec Raw_Proofs
  RawMat_Proofs RawReal_Proofs VecMat_Model VecMat_Spec VecMat_Proofs VecMat2_Proofs.
Local Open Scope R_scope.
Implicit Types (m : mem R) (A B D Q : zMat).

Lemma zMulMatVec_ok m A v d x y : mholds m A x -> vholds m v y -> valloc m d ->
  mcol A = vsize v -> mrow A = vsize d -> disj (mcells A) (vcells d) -> disj (vcells v) (vcells d) ->
  exists m', zMulMatVec m A v d = Ok (Some m') /\
    vholds m' d (fun i => rsum (mcols A) (fun j => x i j * y j)) /\ vframe m m' d.
Proof.
  intros (H1 & H2 & Hx) (H3 & Hy) (H4 & Ha) E1 E2 D1 D2. unfold zMulMatVec.
  destruct (zRawMulMatVec_R m (mbuf A) (mccap A) (vbuf v) (mrows A) (mcols A) (vbuf d) x y) as (m' & E & A1 & F); auto.
  - unfold mcols. now rewrite E1.
  - unfold mrows. now rewrite E2.
  - unfold disj, mcells, vcells in *.
    assert (mrows A = vlen d) as L1 by (unfold mrows, vlen; lia). assert (mcols A = vlen v) as L2 by (unfold mcols, vlen; lia).
    intros q Hq. rewrite L1 in Hq. split; intros C; [eapply D1; eauto|]. rewrite L2 in C. eapply D2; eauto.
  - unfold mrows, mcols in E. rewrite <- !zn in E by lia. exists m'. split; [apply chk_ok; auto; lia|].
    assert (mrows A = vlen d) as L1 by (unfold mrows, vlen; lia). rewrite L1 in *. split; [split|]; auto.
Qed.
Lemma zMulMatTVec_ok m A v d x y : mholds m A x -> vholds m v y -> valloc m d ->
  mrow A = vsize v -> mcol A = vsize d -> disj (mcells A) (vcells d) -> disj (vcells v) (vcells d) ->
  exists m', zMulMatTVec m A v d = Ok (Some m') /\
    vholds m' d (fun j => rsum (mrows A) (fun i => x i j * y i)) /\ vframe m m' d.
Proof.
  intros (H1 & H2 & Hx) (H3 & Hy) (H4 & Ha) E1 E2 D1 D2. unfold zMulMatTVec.
  assert (mcols A = vlen d) as L1 by (unfold mcols, vlen; lia). assert (mrows A = vlen v) as L2 by (unfold mrows, vlen; lia).
  destruct (zRawMulMatTVec_R m (mbuf A) (mccap A) (vbuf v) (mrows A) (mcols A) (vbuf d) x y) as (m' & E & A1 & F); auto.
  - now rewrite L2.
  - now rewrite L1.
  - unfold disj, mcells, vcells in *.
    intros q Hq. rewrite L1 in Hq. split; intros C; [eapply D1; eauto|]. rewrite L2 in C. eapply D2; eauto.
  - unfold mrows, mcols in E. rewrite <- !zn in E by lia. exists m'. split; [apply chk_ok; auto; lia|].
    rewrite L1 in *. split; [split|]; auto.
Qed.
Lemma zMulMatVec_null m A v d : mcol A <> vsize v \/ mrow A <> vsize d -> zMulMatVec m A v d = Ok None.
Proof. intros H. apply chk_false. lia. Qed.
Lemma zMulMatTVec_null m A v d : mrow A <> vsize v \/ mcol A <> vsize d -> zMulMatTVec m A v d = Ok None.
Proof. intros H. apply chk_false. lia. Qed.

(** Temporaries *)
Lemma cell_alloc_other m b n q : fst q <> b -> cell (alloc m b n) q = cell m q.
Proof. intros H. unfold cell, alloc. destruct (Nat.eqb_spec (fst q) b); [contradiction|reflexivity]. Qed.
Lemma cell_free_other m b q : fst q <> b -> cell (free m b) q = cell m q.
Proof. intros H. unfold cell, free. destruct (Nat.eqb_spec (fst q) b); [contradiction|reflexivity]. Qed.
Lemma cell_fresh m b q : m b = [] -> fst q = b -> cell m q = None.
Proof. intros H <-. unfold cell. rewrite H. destruct (snd q <? 0)%Z; auto. now destruct (Z.to_nat (snd q)). Qed.
Lemma cell_free_same m b q : fst q = b -> cell (free m b) q = None.
Proof. intros E. apply (cell_fresh _ b); auto. unfold free. now rewrite Nat.eqb_refl. Qed.
Lemma alloc_tmp m b n : (0 <= n)%Z -> vholds (alloc m b n) (MkVec (b, 0%Z) n) (fun _ => 0).
Proof.
  intros H. split; [exact H|]. intros i Hi. unfold vlen in Hi; cbn in Hi. unfold cell, alloc, padd; cbn [fst snd vbuf].
  replace (0 + Z.of_nat i <? 0)%Z with false by lia. rewrite Nat.eqb_refl.
  rewrite nth_error_repeat by lia. reflexivity.
Qed.
Lemma vholds_block m m' v x b : vholds m v x -> m b = [] -> (forall q, fst q <> b -> cell m' q = cell m q) -> vholds m' v x.
Proof.
  intros (H1 & H2) Hb F. split; auto. intros i Hi. rewrite F; auto. intros E.
  specialize (H2 i Hi). rewrite (cell_fresh m b) in H2; auto. discriminate.
Qed.
Lemma mholds_block m m' A x b : mholds m A x -> m b = [] -> (forall q, fst q <> b -> cell m' q = cell m q) -> mholds m' A x.
Proof.
  intros (H1 & H2 & H3) Hb F. split; auto. split; auto. intros i j Hi Hj. rewrite F; auto. intros E.
  specialize (H3 i j Hi Hj). rewrite (cell_fresh m b) in H3; auto. discriminate.
Qed.
Lemma via_tmp_ok mul m A v b x y (z : nat -> R) :
  mholds m A x -> vholds m v y -> m b = [] ->
  (forall m1, mholds m1 A x -> vholds m1 v y -> vholds m1 (MkVec (b, 0%Z) (vsize v)) (fun _ => 0) ->
     disj (mcells A) (vcells (MkVec (b, 0%Z) (vsize v))) -> disj (vcells v) (vcells (MkVec (b, 0%Z) (vsize v))) ->
     (exists m2, mul m1 A v (MkVec (b, 0%Z) (vsize v)) = Ok (Some m2) /\ vholds m2 (MkVec (b, 0%Z) (vsize v)) z /\
                 vframe m1 m2 (MkVec (b, 0%Z) (vsize v))) \/
     (mul m1 A v (MkVec (b, 0%Z) (vsize v)) = Ok None /\ (forall i, (i < vlen v)%nat -> z i = 0))) ->
  exists m', via_tmp mul m A v b = Ok m' /\ vholds m' v z /\ vframe m m' v.
Proof.
  intros Hx Hy Hb HM. unfold via_tmp. set (tmp := MkVec (b, 0%Z) (vsize v)) in *.
  set (m1 := alloc m b (vsize v)). pose proof Hy as (Hs & _).
  assert (forall q, fst q <> b -> cell m1 q = cell m q) as F1 by (intros; now apply cell_alloc_other).
  assert (mholds m1 A x) as Hx1 by (eapply mholds_block; eauto).
  assert (vholds m1 v y) as Hy1 by (eapply vholds_block; eauto).
  assert (vholds m1 tmp (fun _ => 0)) as Ht1 by (apply alloc_tmp; auto).
  assert (forall q, inrange (vbuf v) (vlen v) q -> fst q <> b) as NB.
  { intros q (Q1 & Q2) E. assert (exists i, (i < vlen v)%nat /\ q = padd (vbuf v) (Z.of_nat i)) as (i & Hi & ->).
    { apply inrange_iff. split; auto. }
    destruct Hy as (_ & Hy). specialize (Hy i Hi). rewrite (cell_fresh m b) in Hy; auto. discriminate. }
  assert (disj (vcells v) (vcells tmp)) as D2.
  { intros q Q1 (Q2 & _). apply (NB q); auto. }
  assert (disj (mcells A) (vcells tmp)) as D1.
  { intros q (i & j & Hi & Hj & ->) (Q2 & _). destruct Hx as (_ & _ & H3). specialize (H3 i j Hi Hj).
    rewrite (cell_fresh m b) in H3; auto. discriminate. }
  assert (exists m2, (r <- mul m1 A v tmp ;; Ok (match r with Some m2 => m2 | None => m1 end)) = Ok m2 /\
            vholds m2 tmp z /\ vframe m1 m2 tmp) as (m2 & E2 & Ht2 & F2).
  { destruct (HM m1 Hx1 Hy1 Ht1 D1 D2) as [(m2 & E2 & Ht2 & F2)|(E2 & Hz)]; rewrite E2; cbn.
    - eauto.
    - exists m1. split; auto. split; [|intros ? ?; auto]. eapply vholds_ext; [exact Ht1|].
      intros i Hi. symmetry. apply Hz. exact Hi. }
  assert (forall q, fst q <> b -> cell m2 q = cell m1 q) as F2'.
  { intros q Hq. apply F2. intros (Q & _). apply Hq. exact Q. }
  assert (vholds m2 v y) as Hy2.
  { destruct Hy1 as (Q1 & Q2). split; auto. intros i Hi. rewrite F2'; auto. apply NB.
    apply inrange_iff. eauto. }
  destruct (zRawVecCopy_ok m2 (vbuf tmp) (vbuf v) (vlen v) z) as (m3 & E3 & A3 & F3).
  - apply Ht2.
  - apply (vecat_alloc _ _ _ y). apply Hy2.
  - intros q Q1 Q2. apply (D2 q); auto.
  - destruct (mul m1 A v tmp) as [r|]; cbn in E2 |- *; [|discriminate]. injection E2 as ->.
    unfold zVecCopyNC. unfold vlen in E3. rewrite <- zn in E3 by lia. rewrite E3. cbn.
    eexists; split; [reflexivity|]. split; [split; auto|].
    + intros i Hi. rewrite cell_free_other; auto. apply NB. apply inrange_iff; eauto.
    + intros q Hq. destruct (Nat.eq_dec (fst q) b) as [E|N].
      * rewrite cell_free_same, (cell_fresh m b); auto.
      * rewrite cell_free_other, F3, F2', F1; auto.
Qed.
Lemma zMulMatVecDRC_ok m A v b x y : mholds m A x -> vholds m v y -> m b = [] ->
  mrow A = mcol A -> mcol A = vsize v ->
  exists m', zMulMatVecDRC m A v b = Ok m' /\
    vholds m' v (fun i => rsum (mcols A) (fun j => x i j * y j)) /\ vframe m m' v.
Proof.
  intros Hx Hy Hb E1 E2. apply (via_tmp_ok _ _ _ _ _ x y); auto. intros m1 Hx1 Hy1 Ht D1 D2. left.
  apply zMulMatVec_ok; auto; cbn; try lia. destruct Ht as (Q1 & Q2). split; auto. apply (vecat_alloc _ _ _ _ Q2).
Qed.
Lemma zMulMatTVecDRC_ok m A v b x y : mholds m A x -> vholds m v y -> m b = [] ->
  mrow A = mcol A -> mcol A = vsize v ->
  exists m', zMulMatTVecDRC m A v b = Ok m' /\
    vholds m' v (fun j => rsum (mrows A) (fun i => x i j * y i)) /\ vframe m m' v.
Proof.
  intros Hx Hy Hb E1 E2. apply (via_tmp_ok _ _ _ _ _ x y); auto. intros m1 Hx1 Hy1 Ht D1 D2. left.
  apply zMulMatTVec_ok; auto; cbn; try lia. destruct Ht as (Q1 & Q2). split; auto. apply (vecat_alloc _ _ _ _ Q2).
Qed.
Lemma zMulMatVecDRC_mismatch m A v b x y : mholds m A x -> vholds m v y -> m b = [] ->
  ~ (mrow A = vsize v /\ mcol A = vsize v) ->
  exists m', zMulMatVecDRC m A v b = Ok m' /\ vholds m' v (fun i => 0) /\ vframe m m' v.
Proof.
  intros Hx Hy Hb N. apply (via_tmp_ok _ _ _ _ _ x y); auto. intros m1 Hx1 Hy1 Ht D1 D2. right.
  split; auto. apply zMulMatVec_null. cbn. lia.
Qed.

(** Matrix products *)
Lemma zMulMatMat_ok m A B D x y : mholds m A x -> mholds m B y -> malloc m D ->
  mrow B = mcol A -> mrow A = mrow D -> mcol B = mcol D -> disj (mcells A) (mcells D) -> disj (mcells B) (mcells D) ->
  exists m', zMulMatMat m A B D = Ok (Some m') /\
    mholds m' D (fun i j => rsum (mcols A) (fun l => x i l * y l j)) /\ Mframe m m' D.
Proof.
  intros (H1 & H2 & Hx) (H3 & H4 & Hy) (H5 & H6 & Ha) E1 E2 E3 D1 D2. unfold zMulMatMat.
  assert (mrows B = mcols A) as L1 by (unfold mrows, mcols; lia). assert (mrows A = mrows D) as L2 by (unfold mrows, mcols; lia).
  assert (mcols B = mcols D) as L3 by (unfold mrows, mcols; lia).
  destruct (zRawMulMatMat_R m (mbuf A) (mccap A) (mrows A) (mcols A) (mcols B) (mbuf B) (mccap B) (mbuf D) (mccap D) x y) as (m' & E & A1 & F); auto.
  - now rewrite <- L1.
  - now rewrite L2, L3.
  - unfold mcols. lia.
  - unfold mapart, disj, mcells in *. rewrite L2, L3 in *. intros q Q1 Q2; eapply D1; eauto.
  - unfold mapart, disj, mcells in *. rewrite <- L1. rewrite L2, L3 in *. intros q Q1 Q2; eapply D2; eauto.
  - unfold mrows, mcols in E. rewrite <- !zn in E by lia. rewrite <- E1 in E at 2. exists m'. split; [apply chk_ok; auto; lia|].
    rewrite L2, L3 in *. split; [split; [|split]|]; auto.
Qed.
Lemma zMulMatMatT_ok m A B D x y : mholds m A x -> mholds m B y -> malloc m D ->
  mcol A = mcol B -> mrow A = mrow D -> mrow B = mcol D -> disj (mcells A) (mcells D) -> disj (mcells B) (mcells D) ->
  exists m', zMulMatMatT m A B D = Ok (Some m') /\
    mholds m' D (fun i j => rsum (mcols A) (fun l => x i l * y j l)) /\ Mframe m m' D.
Proof.
  intros (H1 & H2 & Hx) (H3 & H4 & Hy) (H5 & H6 & Ha) E1 E2 E3 D1 D2. unfold zMulMatMatT.
  assert (mcols B = mcols A) as L1 by (unfold mrows, mcols; lia). assert (mrows A = mrows D) as L2 by (unfold mrows, mcols; lia).
  assert (mrows B = mcols D) as L3 by (unfold mrows, mcols; lia).
  destruct (zRawMulMatMatT_R m (mbuf A) (mccap A) (mrows A) (mcols A) (mrows B) (mbuf B) (mccap B) (mbuf D) (mccap D) x y) as (m' & E & A1 & F); auto.
  - now rewrite <- L1.
  - now rewrite L2, L3.
  - unfold mrows. lia.
  - unfold mapart, disj, mcells in *. rewrite L2, L3 in *. intros q Q1 Q2; eapply D1; eauto.
  - unfold mapart, disj, mcells in *. rewrite <- L1. rewrite L2, L3 in *. intros q Q1 Q2; eapply D2; eauto.
  - unfold mrows, mcols in E. rewrite <- !zn in E by lia. exists m'. split; [apply chk_ok; [lia|rewrite <- E1; exact E]|].
    rewrite L2, L3 in *. split; [split; [|split]|]; auto.
Qed.
Lemma zMulMatTMat_ok m A B D x y : mholds m A x -> mholds m B y -> malloc m D ->
  mrow A = mrow B -> mrow D = mcol A -> mcol B = mcol D -> disj (mcells A) (mcells D) -> disj (mcells B) (mcells D) ->
  exists m', zMulMatTMat m A B D = Ok (Some m') /\
    mholds m' D (fun i j => rsum (mrows A) (fun l => x l i * y l j)) /\ Mframe m m' D.
Proof.
  intros (H1 & H2 & Hx) (H3 & H4 & Hy) (H5 & H6 & Ha) E1 E2 E3 D1 D2. unfold zMulMatTMat.
  assert (mrows B = mrows A) as L1 by (unfold mrows, mcols; lia). assert (mrows D = mcols A) as L2 by (unfold mrows, mcols; lia).
  assert (mcols B = mcols D) as L3 by (unfold mrows, mcols; lia).
  destruct (zRawMulMatTMat_R m (mbuf A) (mccap A) (mrows A) (mcols A) (mcols B) (mbuf B) (mccap B) (mbuf D) (mccap D) x y) as (m' & E & A1 & F); auto.
  - now rewrite <- L1.
  - now rewrite <- L2, L3.
  - unfold mcols. lia.
  - unfold mapart, disj, mcells in *. rewrite L3, L2 in *. intros q Q1 Q2; eapply D1; eauto.
  - unfold mapart, disj, mcells in *. rewrite <- L1. rewrite L3, L2 in *. intros q Q1 Q2; eapply D2; eauto.
  - unfold mrows, mcols in E. rewrite <- !zn in E by lia. exists m'. split; [apply chk_ok; [lia|rewrite <- E1; exact E]|].
    rewrite <- L2, L3 in *. split; [split; [|split]|]; auto.
Qed.
Lemma wok_true ow n : wok ow n = true <-> (forall w, ow = Some w -> vsize w = n).
Proof.
  destruct ow as [w|]; cbn; [|split; auto; discriminate]. rewrite Z.eqb_eq. split.
  - intros E w' [= <-]; auto.
  - intros H. symmetry. auto.
Qed.
Definition wholds m (ow : option zVec) (n : nat) (wf : nat -> R) Q : Prop :=
  match ow with Some w => vholds m w wf /\ vlen w = n /\ disj (vcells w) (mcells Q) | None => forall k, wf k = 1 end.
Lemma wholds_wok m ow n wf Q : (0 <= n)%Z -> wholds m ow (Z.to_nat n) wf Q -> wok ow n = true.
Proof.
  destruct ow as [w|]; cbn; auto. intros Hn ((H & _) & E & _). unfold vlen in E. lia.
Qed.
Lemma zMatQuad_ok m A ow Q x wf : mholds m A x -> malloc m Q -> wholds m ow (mcols A) wf Q ->
  mrow A = mrow Q -> mrow Q = mcol Q -> disj (mcells A) (mcells Q) ->
  exists m', zMatQuad m A ow Q = Ok (Some m') /\
    mholds m' Q (fun i j => rsum (mcols A) (fun k => wf k * x i k * x j k)) /\ Mframe m m' Q.
Proof.
  intros Hx HQ Hw E1 E2 D1. pose proof Hx as (H1 & H2 & H3).
  destruct (quadNC_ok m Q (mrows A) (mcols A) (fun k i => mcell A i k) x ow wf) as (m' & E & A1 & F); auto.
  - unfold mrows; lia.
  - unfold mrows; lia.
  - intros k i Hk Hi. rewrite mcell_at2. split; [apply H3; auto|]. intros C. apply (D1 (at2 (mbuf A) (mccap A) i k)); auto.
    exists i, k; auto.
  - exists m'. split; auto. apply chk_ok.
    + rewrite (wholds_wok m _ _ wf Q) by (auto; lia). unfold msqr. cbn. lia.
    + unfold zMatQuadNC. unfold mrows, mcols in E. rewrite <- !zn in E by lia. exact E.
Qed.
Lemma zMatTQuad_ok m A ow Q x wf : mholds m A x -> malloc m Q -> wholds m ow (mrows A) wf Q ->
  mcol A = mrow Q -> mrow Q = mcol Q -> disj (mcells A) (mcells Q) ->
  exists m', zMatTQuad m A ow Q = Ok (Some m') /\
    mholds m' Q (fun i j => rsum (mrows A) (fun k => wf k * x k i * x k j)) /\ Mframe m m' Q.
Proof.
  intros Hx HQ Hw E1 E2 D1. pose proof Hx as (H1 & H2 & H3).
  destruct (quadNC_ok m Q (mcols A) (mrows A) (fun k i => mcell A k i) (fun i k => x k i) ow wf) as (m' & E & A1 & F); auto.
  - unfold mcols; lia.
  - unfold mcols; lia.
  - intros k i Hk Hi. rewrite mcell_at2. split; [apply H3; auto|]. intros C. apply (D1 (at2 (mbuf A) (mccap A) k i)); auto.
    exists k, i; auto.
  - exists m'. split; auto. apply chk_ok.
    + rewrite (wholds_wok m _ _ wf Q) by (auto; lia). unfold msqr. cbn. lia.
    + unfold zMatTQuadNC. unfold mrows, mcols in E. rewrite <- !zn in E by lia. exact E.
Qed.
Lemma zMulMatMatMatT_ok m A Q D x q : mholds m A x -> mholds m Q q -> malloc m D ->
  mrow Q = mcol Q -> mrow Q = mcol A -> mrow D = mcol D -> mrow D = mrow A ->
  disj (mcells A) (mcells D) -> disj (mcells Q) (mcells D) ->
  exists m', zMulMatMatMatT m A Q D = Ok (Some m') /\
    mholds m' D (fun k j => rsum (mcols A) (fun i => x k i * rsum (mcols A) (fun l => q i l * x j l))) /\ Mframe m m' D.
Proof.
  intros Hx HQ HD E1 E2 E3 E4 D1 D2. pose proof Hx as (H1 & H2 & H3).
  destruct (mulQ_ok m Q D (mrows A) (mcols A) (fun i j => mcell A i j) x q) as (m' & E & A1 & F); auto; try (unfold mrows, mcols; lia).
  - intros i j Hi Hj. rewrite mcell_at2. split; [apply H3; auto|]. intros C. apply (D1 (at2 (mbuf A) (mccap A) i j)); auto.
    exists i, j; auto.
  - exists m'. split; auto. apply chk_ok; [unfold msqr; lia|]. unfold mrows in E. rewrite <- !zn in E by lia. exact E.
Qed.
Lemma zMulMatTMatMat_ok m A Q D x q : mholds m A x -> mholds m Q q -> malloc m D ->
  mrow Q = mcol Q -> mrow Q = mrow A -> mrow D = mcol D -> mrow D = mcol A ->
  disj (mcells A) (mcells D) -> disj (mcells Q) (mcells D) ->
  exists m', zMulMatTMatMat m A Q D = Ok (Some m') /\
    mholds m' D (fun k j => rsum (mrows A) (fun i => x i k * rsum (mrows A) (fun l => q i l * x l j))) /\ Mframe m m' D.
Proof.
  intros Hx HQ HD E1 E2 E3 E4 D1 D2. pose proof Hx as (H1 & H2 & H3).
  destruct (mulQ_ok m Q D (mcols A) (mrows A) (fun i j => mcell A j i) (fun i j => x j i) q) as (m' & E & A1 & F); auto; try (unfold mrows, mcols; lia).
  - intros i j Hi Hj. rewrite mcell_at2. split; [apply H3; auto|]. intros C. apply (D1 (at2 (mbuf A) (mccap A) j i)); auto.
    exists j, i; auto.
  - exists m'. split; auto. apply chk_ok; [unfold msqr; lia|]. unfold mcols in E. rewrite <- !zn in E by lia. exact E.
Qed.

(** Projections *)
Definition dot (n : nat) (x y : nat -> R) : R := rsum n (fun i => x i * y i).
Lemma zVecProj_ok m v n d x y : vholds m v x -> vholds m n y -> valloc m d -> fwd (vbuf n) (vbuf d) (vlen d) ->
  vsize v = vsize n -> vsize v = vsize d ->
  exists m', zVecProj m v n d = Ok (Some m') /\
    vholds m' d (fun i => y i * (dot (vlen v) x y / dot (vlen v) y y)) /\ vframe m m' d.
Proof.
  intros (H1 & Hx) (H2 & Hy) Hd F E1 E2. unfold zVecProj, vseq. rewrite <- E1, <- E2, Z.eqb_refl. cbn.
  assert (vlen n = vlen v) as L by (unfold vlen; congruence).
  pose proof (zRawVecInnerProd_R m (vbuf v) (vbuf n) (vlen v) x y Hx ltac:(now rewrite <- L)) as P1.
  pose proof (zRawVecInnerProd_R m (vbuf n) (vbuf n) (vlen n) y y Hy Hy) as P2.
  unfold vlen in P1, P2. rewrite <- zn in P1, P2 by lia. unfold zVecSqrNorm. rewrite P1. cbn. rewrite P2. cbn.
  destruct (vec_unary true (fun z => z * (dot (vlen v) x y / dot (vlen v) y y)) m n d y) as (S & _); auto.
  { split; auto. }
  destruct S as (m' & E & A1 & F1); [split; congruence|]. exists m'. split; auto.
  unfold zVecMul, zRawVecMul. rewrite andb_true_r in E. rewrite <- E. unfold dot, vlen. rewrite E1. reflexivity.
Qed.
Lemma proj_orth n x y : dot n y y <> 0 -> dot n (fun i => x i - y i * (dot n x y / dot n y y)) y = 0.
Proof.
  intros H. unfold dot at 1. rewrite (rsum_ext _ _ (fun i => x i * y i - (dot n x y / dot n y y) * (y i * y i))) by (intros; ring).
  rewrite rsum_sub, rsum_scal. fold (dot n x y). fold (dot n y y). field. exact H.
Qed.
Lemma zVecOrthogonalize_ok m v n d x y : vholds m v x -> vholds m n y -> valloc m d -> fwd (vbuf n) (vbuf d) (vlen d) ->
  vsize v = vsize n -> vsize v = vsize d -> disj (vcells v) (vcells d) ->
  exists m', zVecOrthogonalize m v n d = Ok (Some m') /\
    vholds m' d (fun i => x i - y i * (dot (vlen v) x y / dot (vlen v) y y)) /\ vframe m m' d.
Proof.
  intros Hx Hy Hd F E1 E2 D1. unfold zVecOrthogonalize.
  destruct (zVecProj_ok m v n d x y) as (m1 & P & A1 & F1); auto. rewrite P. cbn [bind].
  assert (vlen v = vlen d) as L by (unfold vlen; congruence).
  destruct (pass2_ok (vlen d) (vbuf v) (vbuf d) (vbuf d) ssub m1 x (fun i => y i * (dot (vlen v) x y / dot (vlen v) y y))) as (m' & E & A2 & F2).
  - intros i Hi. rewrite F1.
    + apply Hx. now rewrite L.
    + intros C. apply (D1 (padd (vbuf v) (Z.of_nat i))); auto. apply inrange_iff. exists i. rewrite L; auto.
  - apply A1.
  - apply (vecat_alloc _ _ _ _ (proj2 A1)).
  - apply apart_fwd. unfold disj, vcells in D1. rewrite L in D1. intros q Q1 Q2; eauto.
  - apply fwd_refl.
  - exists m'. unfold vlen in E. rewrite <- zn in E by apply Hd. unfold zRawVecSub. rewrite E. cbn. split; auto.
    split; [split|].
    + apply Hd.
    + exact A2.
    + intros q Hq. rewrite F2, F1; auto.
Qed.

Lemma edge_loop {St} (m : mem R) p p1 p2 (n : nat) x x1 x2 (h : R -> R -> R -> St -> St) (P : nat -> St) s :
  vecat m p n x -> vecat m p1 n x1 -> vecat m p2 n x2 -> s = P 0%nat ->
  (forall k, (k < n)%nat -> h (x k) (x1 k) (x2 k) (P k) = P (S k)) ->
  forZ (Z.of_nat n) (fun i s => a <- load m (padd p i) ;; b <- load m (padd p1 i) ;; c <- load m (padd p2 i) ;; Ok (h a b c s)) s = Ok (P n).
Proof.
  intros H H1 H2 E0 ES.
  destruct (forZ_inv (fun k s => s = P k) n
    (fun i s => a <- load m (padd p i) ;; b <- load m (padd p1 i) ;; c <- load m (padd p2 i) ;; Ok (h a b c s)) s) as (s' & E & ->); auto.
  intros k s' Hk ->. rewrite (load_ok _ _ _ (H k Hk)). cbn. rewrite (load_ok _ _ _ (H1 k Hk)). cbn.
  rewrite (load_ok _ _ _ (H2 k Hk)). cbn. eexists; split; [reflexivity|]. auto.
Qed.
Lemma min_quad (a b c t : R) : 0 < a -> b * b / a - 2 * (b / a) * b <= t * t * a - 2 * t * b.
Proof.
  intros Ha. assert (t * t * a - 2 * t * b - (b * b / a - 2 * (b / a) * b) = (t * a - b) * (t * a - b) / a) as E.
  { field. lra. }
  assert (0 <= (t * a - b) * (t * a - b) / a).
  { apply Rmult_le_pos; [apply Rle_0_sqr|]. left. now apply Rinv_0_lt_compat. }
  lra.
Qed.
Lemma dist_line n x x1 x2 t :
  rsum n (fun i => (t * (x2 i - x1 i) - (x i - x1 i)) * (t * (x2 i - x1 i) - (x i - x1 i))) =
  t * t * rsum n (fun i => (x2 i - x1 i) * (x2 i - x1 i)) - 2 * t * rsum n (fun i => (x i - x1 i) * (x2 i - x1 i))
  + rsum n (fun i => (x i - x1 i) * (x i - x1 i)).
Proof.
  rewrite (rsum_ext _ _ (fun i => (t * t) * ((x2 i - x1 i) * (x2 i - x1 i)) - (2 * t) * ((x i - x1 i) * (x2 i - x1 i)) + (x i - x1 i) * (x i - x1 i))) by (intros; ring).
  rewrite rsum_add, rsum_sub, !rsum_scal. ring.
Qed.
Lemma zVecEdgeDist_ok tol m v v1 v2 x x1 x2 : 0 <= tol -> vholds m v x -> vholds m v1 x1 -> vholds m v2 x2 ->
  vsize v = vsize v1 -> vsize v = vsize v2 ->
  let n := vlen v in
  let at_ t := sqrt (rsum n (fun i => (t * (x2 i - x1 i) - (x i - x1 i)) * (t * (x2 i - x1 i) - (x i - x1 i)))) in
  exists d, zVecEdgeDist tol m v v1 v2 = Ok d /\
    (rsum n (fun i => (x2 i - x1 i) * (x2 i - x1 i)) <= tol -> d = at_ 0) /\
    (tol < rsum n (fun i => (x2 i - x1 i) * (x2 i - x1 i)) -> (exists t, d = at_ t) /\ forall t, d <= at_ t).
Proof.
  intros Ht (H0 & Hx) (H1 & Hx1) (H2 & Hx2) E1 E2 n at_. unfold zVecEdgeDist, vseq.
  rewrite <- E1, <- E2, Z.eqb_refl. cbn [negb orb].
  assert (vlen v1 = n) as L1 by (unfold n, vlen; congruence). assert (vlen v2 = n) as L2 by (unfold n, vlen; congruence).
  rewrite L1 in Hx1. rewrite L2 in Hx2. fold n in Hx.
  rewrite (zn (vsize v)) by lia. change (Z.to_nat (vsize v)) with n.
  set (den := rsum n (fun i => (x2 i - x1 i) * (x2 i - x1 i))). set (num := rsum n (fun i => (x i - x1 i) * (x2 i - x1 i))).
  rewrite (edge_loop m _ _ _ n x x1 x2 (fun x x1 x2 nd => (fst nd + (x - x1) * (x2 - x1), snd nd + (x2 - x1) * (x2 - x1)))
            (fun k => (rsum k (fun i => (x i - x1 i) * (x2 i - x1 i)), rsum k (fun i => (x2 i - x1 i) * (x2 i - x1 i)))) (0, 0)) by auto.
  cbn [bind]. fold num den.
  assert (0 <= den) as HD by (apply rsum_nonneg; intros; apply Rle_0_sqr).
  destruct (is_tol tol den) eqn:ET.
  - exists (at_ 0). rewrite is_tol_R in ET. destruct (Rleb_spec (Rabs den) tol) as [ET'|]; [|discriminate]. rewrite Rabs_pos_eq in ET' by auto. split; [|split; [auto|lra]].
    unfold zVecDist. rewrite (zn (vsize v)) by lia. change (Z.to_nat (vsize v)) with n.
    rewrite (zRawVecSqrDist_R m _ _ n x x1) by auto. cbn. f_equal. unfold at_. f_equal. apply rsum_ext. intros; ring.
  - assert (tol < den) as HT.
    { rewrite is_tol_R in ET. destruct (Rleb_spec (Rabs den) tol) as [|ET']; [discriminate|]. rewrite Rabs_pos_eq in ET' by auto. lra. }
    rewrite (edge_loop m _ _ _ n x x1 x2 (fun x x1 x2 d => d + ((num / den) * (x2 - x1) - (x - x1)) * ((num / den) * (x2 - x1) - (x - x1)))
       (fun k => rsum k (fun i => ((num / den) * (x2 i - x1 i) - (x i - x1 i)) * ((num / den) * (x2 i - x1 i) - (x i - x1 i)))) 0) by auto.
    cbn [bind]. exists (at_ (num / den)). split; [reflexivity|]. split; [lra|]. intros _. split; [eauto|].
    intros t. unfold at_. apply sqrt_le_1_alt. rewrite !dist_line. fold num den.
    pose proof (min_quad den num 0 t ltac:(lra)) as M.
    replace (num / den * (num / den) * den) with (num * num / den) by (field; lra). lra.
Qed.
