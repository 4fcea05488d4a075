(** Lemmas for C45, C46. *)
From Coq Require Import Reals Lra Lia Psatz.
From Verif Require Import Prelude Prelude_Proofs Scalar RealLib Fmat Fmat_Proofs LE_Model IP_Model Vop Root_Model Root_Proofs Qp_Model Qp_Spec.
Local Open Scope R_scope.

Lemma ksum_R n f : ksum n f = rsum n f.
Proof.
  unfold ksum. assert (H : ksum_loop n f = (rsum n f, 0)).
  { induction n as [|n IH]; [reflexivity|]. cbn [ksum_loop rsum]. rewrite IH. cbn [sadd ssub RealS]. f_equal; ring. }
  rewrite H. cbn. ring.
Qed.
Lemma inner_R v w : vlen v = vlen w -> zVecInnerProd v w = dot (vlen v) (vel v) (vel w).
Proof. intros H. unfold zVecInnerProd. rewrite (proj2 (Nat.eqb_eq _ _) H). apply ksum_R. Qed.
Lemma mulmv_R m x v : nc m = vlen x -> nr m = vlen v ->
  exists w, zMulMatVecNC m x v = Ok w /\ vlen w = vlen v /\ forall i, (i < vlen v)%nat -> vel w i = mulv (vlen x) (el m) (vel x) i.
Proof.
  intros H1 H2. unfold zMulMatVecNC. rewrite H1, H2, !Nat.leb_refl. eexists. split; [reflexivity|]. split; [reflexivity|].
  intros i Hi. cbn [vel]. rewrite (proj2 (Nat.ltb_lt _ _) Hi). apply ksum_R.
Qed.
Lemma istol_R tol v : zVecIsTol tol v = true -> forall i, (i < vlen v)%nat -> Rabs (vel v i) <= tol.
Proof.
  intros H i Hi. unfold zVecIsTol in H. rewrite forallb_forall in H. specialize (H i). rewrite in_seq in H.
  specialize (H ltac:(lia)). rewrite is_tol_R in H. destruct (Rleb_spec (Rabs (vel v i)) tol); [auto|discriminate].
Qed.
Lemma istol_R_f tol v : zVecIsTol tol v = false -> exists i, (i < vlen v)%nat /\ tol < Rabs (vel v i).
Proof.
  unfold zVecIsTol. generalize (vlen v). intros n H. assert (G : forall l, forallb (fun i => is_tol tol (vel v i)) l = false -> exists i, In i l /\ tol < Rabs (vel v i)).
  { induction l as [|a l IH]; [discriminate|]. cbn [forallb]. rewrite is_tol_R. destruct (Rleb_spec (Rabs (vel v a)) tol) as [L|L].
    - intros E. destruct (IH E) as (i & I1 & I2). exists i. split; [right|]; auto.
    - intros _. exists a. split; [left; reflexivity|lra]. }
  destruct (G _ H) as (i & I1 & I2). apply in_seq in I1. exists i. split; [lia|auto].
Qed.

(** ** bilinear algebra *)
Section Algebra.
  Variable n : nat.
  Lemma dot_ext u u' v v' : (forall i, (i < n)%nat -> u i = u' i) -> (forall i, (i < n)%nat -> v i = v' i) -> dot n u v = dot n u' v'.
  Proof. intros H1 H2. apply rsum_ext. intros i Hi. rewrite H1, H2; auto. Qed.
  Lemma dot_sym u v : dot n u v = dot n v u.
  Proof. apply rsum_ext. intros; ring. Qed.
  Lemma dot_lin u v w k : dot n u (fun i => v i + k * w i) = dot n u v + k * dot n u w.
  Proof. unfold dot. rewrite <- rsum_scal, <- rsum_add. apply rsum_ext. intros; ring. Qed.
  Lemma dot_lin_l u v w k : dot n (fun i => v i + k * w i) u = dot n v u + k * dot n w u.
  Proof. rewrite dot_sym, dot_lin, (dot_sym u v), (dot_sym u w). reflexivity. Qed.
  Lemma dot_self u : 0 <= dot n u u.
  Proof. apply rsum_nonneg. intros; nra. Qed.
  Lemma dot_pos u : (exists i, (i < n)%nat /\ u i <> 0) -> 0 < dot n u u.
  Proof.
    intros (i & Hi & Hu). destruct (Rle_lt_or_eq_dec _ _ (dot_self u)) as [H|H]; [auto|]. symmetry in H.
    pose proof (rsum_nonneg_0 n (fun i => u i * u i)) as G. specialize (G (fun i _ => ltac:(nra)) H i Hi). cbn in G. nra.
  Qed.
  Variable Q : nat -> nat -> R.
  Lemma mulv_lin v w k i : mulv n Q (fun i => v i + k * w i) i = mulv n Q v i + k * mulv n Q w i.
  Proof. unfold mulv. rewrite <- rsum_scal, <- rsum_add. apply rsum_ext. intros; ring. Qed.
  Lemma mulv_ext v w i : (forall j, (j < n)%nat -> v j = w j) -> mulv n Q v i = mulv n Q w i.
  Proof. intros H. apply rsum_ext. intros j Hj. rewrite H; auto. Qed.
  Hypothesis SY : symmetric n Q.
  Lemma form_sym u v : dot n u (mulv n Q v) = dot n v (mulv n Q u).
  Proof.
    unfold dot, mulv.
    transitivity (rsum n (fun i => rsum n (fun j => u i * Q i j * v j))).
    { apply rsum_ext. intros i Hi. rewrite <- rsum_scal. apply rsum_ext. intros; ring. }
    rewrite rsum_swap. apply rsum_ext. intros j Hj. rewrite <- rsum_scal. apply rsum_ext. intros i Hi. rewrite (SY i j); auto. ring.
  Qed.
  (** (u + k v) Q (u + k v) *)
  Lemma form_sq u v k : dot n (fun i => u i + k * v i) (mulv n Q (fun i => u i + k * v i)) =
    dot n u (mulv n Q u) + 2 * k * dot n u (mulv n Q v) + k * k * dot n v (mulv n Q v).
  Proof.
    rewrite (dot_ext _ (fun i => u i + k * v i) _ (fun i => mulv n Q u i + k * mulv n Q v i)) by (auto; intros; apply mulv_lin).
    rewrite dot_lin, !dot_lin_l. rewrite (form_sym v u). ring.
  Qed.
  Lemma quad_step c x d k : quad n Q c (fun i => x i + k * d i) =
    quad n Q c x + k * dot n d (fun i => mulv n Q x i + c i) + k * k * dot n d (mulv n Q d) / 2.
  Proof.
    unfold quad. rewrite form_sq, dot_lin.
    rewrite (dot_ext d d (fun i => mulv n Q x i + c i) (fun i => mulv n Q x i + 1 * c i)) by (auto; intros; ring).
    rewrite dot_lin, (dot_sym d c), (form_sym x d). field.
  Qed.
  Lemma quad_ext c x y : (forall i, (i < n)%nat -> x i = y i) -> quad n Q c x = quad n Q c y.
  Proof.
    intros H. unfold quad. rewrite (dot_ext x y (mulv n Q x) (mulv n Q y)), (dot_ext c c x y); auto. intros; apply mulv_ext; auto.
  Qed.
  Lemma form_cs u v : psd n Q -> 0 < dot n v (mulv n Q v) ->
    dot n u (mulv n Q v) * dot n u (mulv n Q v) <= dot n u (mulv n Q u) * dot n v (mulv n Q v).
  Proof.
    intros P H. set (s := dot n v (mulv n Q v)) in *. set (p := dot n u (mulv n Q v)).
    pose proof (P (fun i => u i + (- p / s) * v i)) as G. rewrite form_sq in G. fold p s in G.
    assert (E : dot n u (mulv n Q u) + 2 * (- p / s) * p + - p / s * (- p / s) * s = dot n u (mulv n Q u) - p * p / s) by (field; lra).
    rewrite E in G. assert (p * p / s * s = p * p) by (field; lra). nra.
  Qed.
End Algebra.

(** ** zQuadraticValue *)
Lemma qv_ok q c x : nr q = vlen x -> nc q = vlen x -> vlen c = vlen x ->
  zQuadraticValue q c x = Ok (quad (vlen x) (el q) (vel c) (vel x)).
Proof.
  intros H1 H2 H3. unfold zQuadraticValue. rewrite H2, H1, H3, !Nat.eqb_refl. cbn [negb].
  set (n := vlen x) in *.
  assert (I : forall i val, (i < n)%nat -> for_ 0 n (fun j val => qij <- mget q i j ;; xi <- vget x i ;; xj <- vget x j ;; Ok (val + sofZ 1 / sofZ 2 * qij * xi * xj)%S) val
              = Ok (val + rsum n (fun j => 1 / 2 * el q i j * vel x i * vel x j))).
  { intros i val Hi. destruct (for_inv (fun k s => s = val + rsum k (fun j => 1 / 2 * el q i j * vel x i * vel x j)) 0 n (fun j val => qij <- mget q i j ;; xi <- vget x i ;; xj <- vget x j ;; Ok (val + sofZ 1 / sofZ 2 * qij * xi * xj)%S) val) as (s & E & Hs); [lia|cbn; ring| |rewrite E, Hs; auto].
    intros k s Hk ->. rewrite mget_ok, !vget_ok by lia. cbn [bind]. eexists; split; [reflexivity|]. cbn [sadd smul sdiv sofZ RealS rsum]. ring. }
  match goal with |- for_ 0 n ?f 0%S = _ => destruct (for_inv (fun k s => s = rsum k (fun i => rsum n (fun j => 1 / 2 * el q i j * vel x i * vel x j) + vel c i * vel x i)) 0 n f 0) as (s & E & Hs) end;
    [lia|reflexivity| |].
  - intros k s Hk ->. rewrite I by lia. cbn [bind]. rewrite !vget_ok by lia. cbn [bind]. eexists; split; [reflexivity|]. cbn [sadd smul RealS rsum]. ring.
  - etransitivity; [exact E|]. rewrite Hs. f_equal. rewrite rsum_add. unfold quad. f_equal.
    unfold dot, mulv. transitivity (/ 2 * rsum n (fun i => vel x i * rsum n (fun j => el q i j * vel x j))); [|field].
    rewrite <- rsum_scal. apply rsum_ext. intros i Hi. rewrite <- !rsum_scal. apply rsum_ext. intros; field.
Qed.

(** ** conjugate gradients *)
Section CG.
  Variables (q : fmat R) (c : nat -> R) (n : nat) (tol : R).
  Hypothesis Hr : nr q = n. Hypothesis Hc : nc q = n.
  Let Q := el q.
  Hypothesis SY : symmetric n Q. Hypothesis PD : pos_def n Q. Hypothesis Ht : 0 <= tol.
  Lemma pd_psd : psd n Q.
  Proof.
    intros v. destruct (Classical_Prop.classic (exists i, (i < n)%nat /\ v i <> 0)) as [H|H]; [left; apply PD; auto|].
    right. symmetry. apply rsum_0. intros i Hi. destruct (Req_dec (v i) 0) as [E|E]; [rewrite E; ring|destruct H; eauto].
  Qed.
  Definition cginv (x g d : fvec R) : Prop :=
    vlen x = n /\ vlen g = n /\ vlen d = n /\
    (forall i, (i < n)%nat -> vel g i = mulv n Q (vel x) i + c i) /\
    dot n (vel d) (vel g) = dot n (vel g) (vel g) /\
    dot n (vel d) (mulv n Q (vel d)) <= 4 * dot n (vel g) (mulv n Q (vel g)) /\
    (exists i, (i < n)%nat /\ vel g i <> 0).
  Lemma cg_dec x g d : cginv x g d ->
    let s := dot n (vel d) (mulv n Q (vel d)) in let a := dot n (vel d) (vel g) / s in
    0 < s /\ 0 < dot n (vel g) (vel g) /\ 0 < dot n (vel g) (mulv n Q (vel g)) /\
    quad n Q c (fun i => vel x i + - a * vel d i) = quad n Q c (vel x) - dot n (vel g) (vel g) * dot n (vel g) (vel g) / (2 * s).
  Proof.
    intros (L1 & L2 & L3 & G & D & B & NZ) s a.
    assert (G0 : 0 < dot n (vel g) (vel g)) by (apply dot_pos; auto).
    assert (S0 : 0 < s).
    { apply PD. destruct (Classical_Prop.classic (exists i, (i < n)%nat /\ vel d i <> 0)) as [H|H]; [auto|exfalso].
      rewrite <- D in G0. assert (E : dot n (vel d) (vel g) = 0); [|lra]. apply rsum_0. intros i Hi.
      destruct (Req_dec (vel d i) 0) as [E|E]; [rewrite E; ring|destruct H; eauto]. }
    repeat split; auto. rewrite quad_step by exact SY.
    rewrite (dot_ext n (vel d) (vel d) (fun i => mulv n Q (vel x) i + c i) (vel g)) by (auto; intros; symmetry; apply G; auto).
    fold s. unfold a. rewrite D. field. lra.
  Qed.
  Definition stationary (y : nat -> R) : Prop := forall i, (i < n)%nat -> mulv n Q y i + c i = 0.
  Definition bounds (l L : R) : Prop := 0 < l /\ forall v, l * dot n v v <= dot n v (mulv n Q v) <= L * dot n v v.
  Lemma quad_min y x : stationary y -> quad n Q c x - quad n Q c y = dot n (fun i => x i + (-1) * y i) (mulv n Q (fun i => x i + (-1) * y i)) / 2.
  Proof.
    intros Hy. rewrite (quad_ext n Q c x (fun i => y i + 1 * (x i + (-1) * y i))) by (intros; ring).
    rewrite quad_step by exact SY. set (e := fun i => x i + -1 * y i).
    rewrite (dot_ext n e e (fun i => mulv n Q y i + c i) (fun _ => 0)) by (auto; intros; apply Hy; auto).
    replace (dot n e (fun _ : nat => 0)) with 0 by (symmetry; apply rsum_0; intros; ring). field.
  Qed.
  Lemma quad_gap y l L x g : stationary y -> bounds l L -> (forall i, (i < n)%nat -> g i = mulv n Q x i + c i) -> quad n Q c x - quad n Q c y <= dot n g g / (2 * l).
  Proof.
    intros Hy (Hl & Hb) G. rewrite quad_min by exact Hy. set (e := fun i => x i + -1 * y i).
    assert (E : dot n e (mulv n Q e) = dot n e g).
    { apply dot_ext; auto. intros i Hi. unfold e. rewrite mulv_lin, G by auto. pose proof (Hy i Hi). lra. }
    rewrite E. pose proof (proj1 (Hb e)) as B. rewrite E in B.
    pose proof (dot_self n (fun i => g i + - l * e i)) as P. rewrite dot_lin, !dot_lin_l, (dot_sym n g e) in P.
    assert (l * dot n e g <= dot n g g) by nra.
    assert (Z : 2 * (dot n g g / (2 * l) - dot n e g / 2) * l = dot n g g - l * dot n e g) by (field; lra). nra.
  Qed.
  Lemma ratio l L : bounds l L -> (0 < n)%nat -> 0 < L /\ 0 < l / (4 * L) <= 1 / 4.
  Proof.
    intros (Hl & Hb) Hn. specialize (Hb (fun _ => 1)). assert (P : 0 < dot n (fun _ => 1) (fun _ => 1)) by (apply dot_pos; exists O; split; [auto|lra]).
    assert (l <= L) by (apply Rmult_le_reg_r with (dot n (fun _ => 1) (fun _ => 1)); lra). split; [lra|]. split.
    - apply Rdiv_lt_0_compat; lra.
    - apply Rmult_le_reg_r with (4 * L); [lra|]. replace (l / (4 * L) * (4 * L)) with l by (field; lra). lra.
  Qed.
  Lemma rate : forall k x g d, cginv x g d ->
    exists b x' g' d', cg_loop tol k q x g d = Ok (b, (x', g', d')) /\ vlen x' = n /\
      quad n Q c (vel x') <= quad n Q c (vel x) /\
      if b then forall i, (i < n)%nat -> Rabs (mulv n Q (vel x') i + c i) <= tol
      else forall y l L, stationary y -> bounds l L -> quad n Q c (vel x') - quad n Q c y <= (1 - l / (4 * L)) ^ k * (quad n Q c (vel x) - quad n Q c y).
  Proof.
    induction k as [|k IH]; intros x g d I.
    { exists false, x, g, d. split; [reflexivity|]. split; [apply I|]. split; [lra|]. intros. cbn [pow]. lra. }
    pose proof (cg_dec x g d I) as DEC. cbv zeta in DEC.
    destruct I as (L1 & L2 & L3 & G & D & B & NZ). cbn [cg_loop].
    destruct (mulmv_R q d (vzero (vlen x))) as (qd & -> & Lqd & Vqd); [cbn; congruence|cbn; congruence|]. cbn [bind].
    cbn [vlen vzero] in Lqd, Vqd.
    rewrite (inner_R d qd) by congruence. rewrite (inner_R d g) by congruence. rewrite L3 in *.
    rewrite (dot_ext n (vel d) (vel d) (vel qd) (mulv n Q (vel d))) by (auto; intros; apply Vqd; lia).
    set (s := dot n (vel d) (mulv n Q (vel d))) in *. set (a := dot n (vel d) (vel g) / s) in *.
    destruct DEC as (S0 & G0 & GQ & DEC).
    unfold zVecCatNCDRC, zVecCatNC, vop2. rewrite L1, L2, L3, Lqd, L1, !Nat.leb_refl. cbn [andb bind sdiv smul sopp sadd RealS].
    fold a. set (x1 := FV n (fun i => vel x i + vel d i * - a)). set (g1 := FV n (fun i => vel g i + vel qd i * - a)).
    assert (QX : quad n Q c (vel x1) = quad n Q c (vel x) - dot n (vel g) (vel g) * dot n (vel g) (vel g) / (2 * s)).
    { rewrite <- DEC. apply quad_ext. intros; unfold x1; cbn [vel]; ring. }
    assert (G1 : forall i, (i < n)%nat -> vel g1 i = mulv n Q (vel x1) i + c i).
    { intros i Hi. unfold g1. cbn [vel]. rewrite G, Vqd by lia. unfold x1. cbn [vel]. rewrite (mulv_ext n Q (fun i => vel x i + vel d i * - a) (fun i => vel x i + - a * vel d i)) by (intros; ring).
      rewrite mulv_lin. unfold Q; ring. }
    assert (DECR : 0 <= dot n (vel g) (vel g) * dot n (vel g) (vel g) / (2 * s)).
    { apply Rmult_le_pos; [nra|]. left. apply Rinv_0_lt_compat. lra. }
    assert (N0 : (0 < n)%nat) by (destruct NZ as (i & Hi & _); lia).
    assert (GAP : forall y l L, stationary y -> bounds l L -> quad n Q c (vel x1) - quad n Q c y <= (1 - l / (4 * L)) * (quad n Q c (vel x) - quad n Q c y)).
    { intros y l L Hy HB. pose proof (quad_gap y l L (vel x) (vel g) Hy HB G) as GP. rewrite QX. destruct (ratio l L HB N0) as (HL & Hrt & _). destruct HB as (Hl & Hb).
      assert (SL : s <= 4 * L * dot n (vel g) (vel g)) by (pose proof (proj2 (Hb (vel g))); nra).
      set (G2 := dot n (vel g) (vel g)) in *.
      assert (X1 : G2 / (8 * L) <= G2 * G2 / (2 * s)).
      { apply Rmult_le_reg_r with (8 * L * s); [nra|]. replace (G2 / (8 * L) * (8 * L * s)) with (G2 * s) by (field; lra).
        replace (G2 * G2 / (2 * s) * (8 * L * s)) with (G2 * (4 * L * G2)) by (field; lra). apply Rmult_le_compat_l; lra. }
      assert (X2 : l / (4 * L) * (quad n Q c (vel x) - quad n Q c y) <= G2 / (8 * L)).
      { replace (G2 / (8 * L)) with (l / (4 * L) * (G2 / (2 * l))) by (field; lra). apply Rmult_le_compat_l; [|exact GP].
        lra. }
      lra. }
    destruct (zVecIsTol tol g1) eqn:ET.
    { exists true, x1, g1, d. split; [reflexivity|]. split; [reflexivity|]. split; [lra|].
      intros i Hi. rewrite <- G1 by auto. apply (istol_R _ _ ET). exact Hi. }
    unfold zVecCatC, zVecCatNC, vop2. rewrite L3. cbn [vlen g1]. rewrite Nat.eqb_refl, Nat.leb_refl. cbn [andb bind].
    rewrite (inner_R g1 qd) by (cbn [vlen g1]; congruence). cbn [vlen g1] in *. fold g1.
    rewrite (dot_ext n (vel g1) (vel g1) (vel qd) (mulv n Q (vel d))) by (auto; intros; apply Vqd; lia).
    set (p := dot n (vel g1) (mulv n Q (vel d))). cbn [sdiv RealS].
    match goal with |- context [cg_loop tol k q x1 g1 ?dd] => set (d1 := dd) end.
    assert (NZ1 : exists i, (i < n)%nat /\ vel g1 i <> 0).
    { destruct (istol_R_f _ _ ET) as (i & I1 & I2). exists i. split; [exact I1|]. intros E. rewrite E, Rabs_R0 in I2. lra. }
    assert (DG : dot n (vel d) (vel g1) = 0).
    { rewrite (dot_ext n (vel d) (vel d) (vel g1) (fun i => vel g i + - a * mulv n Q (vel d) i)).
      - rewrite dot_lin. fold s. unfold a. field. lra.
      - auto.
      - intros i Hi. unfold g1. cbn [vel]. rewrite Vqd by lia. unfold Q. ring. }
    assert (D1 : forall i, (i < n)%nat -> vel d1 i = vel g1 i + p / s * vel d i) by (intros; unfold d1; cbn [vel sadd smul RealS]; ring).
    assert (I1 : cginv x1 g1 d1).
    { repeat split; auto.
      - rewrite (dot_ext n (vel d1) (fun i => vel g1 i + p / s * vel d i) (vel g1) (vel g1)) by auto. rewrite dot_lin_l, DG. ring.
      - rewrite (dot_ext n (vel d1) (fun i => vel g1 i + p / s * vel d i) (mulv n Q (vel d1)) (mulv n Q (fun i => vel g1 i + p / s * vel d i))) by (auto; intros; apply mulv_ext; auto).
        rewrite form_sq by exact SY. fold s p. pose proof (form_cs n Q SY (vel g1) (vel d) pd_psd S0) as CS. fold s p in CS.
        replace (2 * (p / s) * p + p / s * (p / s) * s) with (3 * (p * p / s)) by (field; lra).
        assert (p * p / s <= dot n (vel g1) (mulv n Q (vel g1))).
        { apply Rmult_le_reg_r with s; [lra|]. replace (p * p / s * s) with (p * p) by (field; lra). exact CS. }
        replace (dot n (vel g1) (mulv n Q (vel g1)) + 2 * (p / s) * p + p / s * (p / s) * s) with (dot n (vel g1) (mulv n Q (vel g1)) + 3 * (p * p / s)) by (field; lra).
        lra. }
    destruct (IH x1 g1 d1 I1) as (b & x' & g' & d' & E & Lx & M & F). exists b, x', g', d'. split; [exact E|]. split; [exact Lx|]. split; [lra|].
    destruct b; [exact F|]. intros y l L Hy HB. eapply Rle_trans; [exact (F y l L Hy HB)|]. pose proof (ratio l L HB N0) as (_ & Hrt). cbn [pow]. replace ((1 - l / (4 * L)) * (1 - l / (4 * L)) ^ k * (quad n Q c (vel x) - quad n Q c y)) with ((1 - l / (4 * L)) ^ k * ((1 - l / (4 * L)) * (quad n Q c (vel x) - quad n Q c y))) by ring.
    apply Rmult_le_compat_l; [apply pow_le; lra|exact (GAP y l L Hy HB)].
  Qed.
End CG.
