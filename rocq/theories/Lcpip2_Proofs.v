(** Lemmas for C102: the neighbourhood of the central path. *)
From Coq Require Import Reals Lra Lia List Psatz.
From Verif Require Import Prelude Prelude_Proofs Scalar RealLib Fmat Fmat_Proofs Safe LE_Model LE_Spec IP_Model IP_Proofs Vop Root_Model Qp_Model Qp_Spec Qp_Proofs Asm_Model Asm_Proofs Lcpip_Model Lcpip_Spec Lcpip_Proofs.
Import ListNotations.
Local Open Scope R_scope.

(** the step length between 0 and 1 is a root of the equation of the neighbourhood *)
Lemma step_root N B2 C k2 x a : 0 < N -> 0 <= C -> N = B2 ->
  let k1 := N / k2 in x = k1 / (1 + sqrt (1 + k1 / k2 * C)) -> ~ (-4 < x < 0) -> a = 2 / (1 + sqrt (1 + 4 / x)) -> 0 < a < 1 ->
  0 < x /\ 2 * x * k2 + x * x * C = B2 /\ a * a = x * (1 - a).
Proof.
  intros HN HC <- k1 Ex Nx Ea Ha.
  assert (X : 0 < x).
  { destruct (Rlt_le_dec 0 x) as [|L]; auto. exfalso. assert (x = 0 \/ x <= -4) as [Z|Z] by (destruct (Rlt_le_dec x 0); [right; lra|left; lra]).
    - rewrite Z in Ea. unfold Rdiv in Ea. rewrite Rinv_0, Rmult_0_r, Rplus_0_r, sqrt_1 in Ea. lra.
    - assert (I : -1 <= 4 / x < 0).
      { split; [apply Rmult_le_reg_r with (- x); [lra|]; unfold Rdiv; replace (4 * / x * - x) with (-4) by (field; lra); lra|].
        assert (/ x < 0) by (apply Rinv_lt_0_compat; lra). unfold Rdiv. nra. }
      assert (S : sqrt (1 + 4 / x) < 1) by (rewrite <- sqrt_1 at 2; apply sqrt_lt_1; lra). pose proof (sqrt_pos (1 + 4 / x)) as S0.
      assert (1 < a). { rewrite Ea. apply Rmult_lt_reg_r with (1 + sqrt (1 + 4 / x)); [lra|]. unfold Rdiv. rewrite Rmult_assoc, Rinv_l by lra. lra. } lra. }
  split; auto.
  pose proof (sqrt_pos (1 + k1 / k2 * C)) as S0. set (S := sqrt (1 + k1 / k2 * C)) in *.
  assert (K1 : k1 = x * (1 + S)) by (rewrite Ex; field; lra).
  assert (P1 : 0 < k1) by (rewrite K1; apply Rmult_lt_0_compat; lra).
  assert (P2 : 0 < k2).
  { destruct (Rlt_le_dec 0 k2) as [|L]; auto. exfalso. destruct (Req_dec k2 0) as [Z|Z].
    - unfold k1 in P1. rewrite Z in P1. unfold Rdiv in P1. rewrite Rinv_0 in P1. lra.
    - assert (/ k2 < 0) by (apply Rinv_lt_0_compat; lra). unfold k1, Rdiv in P1. nra. }
  assert (NK : N = k1 * k2) by (unfold k1; field; lra).
  assert (D : S * S = 1 + k1 / k2 * C).
  { unfold S. apply sqrt_sqrt. assert (0 < k1 / k2) by (apply Rdiv_lt_0_compat; auto). nra. }
  assert (DC : k1 * C = k2 * (S * S - 1)) by (rewrite D; field; lra).
  split.
  - rewrite NK. apply Rmult_eq_reg_r with (1 + S); [|lra].
    replace ((2 * x * k2 + x * x * C) * (1 + S)) with (2 * k2 * (x * (1 + S)) + x * (C * (x * (1 + S)))) by ring.
    rewrite <- K1. replace (C * k1) with (k2 * (S * S - 1)) by lra.
    replace (x * (k2 * (S * S - 1))) with (x * (1 + S) * k2 * (S - 1)) by ring. rewrite <- K1. ring.
  - assert (I : 0 < 4 / x) by (apply Rdiv_lt_0_compat; lra).
    assert (UU : sqrt (1 + 4 / x) * sqrt (1 + 4 / x) = 1 + 4 / x) by (apply sqrt_sqrt; lra).
    pose proof (sqrt_pos (1 + 4 / x)) as U0. set (U := sqrt (1 + 4 / x)) in *.
    assert (XU : x * (U * U - 1) = 4) by (rewrite UU; field; lra).
    assert (AU : a * (1 + U) = 2) by (rewrite Ea; field; lra).
    apply Rmult_eq_reg_r with ((1 + U) * (1 + U)); [|apply Rgt_not_eq; nra].
    replace (a * a * ((1 + U) * (1 + U))) with ((a * (1 + U)) * (a * (1 + U))) by ring. rewrite AU.
    replace (x * (1 - a) * ((1 + U) * (1 + U))) with (x * (1 + U) * ((1 + U) - a * (1 + U))) by ring. rewrite AU. nra.
Qed.

(** from the neighbourhood to the signs *)
Lemma sum_sq_ge n f i : (i < n)%nat -> f i * f i <= rsum n (fun j => f j * f j).
Proof.
  intros Hi. rewrite (rsum_split n i) by auto. pose proof (rsum_nonneg i (fun j => f j * f j)) as A. pose proof (rsum_nonneg (n - S i) (fun j => f (S i + j)%nat * f (S i + j)%nat)) as B.
  cbv beta in *. specialize (A ltac:(intros; nra)). specialize (B ltac:(intros; nra)). lra.
Qed.
Lemma sum_sq_le n f : (forall i, (i < n)%nat -> 0 <= f i) -> rsum n (fun i => f i * f i) <= rsum n f * rsum n f.
Proof.
  induction n as [|n IH]; intros H; cbn [rsum]; [lra|]. specialize (IH ltac:(auto)). pose proof (rsum_nonneg n f ltac:(auto)). pose proof (H n ltac:(lia)). nra.
Qed.
(** products of the components of a direction whose inner product with its image is not negative *)
Lemma product_bound n (w z dw dz : nat -> R) t : 0 < t -> (forall i, (i < n)%nat -> 0 < w i /\ 0 < z i) ->
  rsum n (fun i => (w i * z i - t) * (w i * z i - t)) <= (t / 2) * (t / 2) ->
  (forall i, (i < n)%nat -> z i * dw i + w i * dz i = t - w i * z i) -> 0 <= dot n dz dw ->
  rsum n (fun i => (dw i * dz i) * (dw i * dz i)) <= (t / 4) * (t / 4).
Proof.
  intros Ht WZ HB HD HP.
  set (g := fun i => dw i * dz i). set (gp := fun i => Rmax (g i) 0). set (gm := fun i => Rmax (- g i) 0).
  assert (G0 : forall i, 0 <= gp i /\ 0 <= gm i /\ g i = gp i - gm i /\ g i * g i = gp i * gp i + gm i * gm i).
  { intros i. unfold gp, gm, Rmax. destruct (Rle_dec (g i) 0), (Rle_dec (- g i) 0); repeat split; try lra; nra. }
  assert (PB : forall i, (i < n)%nat -> gp i <= (w i * z i - t) * (w i * z i - t) / (2 * t)).
  { intros i Hi. destruct (WZ i Hi) as (Wi & Zi). pose proof (HD i Hi) as Di. pose proof (sum_sq_ge n (fun i => w i * z i - t) i Hi) as L. cbv beta in L.
    assert (LP : t / 2 <= w i * z i). { destruct (Rle_lt_dec (t / 2) (w i * z i)); auto. exfalso. assert ((t / 2) * (t / 2) < (w i * z i - t) * (w i * z i - t)); nra. }
    unfold gp, Rmax. destruct (Rle_dec (g i) 0). { apply Rmult_le_pos; [exact (Rle_0_sqr (w i * z i - t))|]. left. apply Rinv_0_lt_compat. lra. }
    apply Rmult_le_reg_r with (2 * t); [lra|]. unfold Rdiv. rewrite Rmult_assoc, Rinv_l by lra. rewrite Rmult_1_r.
    assert (4 * ((z i * dw i) * (w i * dz i)) <= (w i * z i - t) * (w i * z i - t)) by (replace (w i * z i - t) with (- (z i * dw i + w i * dz i)) by lra; pose proof (Rle_0_sqr (z i * dw i - w i * dz i)) as SQ; unfold Rsqr in SQ; lra).
    unfold g in *. nra. }
  assert (P1 : rsum n gp <= t / 8).
  { eapply Rle_trans; [apply (rsum_le n gp); exact PB|]. unfold Rdiv at 1. rewrite rsum_scal_r. apply Rmult_le_reg_r with (2 * t); [lra|]. rewrite Rmult_assoc, Rinv_l by lra. nra. }
  assert (P2 : rsum n gm <= rsum n gp).
  { assert (dot n dz dw = rsum n gp - rsum n gm). { unfold dot. rewrite <- rsum_sub. apply rsum_ext. intros i _. destruct (G0 i) as (_ & _ & <- & _). unfold g. ring. } lra. }
  assert (0 <= rsum n gm) by (apply rsum_nonneg; intros; apply G0).
  pose proof (sum_sq_le n gp ltac:(intros; apply G0)) as Q1. pose proof (sum_sq_le n gm ltac:(intros; apply G0)) as Q2.
  replace (rsum n (fun i => dw i * dz i * (dw i * dz i))) with (rsum n (fun i => gp i * gp i) + rsum n (fun i => gm i * gm i)).
  2:{ rewrite <- rsum_add. apply rsum_ext. intros i _. destruct (G0 i) as (_ & _ & _ & E). fold (g i). lra. }
  nra.
Qed.

Section Round.
  Context (n : nat) (w z dw dz : nat -> R) (t a : R).
  Hypothesis C : centred n w z t.
  Hypothesis HD : forall i, (i < n)%nat -> z i * dw i + w i * dz i = - (w i * z i).
  Hypothesis Ha : 0 < a < 1.
  Let b := fun i => w i * z i - t.
  Let c := fun i => dw i * dz i.
  Hypothesis HS : let k2 := dot n b c in let k1 := (1 / 2 * t * (1 / 2 * t) - dot n b b) / k2 in
    let x := k1 / (1 + sqrt (1 + k1 / k2 * dot n c c)) in ~ (-4 < x < 0) /\ a = 2 / (1 + sqrt (1 + 4 / x)).
  Let w' := fun i => w i + a * dw i.
  Let z' := fun i => z i + a * dz i.
  Let t' := t * (1 - a).
  Lemma pred_near : 0 < t' /\ (forall i, (i < n)%nat -> 0 < w' i /\ 0 < z' i) /\ rsum n (fun i => (w' i * z' i - t') * (w' i * z' i - t')) <= (t' / 2) * (t' / 2).
  Proof.
    destruct C as (Ht & WZ & HB). cbv zeta in HS. destruct HS as (Nx & Ea).
    assert (T' : 0 < t') by (apply Rmult_lt_0_compat; lra).
    assert (BB : dot n b b <= t / 4 * (t / 4)) by exact HB.
    destruct (step_root (1 / 2 * t * (1 / 2 * t) - dot n b b) (1 / 2 * t * (1 / 2 * t) - dot n b b) (dot n c c) (dot n b c) _ a ltac:(nra) (dot_self n c) eq_refl eq_refl Nx Ea Ha) as (X & E1 & E2).
    set (x := _ / _ / _) in *. clear Nx Ea.
    assert (PR : forall i, (i < n)%nat -> w' i * z' i - t' = (1 - a) * (b i + x * c i)).
    { intros i Hi. unfold w', z', t'. pose proof (HD i Hi) as D.
      replace ((w i + a * dw i) * (z i + a * dz i)) with (w i * z i + a * (z i * dw i + w i * dz i) + (a * a) * (dw i * dz i)) by ring. rewrite D, E2. unfold b, c. ring. }
    assert (SQ : rsum n (fun i => (w' i * z' i - t') * (w' i * z' i - t')) = (t' / 2) * (t' / 2)).
    { rewrite (rsum_ext n _ (fun i => (1 - a) * (1 - a) * (b i * b i + 2 * x * (b i * c i) + x * x * (c i * c i)))) by (intros i Hi; rewrite PR by auto; ring).
      rewrite rsum_scal, !rsum_add, !rsum_scal. change (rsum n (fun i => b i * b i)) with (dot n b b). change (rsum n (fun i => b i * c i)) with (dot n b c). change (rsum n (fun i => c i * c i)) with (dot n c c).
      unfold t'. replace (dot n b b + 2 * x * dot n b c + x * x * dot n c c) with (1 / 2 * t * (1 / 2 * t)) by lra. field. }
    split; auto. split; [|lra]. intros i Hi. destruct (WZ i Hi) as (Wi & Zi).
    pose proof (sum_sq_ge n (fun i => w' i * z' i - t') i Hi) as L. cbv beta in L. rewrite SQ in L.
    assert (P : 0 < w' i * z' i). { destruct (Rlt_le_dec 0 (w' i * z' i)); auto. exfalso. nra. }
    assert (S : 0 < z i * w' i + w i * z' i). { unfold w', z'. replace (z i * (w i + a * dw i) + w i * (z i + a * dz i)) with (2 * (w i * z i) + a * (z i * dw i + w i * dz i)) by ring. rewrite HD by auto. assert (0 < w i * z i) by nra. nra. }
    destruct (Rlt_le_dec 0 (w' i)) as [A|A]; [split; auto; nra|]. exfalso. destruct (Rlt_le_dec 0 (z' i)) as [Bz|Bz]; nra.
  Qed.
End Round.
Lemma corr_near n (w z dw dz : nat -> R) t : 0 < t -> (forall i, (i < n)%nat -> 0 < w i /\ 0 < z i) -> rsum n (fun i => (w i * z i - t) * (w i * z i - t)) <= (t / 2) * (t / 2) ->
  (forall i, (i < n)%nat -> z i * dw i + w i * dz i = t - w i * z i) -> 0 <= dot n dz dw -> centred n (fun i => w i + dw i) (fun i => z i + dz i) t.
Proof.
  intros Ht WZ HB HD HP. pose proof (product_bound n w z dw dz t Ht WZ HB HD HP) as PB.
  assert (PR : forall i, (i < n)%nat -> (w i + dw i) * (z i + dz i) - t = dw i * dz i).
  { intros i Hi. pose proof (HD i Hi). replace ((w i + dw i) * (z i + dz i)) with (w i * z i + (z i * dw i + w i * dz i) + dw i * dz i) by ring. rewrite HD by auto. ring. }
  split; auto. split.
  - intros i Hi. destruct (WZ i Hi) as (Wi & Zi). pose proof (sum_sq_ge n (fun i => dw i * dz i) i Hi) as L. cbv beta in L.
    assert (P : 0 < (w i + dw i) * (z i + dz i)). { pose proof (PR i Hi). destruct (Rlt_le_dec 0 ((w i + dw i) * (z i + dz i))); auto. exfalso. nra. }
    assert (S : 0 < z i * (w i + dw i) + w i * (z i + dz i)). { pose proof (HD i Hi). assert (0 < w i * z i) by nra. nra. }
    destruct (Rlt_le_dec 0 (w i + dw i)) as [A|A]; [split; auto; nra|]. exfalso. destruct (Rlt_le_dec 0 (z i + dz i)) as [Bz|Bz]; nra.
  - rewrite (rsum_ext n _ (fun i => dw i * dz i * (dw i * dz i))) by (intros i Hi; rewrite PR by auto; reflexivity). exact PB.
Qed.

Section Loop.
  Context (ztol gtol : R) (n : nat) (m : fmat R) (q : fvec R).
  Hypothesis Hn : (0 < n)%nat.
  Hypothesis M1 : nr m = n.
  Hypothesis M2 : nc m = n.
  Hypothesis Q : vlen q = n.
  Local Notation resid w z := (residual n (el m) (vel q) (vel w) (vel z)).
  Lemma centred_ext w z w' z' t : (forall i, (i < n)%nat -> w i = w' i) -> (forall i, (i < n)%nat -> z i = z' i) -> centred n w z t -> centred n w' z' t.
  Proof.
    intros E1 E2 (A & B & C). split; auto. split; [intros i Hi; rewrite <- E1, <- E2; auto|]. rewrite (rsum_ext n _ (fun i => (w i * z i - t) * (w i * z i - t))); auto. intros i Hi. now rewrite E1, E2.
  Qed.
  Lemma left_over_app l1 l2 : left_over (l1 ++ l2) = left_over l1 * left_over l2.
  Proof. induction l1 as [|a l IH]; cbn [app left_over]; [ring|]. rewrite IH. ring. Qed.
  Lemma loop_R k : forall w z t idx st l, vlen w = n -> vlen z = n -> perm n idx -> lcpip_loop ztol gtol k n m q w z t idx st = Ok (Some l) ->
    vlen (lw l) = n /\ vlen (lz l) = n /\
    exists new, steps l = new ++ st /\ (forall i, (i < n)%nat -> resid (lw l) (lz l) i = left_over new * resid w z i) /\
      (ranout l = false -> (forall i, (i < n)%nat -> Rabs (resid (lw l) (lz l) i) <= ztol) /\ Rabs (dot n (vel (lw l)) (vel (lz l))) <= ztol) /\
      (ranout l = true -> length new = k) /\
      (gtol = 0 -> psd n (el m) -> centred n (vel w) (vel z) t -> (forall a, In a new -> 0 < a < 1) -> centred n (vel (lw l)) (vel (lz l)) (t * left_over new)).
  Proof.
    induction k as [|k IH]; intros w z t idx st l W Z P H; cbn [lcpip_loop] in H.
    - injection H as <-. cbn [lw lz ranout steps]. conjs; auto. exists []. cbn [left_over app length]. conjs; auto; try discriminate; intros; [ring|]. now rewrite Rmult_1_r.
    - destruct (err_ok n m q Hn M1 M2 Q w z W Z) as (r & E & RL & RR). rewrite E in H. cbn [bind] in H.
      destruct (zVecIsTol ztol r && is_tol ztol (dot n (vel w) (vel z))) eqn:ET.
      { injection H as <-. cbn [lw lz ranout steps]. conjs; auto. exists []. cbn [left_over app length]. conjs; auto; try discriminate; intros; [ring| |now rewrite Rmult_1_r].
        apply andb_prop in ET. destruct ET as (T1 & T2). split.
        - intros i Hi. rewrite <- RR by auto. apply istol_R; auto. lia.
        - rewrite is_tol_R in T2. destruct (Rleb_spec (Rabs (dot n (vel w) (vel z))) ztol); [auto|discriminate]. }
      clear ET.
      destruct (s_pred gtol n m q Hn (conj M1 M2) Q w z r idx W Z RL P) as (o & E1 & HO). rewrite E1 in H. cbn [bind] in H. destruct o as [[[dz dw] idx1]|]; [|discriminate]. destruct HO as (DZ & DW & P1).
      destruct (pred_R n m q Hn M1 M2 Q gtol w z r idx dz dw idx1 W Z RL P E1) as (F1 & F2).
      destruct (s_step n w z dw dz t W Z DW DZ) as (o & E2 & _). rewrite E2 in H. cbn [bind] in H. destruct o as [[a t']|]; [|discriminate].
      destruct (step_R n w z dw dz t a t' W Z DW DZ E2) as (ET & SR). unfold zVecCatNC, zVecAddNC in H.
      rewrite vop2_ok in H by congruence. cbn [bind] in H. rewrite vop2_ok in H by congruence. cbn [bind] in H.
      match type of H with context [zLCPIP_PCCorr _ _ _ (store ?u) (store ?v)] => destruct (store_ok u) as (S1 & S2); destruct (store_ok v) as (S3 & S4); remember (store u) as w1 eqn:Ew; remember (store v) as z1 eqn:Ez end. clear Ew Ez.
      cbn [vlen vel sadd smul RealS] in S1, S2, S3, S4. rewrite W in S1, S2. rewrite Z in S3, S4.
      destruct (s_corr gtol n m q Hn (conj M1 M2) Q w1 z1 t' idx1 S1 S3 P1) as (o & E3 & HO). rewrite E3 in H. cbn [bind] in H. destruct o as [[[dz2 dw2] idx2]|]; [|discriminate]. destruct HO as (DZ2 & DW2 & P2).
      destruct (corr_R n m q Hn M1 M2 Q gtol w1 z1 t' idx1 dz2 dw2 idx2 S1 S3 P1 E3) as (G1 & G2).
      rewrite vop2_ok in H by congruence. cbn [bind] in H. rewrite vop2_ok in H by congruence. cbn [bind] in H.
      match type of H with context [lcpip_loop _ _ _ _ _ _ (store ?u) (store ?v)] => destruct (store_ok u) as (S5 & S6); destruct (store_ok v) as (S7 & S8); remember (store u) as w2 eqn:Ew; remember (store v) as z2 eqn:Ez end. clear Ew Ez.
      cbn [vlen vel sadd smul RealS] in S5, S6, S7, S8. rewrite S1 in S5, S6. rewrite S3 in S7, S8.
      destruct (IH w2 z2 t' idx2 (a :: st) l S5 S7 P2 H) as (L1 & L2 & new & N1 & N2 & N3 & N4 & N5).
      assert (RS : forall i, (i < n)%nat -> resid w2 z2 i = (1 - a) * resid w z i).
      { intros i Hi. unfold residual. rewrite (mulv_ext n (el m) (vel z2) (fun j => (vel z j + a * vel dz j) + 1 * vel dz2 j)) by (intros j Hj; rewrite S8, S4 by auto; ring).
        rewrite mulv_lin, mulv_lin. rewrite S6, S2, G1, F1, RR by auto. unfold residual. ring. }
      conjs; auto. exists (new ++ [a]). conjs.
      + now rewrite <- app_assoc.
      + intros i Hi. rewrite N2, RS by auto. rewrite left_over_app. cbn [left_over]. ring.
      + exact N3.
      + intros RO. rewrite app_length, N4 by auto. cbn. lia.
      + intros G0 PSD CE AS. rewrite left_over_app. cbn [left_over]. replace (t * (left_over new * ((1 - a) * 1))) with (t' * left_over new) by (rewrite ET; ring).
        apply N5; auto; [|intros x Hx; apply AS, in_or_app; auto].
        assert (Ha : 0 < a < 1) by (apply AS, in_or_app; right; left; auto).
        destruct (pred_near n (vel w) (vel z) (vel dw) (vel dz) t a CE (F2 G0) Ha SR) as (T' & WZ & NB). rewrite <- ET in T', NB.
        assert (C2 : centred n (fun i => vel w1 i + vel dw2 i) (fun i => vel z1 i + vel dz2 i) t').
        { apply corr_near; auto.
          - intros i Hi. rewrite S2, S4 by auto. destruct (WZ i Hi) as (A & B). split; [rewrite Rmult_comm in A|rewrite Rmult_comm in B]; auto.
          - rewrite (rsum_ext n _ (fun i => ((vel w i + a * vel dw i) * (vel z i + a * vel dz i) - t') * ((vel w i + a * vel dw i) * (vel z i + a * vel dz i) - t'))); auto.
            intros i Hi. rewrite S2, S4 by auto. now rewrite !(Rmult_comm _ a).
          - rewrite (dot_ext n (vel dz2) (vel dz2) (vel dw2) (mulv n (el m) (vel dz2))); auto. }
        revert C2. apply centred_ext; intros i Hi; rewrite ?S6, ?S8; auto.
  Qed.
End Loop.
