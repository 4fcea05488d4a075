(** The solvers that minimise a norm or an error, and the singularity-robust ones. *)
From Coq Require Import Reals Lra Lia Psatz.
From Verif Require Import Prelude Prelude_Proofs Scalar RealLib Fmat Fmat_Proofs LE_Model LE_Spec LE_Props IP_Model IP_Proofs Vop Qp_Proofs Eig_Model
  Gen_Model Gen_Spec Gen_Proofs.
Local Open Scope R_scope.

Lemma least_ext p (S S' : (nat -> R) -> Prop) f g x : (forall z, S z <-> S' z) -> (forall z, f z = g z) -> least p S f x -> least p S' g x.
Proof.
  intros H1 H2 (A & B). split; [now apply H1|]. intros z Hz. rewrite <- !H2. apply B. now apply H1.
Qed.
Lemma mulmtv_R (m : fmat R) (x v : fvec R) : nr m = vlen x -> nc m = vlen v ->
  exists v', zMulMatTVecNC m x v = Ok v' /\ vlen v' = vlen v /\ forall k, (k < vlen v)%nat -> vel v' k = rsum (nr m) (fun i => el m i k * vel x i).
Proof.
  intros H1 H2. unfold zMulMatTVecNC. rewrite (proj2 (Nat.leb_le _ _)), (proj2 (Nat.leb_le _ _)) by lia. cbn [andb]. eexists. split; [reflexivity|]. cbn [vlen vel].
  split; auto. intros k Hk. rewrite (proj2 (Nat.ltb_lt _ _)) by lia. rewrite ksum_R. reflexivity.
Qed.
Lemma op2_R (f : R -> R -> R) (v w : fvec R) : vlen w = vlen v -> vop2 f v w v = Ok (FV (vlen v) (fun i => f (vel v i) (vel w i))).
Proof. intros H. unfold vop2. rewrite H, Nat.leb_refl. reflexivity. Qed.
Lemma weigh_vec_R n (b : fvec R) w : vlen b = n -> wfit n w ->
  exists b', weigh_vec b w = Ok b' /\ vlen b' = n /\ forall i, vel b' i = wt w i * vel b i.
Proof.
  intros H F. destruct w as [w|]; cbn [weigh_vec wt wfit] in *.
  - unfold zVecAmpNCDRC. rewrite op2_R by congruence. eexists. split; [reflexivity|]. cbn [vlen vel]. split; auto. intros. rs. ring.
  - eexists. split; [reflexivity|]. split; auto. intros. ring.
Qed.
Definition wpos (n : nat) (w : option (fvec R)) : Prop := forall i, (i < n)%nat -> 0 < wt w i.
Definition wnonneg (n : nat) (w : option (fvec R)) : Prop := forall i, (i < n)%nat -> 0 <= wt w i.

(** A W A^T *)
Lemma norm_mat n p (a : fmat R) w : nr a = n -> nc a = p -> wfit p w ->
  exists m, match w with Some _ => zMatQuadNC a w (zmat n n) | None => zMulMatMatTNC a a (zmat n n) end = Ok m /\ nr m = n /\ nc m = n /\
    forall i j, (i < n)%nat -> (j < n)%nat -> el m i j = rsum p (fun k => wt w k * el a i k * el a j k).
Proof.
  intros R1 C1 F. destruct w as [w|].
  - destruct (quad_ok n p (fun i k => mget a i k) (el a) (Some w) ltac:(intros; apply mget_ok; lia) F (zmat n n)) as (m & E & A1 & A2 & A3); auto.
    exists m. unfold zMatQuadNC. rewrite R1, C1. auto.
  - unfold zMulMatMatTNC. cbn [nr nc zmat]. rewrite R1, C1, !Nat.leb_refl. cbn [andb]. eexists. split; [reflexivity|]. cbn [nr nc el]. conjs; auto.
    intros i j Hi Hj. rewrite ksum_R. apply rsum_ext. intros. cbn [wt]. rs. ring.
Qed.
Lemma error_mat n p (a : fmat R) w : nr a = n -> nc a = p -> wfit n w ->
  exists m, zMatTQuadNC a w (zmat p p) = Ok m /\ nr m = p /\ nc m = p /\
    forall k l, (k < p)%nat -> (l < p)%nat -> el m k l = rsum n (fun i => wt w i * el a i k * el a i l).
Proof.
  intros R1 C1 F. destruct (quad_ok p n (fun i k => mget a k i) (fun i k => el a k i) w ltac:(intros; apply mget_ok; lia) F (zmat p p)) as (m & E & A1 & A2 & A3); auto.
  exists m. unfold zMatTQuadNC. rewrite R1, C1. auto.
Qed.

Section Solvers.
  Variables (n p : nat) (a : fmat R).
  Hypothesis Hn : (0 < n)%nat.
  Hypothesis Hp : (0 < p)%nat.
  Hypothesis R1 : nr a = n.
  Hypothesis C1 : nc a = p.

  Lemma normmin_ok (b : fvec R) w ans idx : vlen b = n -> vlen ans = p -> wfit p w -> wpos p w -> perm n idx ->
    exists o, zLESolveNormMinDST 0 n idx a b w ans = Ok o /\
      match o with
      | Some x => vlen x = p /\ rows_indep n p (el a) /\ least p (fun z => solves n p (el a) z (vel b)) (wsq p (rinv (wt w))) (vel x)
      | None => ~ rows_indep n p (el a)
      end.
  Proof.
    intros B X F W P. unfold zLESolveNormMinDST. destruct (norm_mat n p a w R1 C1 F) as (m & E & M1 & M2 & M3). rewrite E. cbn [bind].
    destruct (gauss_ok n n n m b idx Hn M1 M2 B (le_n n) (le_n n) P) as (o & E2 & H). rewrite E2. cbn [bind].
    pose proof (back_nonsingular n p (el a) (wt w) W (el m) M3) as NS. destruct o as [y|].
    - destruct H as (Y & S & N). destruct (mulmtv_R a y ans) as (v & E3 & V1 & V2); try congruence. rewrite E3. cbn [bind].
      assert (XX : exists x, match w with Some w0 => rmap Some (zVecAmpNCDRC v w0) | None => Ok (Some v) end = Ok (Some x) /\ vlen x = p /\
        forall k, (k < p)%nat -> vel x k = back n (el a) (wt w) (vel y) k).
      { destruct (weigh_vec_R p v w ltac:(congruence) F) as (x & E4 & X1 & X2). exists x. split.
        - destruct w as [w|]; cbn [weigh_vec] in E4; [rewrite E4; reflexivity|injection E4 as <-; reflexivity].
        - split; auto. intros k Hk. rewrite X2, V2 by lia. rewrite R1. reflexivity. }
      destruct XX as (x & E4 & X1 & X2). exists (Some x). split; [exact E4|]. conjs; auto; [now apply NS|].
      apply (least_ext p (fun z => solves n p (el a) z (vel b)) _ (fun z => wsq p (rinv (wt w)) (fun k => z k - 0))); [tauto| |].
      { intros z. apply wsq_ext; auto. intros. ring. }
      apply (back_least n p (el a) (wt w) W (vel b) (fun _ => 0) (vel x) (vel y)).
      + intros k Hk. rewrite X2 by auto. ring.
      + intros i Hi. rewrite <- (S i Hi), (back_mv n p (el a) (wt w) (el m) M3) by auto. apply mv_ext. auto.
    - exists None. split; auto. rewrite <- NS. exact H.
  Qed.

  Lemma residual_ok (b x : fvec R) : vlen b = n -> vlen x = p ->
    exists r, zLEResidual a b x (zvec n) = Ok r /\ vlen r = n /\ forall i, (i < n)%nat -> vel r i = vel b i - mv p (el a) (vel x) i.
  Proof.
    intros B X. unfold zLEResidual. destruct (mulmv_R a x (zvec n)) as (r & E & V1 & V2); cbn [vlen zvec] in *; try congruence. rewrite E. cbn [bind].
    unfold zVecSubNC, vop2. rewrite V1, B, Nat.leb_refl. cbn [andb]. eexists. split; [reflexivity|]. cbn [vlen vel]. split; auto.
    intros i Hi. rewrite V2 by lia. rewrite X. reflexivity.
  Qed.

  Lemma refnormmin_ok (b : fvec R) w ref ans idx : vlen b = n -> vlen ref = p -> vlen ans = p -> wfit p w -> wpos p w -> perm n idx ->
    exists o, zLESolveRefNormMinDST 0 n idx a b w ref ans = Ok o /\
      match o with
      | Some x => vlen x = p /\ rows_indep n p (el a) /\
                  least p (fun z => solves n p (el a) z (vel b)) (fun z => wsq p (rinv (wt w)) (fun k => z k - vel ref k)) (vel x)
      | None => ~ rows_indep n p (el a)
      end.
  Proof.
    intros B RF X F W P. unfold zLESolveRefNormMinDST. destruct (norm_mat n p a w R1 C1 F) as (m & E & M1 & M2 & M3). rewrite E. cbn [bind].
    destruct (residual_ok b ref B RF) as (r & Er & Vr & Hr). rewrite Er. cbn [bind].
    destruct (gauss_ok n n n m r idx Hn M1 M2 Vr (le_n n) (le_n n) P) as (o & E2 & H). rewrite E2. cbn [bind].
    pose proof (back_nonsingular n p (el a) (wt w) W (el m) M3) as NS. destruct o as [y|].
    - destruct H as (Y & S & N). destruct (mulmtv_R a y ans) as (v & E3 & V1 & V2); try congruence. rewrite E3. cbn [bind].
      destruct (weigh_vec_R p v w ltac:(congruence) F) as (x & E4 & X1 & X2). rewrite E4. cbn [bind].
      unfold zVecAddNCDRC. rewrite op2_R by congruence. cbn [rmap bind]. eexists. split; [reflexivity|]. cbn [vlen vel]. conjs; auto; [now apply NS|].
      assert (XB : forall k, (k < p)%nat -> vel x k = back n (el a) (wt w) (vel y) k) by (intros k Hk; rewrite X2, V2, R1 by lia; reflexivity).
      apply (back_least n p (el a) (wt w) W (vel b) (vel ref) _ (vel y)).
      + intros k Hk. rewrite XB by auto. rs. ring.
      + intros i Hi. specialize (S i Hi). rewrite Hr, (back_mv n p (el a) (wt w) (el m) M3) in S by auto.
        assert (SX : mv p (el a) (vel x) i = mv p (el a) (back n (el a) (wt w) (vel y)) i) by (apply mv_ext; auto).
        assert (SS : mv p (el a) (fun i => (vel x i + vel ref i)%S) i = mv p (el a) (vel x) i + mv p (el a) (vel ref) i).
        { unfold mv. rewrite <- rsum_add. apply rsum_ext. intros. rs. ring. }
        rewrite SS, SX, S. ring.
    - exists None. split; auto. rewrite <- NS. exact H.
  Qed.

  Lemma errormin_ok (b : fvec R) w ans idx : vlen b = n -> vlen ans = p -> wfit n w -> wpos n w -> perm p idx ->
    exists o, zLESolveErrorMinDST 0 p idx a b w ans = Ok o /\
      match o with
      | Some x => vlen x = p /\ cols_indep n p (el a) /\ least p (fun _ => True) (fun z => wsq n (wt w) (resid p (el a) (vel b) z)) (vel x)
      | None => ~ cols_indep n p (el a)
      end.
  Proof.
    intros B X F W P. unfold zLESolveErrorMinDST. destruct (weigh_vec_R n b w B F) as (b' & E1 & B1 & B2). rewrite E1. cbn [bind].
    destruct (mulmtv_R a b' (zvec p)) as (v & E3 & V1 & V2); cbn [vlen zvec] in *; try congruence. rewrite E3. cbn [bind].
    destruct (error_mat n p a w R1 C1 F) as (m & E & M1 & M2 & M3). rewrite E. cbn [bind].
    destruct (gauss_ok p p (vlen ans) m v idx Hp M1 M2 ltac:(congruence) (le_n p) ltac:(lia) P) as (o & E2 & H).
    exists o. split; [exact E2|].
    assert (HM : forall k l, (k < p)%nat -> (l < p)%nat -> el m k l = rsum n (fun i => wt w i * el a i k * el a i l) + (if (k =? l)%nat then (fun _ => 0) k else 0)).
    { intros k l Hk Hl. rewrite M3 by auto. destruct (_ =? _)%nat; ring. }
    assert (NS : nonsingular p (el m) <-> cols_indep n p (el a)).
    { split; intros H' x Hx k Hk.
      - apply (H' x); auto. intros l Hl. rewrite (normal_mv n p (el a) (wt w) (fun _ => 0) (el m) HM) by auto. rewrite rsum_0; [ring|]. intros i Hi. rewrite Hx by auto. ring.
      - apply (H' x); auto. intros i Hi. apply (normal_kernel n p (el a) (wt w) (fun _ => 0) (el m) HM) in Hx.
        assert (Z : wsq p (fun _ => 0) x = 0) by (apply rsum_0; intros; ring). apply (wsq_0 n (wt w) (mv p (el a) x)); auto. lra. }
    destruct o as [x|]; [|rewrite <- NS; exact H]. destruct H as (Y & S & N). conjs; auto; [now apply NS|].
    apply (least_ext p (fun _ => True) _ (cost n p (el a) (wt w) (fun _ => 0) (vel b) (fun _ => 0))); [tauto| |].
    - intros z. unfold cost. assert (Z : wsq p (fun _ => 0) (fun k => z k - 0) = 0) by (apply rsum_0; intros; ring). rewrite Z. ring.
    - apply (normal_least n p (el a) (wt w) (fun _ => 0) (el m) HM); auto; [intros; apply Rlt_le; auto|intros; lra|].
      intros k Hk. rewrite (S k Hk), V2 by auto. rewrite R1. rewrite (rsum_ext n _ (fun i => el a i k * (wt w i * vel b i))) by (intros i Hi; rewrite B2; reflexivity). ring.
  Qed.

  (** the singularity-robust solvers; [d] is the weight of the norm *)
  Lemma sr_bias_ok (b wn : fvec R) we bias ans idx : vlen b = n -> vlen ans = p -> vlen wn = p -> wfit n we -> wnonneg n we -> (forall k, (k < p)%nat -> 0 <= vel wn k + bias) -> perm p idx ->
    exists o, zLESolveSRBiasDST 0 p idx a b wn we bias ans = Ok o /\
      match o with
      | Some x => vlen x = p /\ least p (fun _ => True) (fun z => wsq n (wt we) (resid p (el a) (vel b) z) + wsq p (fun k => vel wn k + bias) z) (vel x)
      | None => exists k, (k < p)%nat /\ vel wn k + bias = 0
      end.
  Proof.
    intros B X WN F W D P. unfold zLESolveSRBiasDST. destruct (weigh_vec_R n b we B F) as (b' & E1 & B1 & B2). rewrite E1. cbn [bind].
    destruct (mulmtv_R a b' (zvec p)) as (v & E3 & V1 & V2); cbn [vlen zvec] in *; try congruence. rewrite E3. cbn [bind].
    destruct (error_mat n p a we R1 C1 F) as (m & E & M1 & M2 & M3). rewrite E. cbn [bind].
    assert (AD : exists m', add_diag m wn bias = Ok m' /\ nr m' = p /\ nc m' = p /\
      forall k l, (k < p)%nat -> (l < p)%nat -> el m' k l = el m k l + (if (k =? l)%nat then vel wn k + bias else 0)).
    { unfold add_diag. rewrite M1.
      match goal with |- context [for_ 0 p ?f ?s] => destruct (for_inv (fun i m' => nr m' = p /\ nc m' = p /\
        forall k l, (k < p)%nat -> (l < p)%nat -> el m' k l = el m k l + (if (k =? l)%nat && (k <? i)%nat then vel wn k + bias else 0)) 0 p f s) as (m' & E' & Q1 & Q2 & Q3) end.
      - lia.
      - conjs; auto. intros k l Hk Hl. rewrite Bool.andb_false_r. ring.
      - intros i s Hi (Q1 & Q2 & Q3). rewrite vget_ok by lia. cbn [bind]. rewrite mmod_ok, mset_ok by lia. eexists. split; [reflexivity|]. cbn [nr nc el]. conjs; auto.
        intros k l Hk Hl. rewrite (Q3 k l) by auto. destruct (Nat.eqb_spec k i) as [->|Nk]; destruct (Nat.eqb_spec l i) as [->|Nl]; cbn [andb].
        + rewrite (Q3 i i) by auto. rewrite Nat.eqb_refl, Nat.ltb_irrefl. rewrite (proj2 (Nat.ltb_lt i (S i))) by lia. cbn [andb]. rs. ring.
        + rewrite (proj2 (Nat.eqb_neq i l)) by auto. reflexivity.
        + rewrite (proj2 (Nat.eqb_neq k i)) by auto. reflexivity.
        + destruct (Nat.eqb_spec k l) as [->|]; cbn [andb]; [|reflexivity]. destruct (Nat.ltb_spec l i), (Nat.ltb_spec l (S i)); try lia; reflexivity.
      - exists m'. split; [exact E'|]. conjs; auto. intros k l Hk Hl. rewrite Q3 by auto. rewrite (proj2 (Nat.ltb_lt k p)) by auto. rewrite Bool.andb_true_r. reflexivity. }
    destruct AD as (m' & E' & Q1 & Q2 & Q3). rewrite E'. cbn [bind].
    destruct (gauss_ok p p (vlen ans) m' v idx Hp Q1 Q2 ltac:(congruence) (le_n p) ltac:(lia) P) as (o & E2 & H).
    exists o. split; [exact E2|].
    assert (HM : forall k l, (k < p)%nat -> (l < p)%nat -> el m' k l = rsum n (fun i => wt we i * el a i k * el a i l) + (if (k =? l)%nat then (fun k => vel wn k + bias) k else 0)).
    { intros k l Hk Hl. rewrite Q3, M3 by auto. reflexivity. }
    destruct o as [x|].
    - destruct H as (Y & S & N). split; auto.
      apply (least_ext p (fun _ => True) _ (cost n p (el a) (wt we) (fun k => vel wn k + bias) (vel b) (fun _ => 0))); [tauto| |].
      + intros z. unfold cost. f_equal. apply wsq_ext; auto. intros; ring.
      + apply (normal_least n p (el a) (wt we) (fun k => vel wn k + bias) (el m') HM); auto.
        intros k Hk. rewrite (S k Hk), V2 by auto. rewrite R1. rewrite (rsum_ext n _ (fun i => el a i k * (wt we i * vel b i))) by (intros i Hi; rewrite B2; reflexivity). ring.
    - assert (DD : (forall k, (k < p)%nat -> 0 < vel wn k + bias) \/ exists k, (k < p)%nat /\ vel wn k + bias = 0).
      { clear - D. induction p as [|q IH]; [left; intros; lia|]. destruct IH as [IH|(k & Hk & IH)]; [intros; apply D; lia| |right; exists k; split; auto; lia].
        destruct (Req_dec (vel wn q + bias) 0) as [Z|Z]; [right; exists q; split; auto; lia|]. left. intros k Hk. destruct (Nat.eq_dec k q) as [->|Nk]; [specialize (D q ltac:(lia)); lra|apply IH; lia]. }
      destruct DD as [DP|]; auto. exfalso. apply H. intros x Hx k Hk. apply (normal_kernel n p (el a) (wt we) _ (el m') HM) in Hx.
      pose proof (wsq_nonneg n (wt we) (mv p (el a) x) W). pose proof (wsq_nonneg p _ x D). apply (wsq_0 p _ x DP); auto. lra.
  Qed.

  Lemma sr_ref_ok (b wn : fvec R) we ref ans idx : vlen b = n -> vlen ans = p -> vlen wn = p -> vlen ref = p -> wfit n we -> wnonneg n we -> (forall k, (k < p)%nat -> 0 <= vel wn k) -> perm p idx ->
    exists o, zLESolveSRRefDST 0 p idx a b wn we ref ans = Ok o /\
      match o with
      | Some x => vlen x = p /\ least p (fun _ => True) (fun z => wsq n (wt we) (resid p (el a) (vel b) z) + wsq p (vel wn) (fun k => z k - vel ref k)) (vel x)
      | None => exists k, (k < p)%nat /\ vel wn k = 0
      end.
  Proof.
    intros B X WN RF F W D P. unfold zLESolveSRRefDST. destruct (weigh_vec_R n b we B F) as (b' & E1 & B1 & B2). rewrite E1. cbn [bind].
    destruct (mulmtv_R a b' (zvec p)) as (v & E3 & V1 & V2); cbn [vlen zvec] in *; try congruence. rewrite E3. cbn [bind]. rewrite RF.
    destruct (vec_loop v 0 p (fun i v => x <- vget wn i ;; y <- vget ref i ;; vmod v i (fun z => (z + x * y)%S)) (fun i => vel v i + vel wn i * vel ref i)) as (v2 & Ev & Lv & Hv); try lia.
    { intros j v' Hj L' H'. rewrite vget_ok by lia. cbn [bind]. rewrite vget_ok by lia. cbn [bind]. rewrite vmod_ok by lia. rewrite H' by lia. reflexivity. }
    rewrite Ev. cbn [bind].
    destruct (error_mat n p a we R1 C1 F) as (m & E & M1 & M2 & M3). rewrite E. cbn [bind]. rewrite M1.
    match goal with |- context [for_ 0 p ?f m] => destruct (for_inv (fun i m' => nr m' = p /\ nc m' = p /\
        forall k l, (k < p)%nat -> (l < p)%nat -> el m' k l = el m k l + (if (k =? l)%nat && (k <? i)%nat then vel wn k else 0)) 0 p f m) as (m' & E' & Q1 & Q2 & Q3) end.
    - lia.
    - conjs; auto. intros k l Hk Hl. rewrite Bool.andb_false_r. ring.
    - intros i s Hi (Q1 & Q2 & Q3). rewrite vget_ok by lia. cbn [bind]. rewrite mmod_ok, mset_ok by lia. eexists. split; [reflexivity|]. cbn [nr nc el]. conjs; auto.
      intros k l Hk Hl. rewrite (Q3 k l) by auto. destruct (Nat.eqb_spec k i) as [->|Nk]; destruct (Nat.eqb_spec l i) as [->|Nl]; cbn [andb].
      + rewrite (Q3 i i) by auto. rewrite Nat.eqb_refl, Nat.ltb_irrefl. rewrite (proj2 (Nat.ltb_lt i (S i))) by lia. cbn [andb]. rs. ring.
      + rewrite (proj2 (Nat.eqb_neq i l)) by auto. reflexivity.
      + rewrite (proj2 (Nat.eqb_neq k i)) by auto. reflexivity.
      + destruct (Nat.eqb_spec k l) as [->|]; cbn [andb]; [|reflexivity]. destruct (Nat.ltb_spec l i), (Nat.ltb_spec l (S i)); try lia; reflexivity.
    - rewrite E'. cbn [bind].
      destruct (gauss_ok p p (vlen ans) m' v2 idx Hp Q1 Q2 ltac:(congruence) (le_n p) ltac:(lia) P) as (o & E2 & H).
      exists o. split; [exact E2|].
      assert (HM : forall k l, (k < p)%nat -> (l < p)%nat -> el m' k l = rsum n (fun i => wt we i * el a i k * el a i l) + (if (k =? l)%nat then vel wn k else 0)).
      { intros k l Hk Hl. rewrite Q3, M3 by auto. rewrite (proj2 (Nat.ltb_lt k p)) by auto. rewrite Bool.andb_true_r. reflexivity. }
      destruct o as [x|].
      + destruct H as (Y & S & N). split; auto.
        apply (normal_least n p (el a) (wt we) (vel wn) (el m') HM); auto.
        intros k Hk. rewrite (S k Hk), Hv. rewrite (proj2 (Nat.ltb_lt k p)) by auto. cbn [Nat.leb andb]. rewrite V2, R1 by auto.
        f_equal. apply rsum_ext. intros i Hi. rewrite B2. reflexivity.
      + assert (DD : (forall k, (k < p)%nat -> 0 < vel wn k) \/ exists k, (k < p)%nat /\ vel wn k = 0).
        { clear - D. induction p as [|q IH]; [left; intros; lia|]. destruct IH as [IH|(k & Hk & IH)]; [intros; apply D; lia| |right; exists k; split; auto; lia].
          destruct (Req_dec (vel wn q) 0) as [Z|Z]; [right; exists q; split; auto; lia|]. left. intros k Hk. destruct (Nat.eq_dec k q) as [->|Nk]; [specialize (D q ltac:(lia)); lra|apply IH; lia]. }
        destruct DD as [DP|]; auto. exfalso. apply H. intros x Hx k Hk. apply (normal_kernel n p (el a) (wt we) _ (el m') HM) in Hx.
        pose proof (wsq_nonneg n (wt we) (mv p (el a) x) W). pose proof (wsq_nonneg p _ x D). apply (wsq_0 p _ x DP); auto. lra.
  Qed.
End Solvers.
