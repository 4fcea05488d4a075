(** Jacobi's iteration keeps V orthogonal and A V = V D. *)
From Coq Require Import Reals Lra Lia Psatz.
From Verif Require Import Prelude Prelude_Proofs Scalar RealLib Fmat Fmat_Proofs LE_Model IP_Model Vop Stat_Model Eig_Model Eig_Spec Eig_Proofs.
Local Open Scope R_scope.

Section Rot.
  Variables (n i j : nat) (c s ai aj : R) (A V D : nat -> nat -> R).
  Hypotheses (Hi : (i < n)%nat) (Hj : (j < n)%nat) (N : i <> j).
  Hypothesis CS : c * c + s * s = 1.
  Hypothesis SY : symm n D.
  Hypothesis E1 : c * D i i + s * D i j = c * ai.
  Hypothesis E2 : c * D i j + s * D j j = s * ai.
  Hypothesis E3 : - s * D i i + c * D i j = - s * aj.
  Hypothesis E4 : - s * D i j + c * D j j = c * aj.
  Notation V' := (rotv i j c s V).
  Notation D' := (rotm n i j c s ai aj D).
  Lemma V'_i p : V' p i = c * V p i + s * V p j.
  Proof. unfold rotv. rewrite Nat.eqb_refl. reflexivity. Qed.
  Lemma V'_j p : V' p j = - s * V p i + c * V p j.
  Proof. unfold rotv. rewrite Nat.eqb_refl. destruct (Nat.eqb_spec j i); [lia|reflexivity]. Qed.
  Lemma V'_o p q : q <> i -> q <> j -> V' p q = V p q.
  Proof. intros. unfold rotv. nbp. Qed.
  Lemma rot_rows : orthonormal_rows n n V -> orthonormal_rows n n V'.
  Proof.
    intros H a b Ha Hb. rewrite <- (H a b Ha Hb). unfold rdot.
    apply (rsum_two_eq n i j); auto.
    - intros k Hk K1 K2. rewrite !V'_o by auto. reflexivity.
    - rewrite !V'_i, !V'_j. transitivity ((c * c + s * s) * (V a i * V b i + V a j * V b j)); [ring|]. rewrite CS. ring.
  Qed.
  Lemma cdot_sym U a b : cdot n U a b = cdot n U b a.
  Proof. apply rsum_ext. intros; ring. Qed.
  (** inner products of arbitrary vectors *)
  Let ip (u v : nat -> R) : R := rsum n (fun k => u k * v k).
  Lemma ip_l a b u v w : ip (fun k => a * u k + b * v k) w = a * ip u w + b * ip v w.
  Proof. unfold ip. rewrite <- !rsum_scal, <- rsum_add. apply rsum_ext. intros; ring. Qed.
  Lemma ip_sym u v : ip u v = ip v u. Proof. apply rsum_ext. intros; ring. Qed.
  Lemma ip_ext u v u' v' : (forall k, (k < n)%nat -> u k = u' k) -> (forall k, (k < n)%nat -> v k = v' k) -> ip u v = ip u' v'.
  Proof. intros H1 H2. apply rsum_ext. intros. rewrite H1, H2 by auto. reflexivity. Qed.
  Definition colcomb (q : nat) : nat -> R :=
    if (q =? i)%nat then fun k => c * V k i + s * V k j else if (q =? j)%nat then fun k => - s * V k i + c * V k j else fun k => 1 * V k q + 0 * V k q.
  Lemma V'_col q k : V' k q = colcomb q k.
  Proof. unfold rotv, colcomb. destruct (Nat.eqb_spec q i); [reflexivity|]. destruct (Nat.eqb_spec q j); [reflexivity|]. ring. Qed.
  Lemma rot_cols : orthonormal_cols n n V -> orthonormal_cols n n V'.
  Proof.
    intros H a b Ha Hb. unfold cdot. rewrite (rsum_ext n _ (fun k => colcomb a k * colcomb b k)) by (intros; rewrite !V'_col; reflexivity).
    change (ip (colcomb a) (colcomb b) = delta a b).
    assert (G : forall p q, (p < n)%nat -> (q < n)%nat -> ip (fun k => V k p) (fun k => V k q) = delta p q) by (intros; apply H; auto).
    assert (Dl : forall p q, delta p q = if (p =? q)%nat then 1 else 0) by reflexivity.
    unfold colcomb.
    destruct (Nat.eqb_spec a i) as [->|A1]; [|destruct (Nat.eqb_spec a j) as [->|A2]];
     (destruct (Nat.eqb_spec b i) as [->|B1]; [|destruct (Nat.eqb_spec b j) as [->|B2]]);
     rewrite ip_l; rewrite (ip_sym (fun k => V k _)); rewrite ?(ip_sym _ (fun k => c * V k i + s * V k j)); 
     rewrite ?(ip_sym (fun k => V k _) (fun k => _ * V k _ + _ * V k _)); rewrite !ip_l, !G by auto; rewrite !Dl; nbp; try lra; nra.
  Qed.
  Lemma rot_symm : symm n D'.
  Proof. intros p q Hp Hq. unfold rotm. nbp. Qed.
  Lemma rot_simil : (forall r a, (r < n)%nat -> (a < n)%nat -> mmul n A V r a = mmul n V D r a) ->
    forall r a, (r < n)%nat -> (a < n)%nat -> mmul n A V' r a = mmul n V' D' r a.
  Proof.
    intros H r a Hr Ha. unfold mmul in *.
    assert (L : forall x y, rsum n (fun k => A r k * (x * V k i + y * V k j)) =
       rsum n (fun k => V r k * (x * D k i + y * D k j))).
    { intros x y.
      transitivity (x * rsum n (fun k => A r k * V k i) + y * rsum n (fun k => A r k * V k j)).
      - rewrite <- !rsum_scal, <- rsum_add. apply rsum_ext. intros; ring.
      - rewrite !H by auto. rewrite <- !rsum_scal, <- rsum_add. apply rsum_ext. intros; ring. }
    assert (SIJ : D j i = D i j) by (apply SY; auto).
    destruct (Nat.eq_dec a i) as [->|Ai]; [|destruct (Nat.eq_dec a j) as [->|Aj]].
    - rewrite (rsum_ext n _ (fun k => A r k * (c * V k i + s * V k j))) by (intros; rewrite V'_i; reflexivity).
      rewrite L. apply (rsum_two_eq n i j); auto.
      + intros k Hk K1 K2. rewrite V'_o by auto. unfold rotm. rewrite (SY k i), (SY k j) by auto. nbp.
      + rewrite V'_i, V'_j. unfold rotm. rewrite SIJ. nbp.
        transitivity (V r i * (c * D i i + s * D i j) + V r j * (c * D i j + s * D j j)); [ring|]. rewrite E1, E2. ring.
    - rewrite (rsum_ext n _ (fun k => A r k * (- s * V k i + c * V k j))) by (intros; rewrite V'_j; reflexivity).
      rewrite L. apply (rsum_two_eq n i j); auto.
      + intros k Hk K1 K2. rewrite V'_o by auto. unfold rotm. rewrite (SY k i), (SY k j) by auto. nbp.
      + rewrite V'_i, V'_j. unfold rotm. rewrite SIJ. nbp.
        transitivity (V r i * (- s * D i i + c * D i j) + V r j * (- s * D i j + c * D j j)); [ring|]. rewrite E3, E4. ring.
    - rewrite (rsum_ext n _ (fun k => A r k * V k a)) by (intros; rewrite V'_o by auto; reflexivity).
      rewrite H by auto. apply (rsum_two_eq n i j); auto.
      + intros k Hk K1 K2. rewrite V'_o by auto. unfold rotm. nbp.
      + rewrite V'_i, V'_j. unfold rotm. nbp.
        transitivity ((c * c + s * s) * (V r i * D i a + V r j * D j a)); [rewrite CS; ring|ring].
  Qed.
  Lemma rot_off : off2 n D' = off2 n D - 2 * D i j ^ 2.
  Proof.
    unfold off2.
    assert (Ro : forall p, (p < n)%nat -> p <> i -> p <> j ->
      rsum n (fun q => if (p =? q)%nat then 0 else D' p q ^ 2) = rsum n (fun q => if (p =? q)%nat then 0 else D p q ^ 2)).
    { intros p Hp P1 P2. apply (rsum_two_eq n i j); auto.
      - intros k Hk K1 K2. unfold rotm. nbp.
      - unfold rotm. rewrite (SY p i), (SY p j) by auto. nbp.
        transitivity ((c * c + s * s) * (D i p ^ 2 + D j p ^ 2)); [ring|]. rewrite CS. ring. }
    pose proof (rsum_two n i j (fun p => rsum n (fun q => if (p =? q)%nat then 0 else D' p q ^ 2))
       (fun p => rsum n (fun q => if (p =? q)%nat then 0 else D p q ^ 2)) Hi Hj N Ro) as P. cbv beta in P.
    assert (Q : rsum n (fun q => if (i =? q)%nat then 0 else D' i q ^ 2) + rsum n (fun q => if (j =? q)%nat then 0 else D' j q ^ 2) =
      rsum n (fun q => if (i =? q)%nat then 0 else D i q ^ 2) + rsum n (fun q => if (j =? q)%nat then 0 else D j q ^ 2) - 2 * D i j ^ 2); [|lra].
    rewrite <- !rsum_add.
    match goal with |- rsum n ?f = rsum n ?g - _ => pose proof (rsum_two n i j f g Hi Hj N) as W end. cbv beta in W.
    assert (SIJ : D j i = D i j) by (apply SY; auto).
    rewrite Nat.eqb_refl in W. rewrite (Nat.eqb_refl j) in W.
    replace (i =? j)%nat with false in W by (symmetry; apply Nat.eqb_neq; auto).
    replace (j =? i)%nat with false in W by (symmetry; apply Nat.eqb_neq; auto).
    assert (Z1 : D' i j = 0) by (unfold rotm; nbp). assert (Z2 : D' j i = 0) by (unfold rotm; nbp).
    rewrite Z1, Z2, SIJ in W.
    assert (W' := W ltac:(intros k Hk K1 K2; unfold rotm; nbp;
       transitivity ((c * c + s * s) * (D i k ^ 2 + D j k ^ 2)); [ring|rewrite CS; ring])). lra.
  Qed.
  Lemma rot_trace : trace n D' = trace n D.
  Proof.
    apply (rsum_two_eq n i j); auto.
    - intros k Hk K1 K2. unfold rotm. nbp.
    - unfold rotm. nbp.
      assert (c * (c * D i i + s * D i j) + s * (c * D i j + s * D j j) = ai) by (rewrite E1, E2; transitivity ((c * c + s * s) * ai); [ring|rewrite CS; ring]).
      assert (- s * (- s * D i i + c * D i j) + c * (- s * D i j + c * D j j) = aj) by (rewrite E3, E4; transitivity ((c * c + s * s) * aj); [ring|rewrite CS; ring]).
      assert ((c * c + s * s) * (D i i + D j j) = ai + aj) by (rewrite <- H, <- H0; ring). rewrite CS in H1. lra.
  Qed.
End Rot.

(** *** the iteration *)
Definition jinv (n : nat) (A : nat -> nat -> R) (d v : fmat R) : Prop :=
  nr d = n /\ nc d = n /\ nr v = n /\ nc v = n /\ symm n (el d) /\ orthogonal n (el v) /\
  (forall r a, (r < n)%nat -> (a < n)%nat -> mmul n A (el v) r a = mmul n (el v) (el d) r a) /\
  trace n (el d) = trace n A.
Lemma off2_ext n A B : (forall i j, (i < n)%nat -> (j < n)%nat -> A i j = B i j) -> off2 n A = off2 n B.
Proof. intros H. apply rsum_ext. intros. apply rsum_ext. intros. rewrite H by auto. reflexivity. Qed.
Lemma jinv_ext n A d v (D V : nat -> nat -> R) : nr d = n -> nc d = n -> nr v = n -> nc v = n ->
  (forall i j, (i < n)%nat -> (j < n)%nat -> el d i j = D i j) -> (forall i j, (i < n)%nat -> (j < n)%nat -> el v i j = V i j) ->
  symm n D -> orthogonal n V -> (forall r a, (r < n)%nat -> (a < n)%nat -> mmul n A V r a = mmul n V D r a) ->
  trace n D = trace n A -> jinv n A d v.
Proof.
  intros L1 L2 L3 L4 HD HV S (O1 & O2) M T. unfold jinv. conjs; auto.
  - intros i j Hi Hj. rewrite !HD by auto. auto.
  - split; intros a b Ha Hb; [rewrite <- (O1 a b Ha Hb)|rewrite <- (O2 a b Ha Hb)]; apply rsum_ext; intros; rewrite !HV by auto; reflexivity.
  - intros r a Hr Ha. transitivity (mmul n A V r a); [apply rsum_ext; intros; rewrite HV by auto; reflexivity|].
    rewrite M by auto. apply rsum_ext. intros. rewrite HD, HV by auto. reflexivity.
  - rewrite <- T. apply rsum_ext. intros. apply HD; auto.
Qed.
Lemma rot_ok n A d v i j : jinv n A d v -> (i < n)%nat -> (j < n)%nat -> i <> j -> el d i j <> 0 ->
  exists d' v', _zMatSymEigJacobiRot d v i j = Ok (d', v') /\ jinv n A d' v' /\ off2 n (el d') = off2 n (el d) - 2 * el d i j ^ 2.
Proof.
  intros (L1 & L2 & L3 & L4 & S & (O1 & O2) & M & T) Hi Hj N X.
  destruct (rot_run n d v i j L1 L2 L3 L4 Hi Hj N) as (d' & v' & E & K1 & K2 & K3 & K4 & HD & HV).
  destruct (ang_cs (el d i i) (el d j j) (el d i j) X) as (CS & E1 & E2 & E3 & E4).
  exists d', v'. split; [exact E|]. split.
  - eapply jinv_ext; [auto..|exact HD|exact HV| | | |].
    + apply rot_symm; auto.
    + split; [apply rot_cols|apply rot_rows]; auto.
    + apply rot_simil; auto.
    + rewrite <- T. apply rot_trace; auto.
  - rewrite (off2_ext n _ _ HD). apply rot_off; auto.
Qed.

Lemma sweep_ok n A tol d v : 0 <= tol -> jinv n A d v ->
  exists d' v' ok, jacobi_sweep tol d v = Ok (d', v', ok) /\ jinv n A d' v' /\
    (if ok : bool then d' = d /\ v' = v /\ forall i j, (i < n)%nat -> (j < n)%nat -> i <> j -> Rabs (el d i j) <= tol
     else off2 n (el d') < off2 n (el d) - 2 * tol ^ 2).
Proof.
  intros Ht I. unfold jacobi_sweep.
  set (P := fun (i j : nat) (s : fmat R * fmat R * bool) => let '(d1, v1, ok) := s in jinv n A d1 v1 /\
    (if ok : bool then d1 = d /\ v1 = v /\ forall a b, (b < a)%nat -> (a < i \/ (a = i /\ b < j))%nat -> Rabs (el d a b) <= tol
     else off2 n (el d1) < off2 n (el d) - 2 * tol ^ 2)).
  assert (Rn : nr d = n) by apply I. rewrite Rn.
  match goal with |- context [for_ 1 (Nat.max 1 n) ?g ?s0] =>
    destruct (for_inv (fun i s => P i 0%nat s) 1 (Nat.max 1 n) g s0) as (((d' & v') & ok) & E & H) end.
  - lia.
  - cbn. split; auto. split; auto. split; auto. intros. lia.
  - intros i s Hi HP.
    match goal with |- context [for_ 0 i ?g s] => destruct (for_inv (P i) 0 i g s) as (s' & E & H) end.
    + lia.
    + exact HP.
    + intros j ((d1 & v1) & ok) Hj (J & H). assert (J' := J). destruct J' as (L1 & L2 & _).
      rewrite mget_ok by lia. cbn [bind]. rewrite is_tol_R.
      destruct (Rleb_spec (Rabs (el d1 i j)) tol) as [B|B].
      * eexists. split; [reflexivity|]. split; [exact J|]. destruct ok; [|exact H].
        destruct H as (-> & -> & H). split; auto. split; auto. intros a b Hb [Ha|(-> & Hb')]; [apply H; auto|].
        destruct (Nat.eq_dec b j) as [->|]; [exact B|]. apply H; auto. right. lia.
      * destruct (rot_ok n A d1 v1 i j J ltac:(lia) ltac:(lia) ltac:(lia)) as (d2 & v2 & E2 & J2 & O2).
        { intros Z. apply B. rewrite Z, Rabs_R0. exact Ht. }
        rewrite E2. cbn [bind]. eexists. split; [reflexivity|]. split; [exact J2|].
        assert (Q : tol ^ 2 < el d1 i j ^ 2). { rewrite <- (pow2_abs (el d1 i j)). apply Rnot_le_lt in B. nra. }
        rewrite O2. destruct ok; [destruct H as (-> & -> & _); lra|]. assert (0 <= tol ^ 2) by nra. lra.
    + rewrite E. eexists. split; [reflexivity|]. destruct s' as ((d1 & v1) & ok). destruct H as (J & H). split; [exact J|].
      destruct ok; [|exact H]. destruct H as (-> & -> & H). split; auto. split; auto. intros a b Hb Ha. apply H; auto. lia.
  - rewrite E. exists d', v', ok. split; [reflexivity|]. destruct H as (J & H). split; [exact J|]. destruct ok; [|exact H].
    destruct H as (-> & -> & H). split; auto. split; auto. intros a b Ha Hb Nab.
    destruct (Nat.lt_ge_cases b a) as [Lt|Ge].
    + apply H; auto. left. lia.
    + assert (S : symm n (el d)) by apply I. rewrite (S a b) by auto. apply H; [lia|]. left. lia.
Qed.
Lemma jloop_ok n A tol : 0 <= tol -> forall rest d v, jinv n A d v ->
  exists d' v' warned, jacobi_loop tol rest d v = Ok (d', v', warned) /\ jinv n A d' v' /\ off2 n (el d') <= off2 n (el d) /\
    (warned = false -> forall i j, (i < n)%nat -> (j < n)%nat -> i <> j -> Rabs (el d' i j) <= tol) /\
    (off2 n (el d) <= 2 * tol ^ 2 * INR rest -> warned = false \/ rest = O).
Proof.
  intros Ht rest. assert (0 <= tol ^ 2) by nra. induction rest as [|r IH]; intros d v I; cbn [jacobi_loop];
   destruct (sweep_ok n A tol d v Ht I) as (d1 & v1 & ok & E & J & H1); rewrite E; cbn [bind].
  - eexists _, _, _. split; [reflexivity|]. split; [exact J|]. split; [destruct ok; [destruct H1 as (-> & _); lra|lra]|]. split; [discriminate|auto].
  - destruct ok.
    + destruct H1 as (-> & -> & H1). eexists _, _, _. split; [reflexivity|]. split; [exact J|]. split; [lra|]. split; auto.
    + destruct (IH d1 v1 J) as (d' & v' & w & E' & J' & O' & W & F). exists d', v', w. split; [exact E'|]. split; [exact J'|].
      split; [lra|]. split; [exact W|]. intros B. rewrite S_INR in B. left.
      assert (B' : off2 n (el d1) <= 2 * tol ^ 2 * INR r) by lra.
      destruct (F B') as [G|G]; [exact G|]. subst r. cbn [INR] in B'.
      assert (0 <= off2 n (el d1)).
      { unfold off2. apply rsum_nonneg. intros. apply rsum_nonneg. intros. destruct (i =? i0)%nat; [lra|nra]. }
      assert (off2 n (el d) <= 2 * tol ^ 2) by (cbn [INR] in B; lra). lra.
Qed.
