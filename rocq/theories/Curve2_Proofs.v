(** Proofs about the trapezoidal velocity profile and the Fresnel integrals. *)
From Coq Require Import Reals Lra Lia Psatz.
From Coquelicot Require Import Coquelicot.
From Verif Require Import Prelude Prelude_Proofs Scalar RealLib Fmat Fmat_Proofs Curve_Model IP2_Proofs.
Local Open Scope R_scope.

Lemma if_derive (f g df dg : R -> R) c t : f c = g c -> df c = dg c ->
  (forall t, derivable_pt_lim f t (df t)) -> (forall t, derivable_pt_lim g t (dg t)) ->
  derivable_pt_lim (fun t => if Rltb t c then f t else g t) t (if Rltb t c then df t else dg t).
Proof.
  intros E D Hf Hg. destruct (Rltb_spec t c).
  - apply (local_derive f _ t (df t) (c - t)); [lra| |auto]. intros u Hu. apply Rabs_def2 in Hu. destruct (Rltb_spec u c); [auto|lra].
  - destruct (Rlt_le_dec c t).
    + apply (local_derive g _ t (dg t) (t - c)); [lra| |auto]. intros u Hu. apply Rabs_def2 in Hu. destruct (Rltb_spec u c); [lra|auto].
    + assert (t = c) as -> by lra. apply (glue_derive f g _ c (dg c) 1); [lra| | |auto|rewrite <- D; auto|auto].
      * intros u _ Hu. destruct (Rltb_spec u c); [auto|lra].
      * intros u _ Hu. destruct (Rltb_spec u c); [lra|auto].
Qed.
Lemma if_derive_off (f g df dg : R -> R) c t : t <> c ->
  (forall t, derivable_pt_lim f t (df t)) -> derivable_pt_lim g t (dg t) ->
  derivable_pt_lim (fun t => if Rltb t c then f t else g t) t (if Rltb t c then df t else dg t).
Proof.
  intros N Hf Hg. destruct (Rltb_spec t c).
  - apply (local_derive f _ t (df t) (c - t)); [lra| |auto]. intros u Hu. apply Rabs_def2 in Hu. destruct (Rltb_spec u c); [auto|lra].
  - apply (local_derive g _ t (dg t) (t - c)); [lra| |auto]. intros u Hu. apply Rabs_def2 in Hu. destruct (Rltb_spec u c); [lra|auto].
Qed.
Ltac ader := apply is_derive_Reals; auto_derive; [auto|try ring; try field].

Section Prof.
Variables v0 vT vmax acc dist : R.
(** what a profile must satisfy: stated over its fields *)
Record wf (p : trprof) : Prop := {
  w_v0 : tr_v0 p = v0; w_vT : tr_vT p = vT; w_vm : tr_vmax p = vmax; w_acc : tr_acc p = acc; w_dist : tr_dist p = dist;
  w_pos : 0 < acc;
  w_t1 : 0 <= tr_t1 p; w_t2 : tr_t1 p <= tr_t2 p; w_t : tr_t2 p <= tr_t p;
  (** peak speed, reached at t1 and left at t2 *)
  w_peak : exists vm, vm <= vmax /\ v0 + acc * tr_t1 p = vm /\ vT + acc * (tr_t p - tr_t2 p) = vm /\ (tr_t1 p < tr_t2 p -> vm = vmax) /\
     (v0 + / 2 * acc * tr_t1 p) * tr_t1 p + vm * (tr_t2 p - tr_t1 p) = dist - (vT + / 2 * acc * (tr_t p - tr_t2 p)) * (tr_t p - tr_t2 p) }.
Lemma create_wf p : Rabs (v0 * v0 - vT * vT) <= 2 * acc * dist -> zTRVelProfCreate v0 vT vmax acc dist = Some p -> wf p.
Proof.
  intros Hf. unfold zTRVelProfCreate. cbn [slt sle s0 RealS].
  destruct (Rltb_spec dist 0); [discriminate|]. destruct (Rleb_spec vmax 0); [discriminate|].
  destruct (Rltb_spec vmax v0); [discriminate|]. destruct (Rltb_spec vmax vT); [discriminate|]. destruct (Rleb_spec acc 0) as [|Ha]; [discriminate|].
  cbn [sadd ssub smul sdiv ssqrt sofZ RealS].
  assert (Pa : 0 < acc) by lra.
  assert (Q1 : 0 <= (vmax - v0) / acc) by (apply Rmult_le_pos; [lra|left; now apply Rinv_0_lt_compat]).
  assert (Q3 : 0 <= (vmax - vT) / acc) by (apply Rmult_le_pos; [lra|left; now apply Rinv_0_lt_compat]).
  match goal with |- context [Rltb ?a dist] => destruct (Rltb_spec a dist) as [Hl|Hs] end; intros E; inversion E; subst p; clear E.
  - match goal with |- context [?x / vmax] => assert (0 < x / vmax) by (apply Rmult_lt_0_compat; [lra|apply Rinv_0_lt_compat; lra]) end.
    constructor; cbn [tr_v0 tr_vT tr_vmax tr_acc tr_dist tr_t tr_t1 tr_t2]; auto; try lra. exists vmax. split; [lra|]. split; [field; lra|]. split; [field; lra|]. split; auto. field. split; lra.
  - set (vm := R_sqrt.sqrt _) in *.
    assert (S0 : 0 <= 1 / 2 * (v0 * v0 + vT * vT + 2 * acc * dist)).
    { assert (0 <= v0 * v0 /\ 0 <= vT * vT /\ 0 <= acc * dist) as (? & ? & ?) by (split; [|split]; nra). lra. }
    assert (E2 : vm * vm = 1 / 2 * (v0 * v0 + vT * vT + 2 * acc * dist)) by (unfold vm; now rewrite R_sqrt.sqrt_sqrt).
    assert (P : 0 <= vm) by apply R_sqrt.sqrt_pos. clearbody vm.
    apply Rabs_le_between in Hf.
    assert (L1 : v0 <= vm) by (destruct (Rle_dec v0 0); [lra|]; apply Rsqr_incr_0; unfold Rsqr; lra).
    assert (L2 : vT <= vm) by (destruct (Rle_dec vT 0); [lra|]; apply Rsqr_incr_0; unfold Rsqr; lra).
    assert (L3 : vm <= vmax).
    { apply Rsqr_incr_0; unfold Rsqr; try lra. apply Rnot_lt_le in Hs || idtac.
      assert (acc * dist <= vmax * vmax - 1 / 2 * v0 * v0 - 1 / 2 * vT * vT) by
        (replace (vmax * vmax - 1 / 2 * v0 * v0 - 1 / 2 * vT * vT) with (acc * ((v0 + 1 / 2 * acc * ((vmax - v0) / acc)) * ((vmax - v0) / acc) + (vT + 1 / 2 * acc * ((vmax - vT) / acc)) * ((vmax - vT) / acc))) by (field; lra);
         apply Rmult_le_compat_l; lra). lra. }
    assert (0 <= (vm - v0) / acc) by (apply Rmult_le_pos; [lra|left; now apply Rinv_0_lt_compat]).
    assert (0 <= (vm - vT) / acc) by (apply Rmult_le_pos; [lra|left; now apply Rinv_0_lt_compat]).
    constructor; cbn [tr_v0 tr_vT tr_vmax tr_acc tr_dist tr_t tr_t1 tr_t2]; auto; try lra. exists vm. split; [lra|]. split; [field; lra|]. split; [field; lra|]. split; [lra|].
    apply Rminus_diag_uniq. transitivity ((2 * (vm * vm) - (v0 * v0 + vT * vT + 2 * acc * dist)) / (2 * acc)); [field; lra|rewrite E2; field; lra].
Qed.
Variable p : @trprof R.
Hypothesis W : wf p.
Let t1 := tr_t1 p. Let t2 := tr_t2 p. Let tT := tr_t p.
Lemma prof_dist t : zTRVelProfDist p t = if Rltb t t1 then (v0 + / 2 * acc * t) * t
   else if Rltb t t2 then (v0 + / 2 * acc * t1) * t1 + vmax * (t - t1) else dist - (vT + / 2 * acc * (tT - t)) * (tT - t).
Proof.
  destruct W. unfold zTRVelProfDist. rewrite w_v1, w_vT0, w_vm0, w_acc0, w_dist0. cbn [sadd ssub smul sdiv sofZ slt RealS]. fold t1 t2 tT.
  replace (1 / 2) with (/ 2) by field. reflexivity.
Qed.
Lemma prof_vel t : zTRVelProfVel p t = if Rltb t t1 then v0 + acc * t else if Rltb t t2 then vmax else vT + acc * (tT - t).
Proof. destruct W. unfold zTRVelProfVel. rewrite w_v1, w_vT0, w_vm0, w_acc0. reflexivity. Qed.
Lemma prof_acc t : zTRVelProfAcc p t = if Rltb t t1 then acc else if Rltb t t2 then 0 else - acc.
Proof. destruct W. unfold zTRVelProfAcc. rewrite w_acc0. reflexivity. Qed.
Lemma dA t : derivable_pt_lim (fun t => (v0 + / 2 * acc * t) * t) t (v0 + acc * t). Proof. ader. Qed.
Lemma dB t : derivable_pt_lim (fun t => (v0 + / 2 * acc * t1) * t1 + vmax * (t - t1)) t vmax. Proof. ader. Qed.
Lemma dC t : derivable_pt_lim (fun t => dist - (vT + / 2 * acc * (tT - t)) * (tT - t)) t (vT + acc * (tT - t)). Proof. ader. Qed.
Lemma prof_derive t : derivable_pt_lim (zTRVelProfDist p) t (zTRVelProfVel p t).
Proof.
  destruct (w_peak _ W) as (vm & M & P1 & P2 & P3 & P4). pose proof (w_t2 _ W) as O. fold t1 t2 tT in P1, P2, P3, P4, O.
  apply is_derive_Reals. eapply is_derive_ext; [intros u; symmetry; apply prof_dist|]. apply is_derive_Reals. rewrite prof_vel.
  destruct (Rlt_dec t1 t2) as [L|N].
  - rewrite (P3 L) in *. apply (if_derive _ _ (fun t => v0 + acc * t) (fun t => if Rltb t t2 then vmax else vT + acc * (tT - t))).
    + destruct (Rltb_spec t1 t2); [ring|lra].
    + destruct (Rltb_spec t1 t2); lra.
    + apply dA.
    + intros u. apply (if_derive _ _ (fun _ => vmax) (fun t => vT + acc * (tT - t))); [lra|lra|apply dB|apply dC].
  - assert (t1 = t2) as E by lra. rewrite E in *.
    apply is_derive_Reals. eapply is_derive_ext with (f := fun t => if Rltb t t2 then (v0 + / 2 * acc * t) * t else dist - (vT + / 2 * acc * (tT - t)) * (tT - t)).
    { intros u. destruct (Rltb_spec u t2); reflexivity. }
    replace (if Rltb t t2 then v0 + acc * t else if Rltb t t2 then vmax else vT + acc * (tT - t)) with (if Rltb t t2 then v0 + acc * t else vT + acc * (tT - t)) by (destruct (Rltb t t2); reflexivity).
    apply is_derive_Reals. apply (if_derive _ _ (fun t => v0 + acc * t) (fun t => vT + acc * (tT - t))); [lra|lra|apply dA|apply dC].
Qed.
Lemma prof_derive2 t : t <> t1 -> t <> t2 -> derivable_pt_lim (zTRVelProfVel p) t (zTRVelProfAcc p t).
Proof.
  intros N1 N2. apply is_derive_Reals. eapply is_derive_ext; [intros u; symmetry; apply prof_vel|]. apply is_derive_Reals. rewrite prof_acc.
  apply (if_derive_off _ _ (fun _ => acc) (fun t => if Rltb t t2 then 0 else - acc)); auto; [intros; ader|].
  apply (if_derive_off _ _ (fun _ => 0) (fun t => - acc)); auto; [intros; ader|ader].
Qed.
Lemma prof_ends : 0 <= tT /\ zTRVelProfDist p 0 = 0 /\ zTRVelProfVel p 0 = v0 /\ zTRVelProfDist p tT = dist /\ zTRVelProfVel p tT = vT.
Proof.
  destruct (w_peak _ W) as (vm & M & P1 & P2 & P3 & P4). pose proof (w_t1 _ W) as O1. pose proof (w_t2 _ W) as O2. pose proof (w_t _ W) as O3. fold t1 t2 tT in P1, P2, P3, P4, O1, O2, O3.
  split; [lra|]. rewrite !prof_dist, !prof_vel.
  destruct (Rltb_spec 0 t1), (Rltb_spec 0 t2), (Rltb_spec tT t1), (Rltb_spec tT t2); try lra; conjs; try lra.
  all: assert (t1 = 0) as Z1 by lra; rewrite Z1 in *; try (rewrite P3 in * by lra; lra).
  all: assert (t2 = 0) as Z2 by lra; rewrite Z2 in *; lra.
Qed.
Lemma prof_lip t u : Rabs (zTRVelProfVel p t - zTRVelProfVel p u) <= acc * Rabs (t - u).
Proof.
  destruct (w_peak _ W) as (vm & M & P1 & P2 & P3 & P4). pose proof (w_t1 _ W) as O1. pose proof (w_t2 _ W) as O2. pose proof (w_t _ W) as O3. pose proof (w_pos _ W) as Pa. fold t1 t2 tT in P1, P2, P3, P4, O1, O2, O3.
  assert (A : forall x y, x <= y -> acc * x <= acc * y) by (intros; apply Rmult_le_compat_l; lra).
  assert (G : forall t u, t <= u -> Rabs (zTRVelProfVel p t - zTRVelProfVel p u) <= acc * (u - t)).
  { clear t u. intros t u H. rewrite !prof_vel. pose proof (A _ _ H). pose proof (A _ _ O2).
    destruct (Rltb_spec t t1), (Rltb_spec u t1), (Rltb_spec t t2), (Rltb_spec u t2); try lra.
    all: repeat match goal with h : ?x < ?y |- _ => lazymatch goal with k : acc * x <= acc * y |- _ => fail | _ => pose proof (A _ _ (Rlt_le _ _ h)) end | h : ~ ?x < ?y |- _ => lazymatch goal with k : acc * y <= acc * x |- _ => fail | _ => pose proof (A _ _ (Rnot_lt_le _ _ h)) end end.
    all: try (rewrite P3 in * by lra). all: apply Rabs_le; split; try lra. }
  destruct (Rle_dec t u).
  - rewrite (Rabs_left1 (t - u)) by lra. replace (- (t - u)) with (u - t) by ring. auto.
  - rewrite (Rabs_right (t - u)) by lra. rewrite Rabs_minus_sym. apply G. lra.
Qed.
Lemma prof_bound t : zTRVelProfVel p t <= vmax /\ (0 <= t <= tT -> Rmin v0 vT <= zTRVelProfVel p t).
Proof.
  destruct (w_peak _ W) as (vm & M & P1 & P2 & P3 & P4). pose proof (w_t1 _ W) as O1. pose proof (w_t2 _ W) as O2. pose proof (w_t _ W) as O3. pose proof (w_pos _ W) as Pa. fold t1 t2 tT in P1, P2, P3, P4, O1, O2, O3.
  assert (A : forall x y, x <= y -> acc * x <= acc * y) by (intros; apply Rmult_le_compat_l; lra).
  rewrite prof_vel. pose proof (Rmin_l v0 vT). pose proof (Rmin_r v0 vT).
  destruct (Rltb_spec t t1) as [L1|L1]; [|destruct (Rltb_spec t t2) as [L2|L2]].
  - pose proof (A _ _ (Rlt_le _ _ L1)). split; [lra|]. intros (Z & _). pose proof (A _ _ Z). lra.
  - split; [lra|]. intros _. pose proof (A _ _ O1). rewrite P3 in * by lra. lra.
  - assert (t2 <= t) as G by lra. pose proof (A _ _ G). split; [lra|]. intros (_ & Z). pose proof (A _ _ Z). lra.
Qed.
End Prof.

(** ** Fresnel integrals *)
(** the functions S and C that zFresnelIntgPI_2 approximates *)
Definition fresnelS (x : R) : R := RInt (fun t => sin (PI / 2 * t ^ 2)) 0 x.
Definition fresnelC (x : R) : R := RInt (fun t => cos (PI / 2 * t ^ 2)) 0 x.
Definition fresnel_exact (x : R) : bool * R * R := (true, fresnelS x, fresnelC x).
Lemma RInt_derive (f : R -> R) x : (forall t, continuous f t) -> is_derive (fun x => RInt f 0 x) x (f x).
Proof.
  intros Hc. apply is_derive_RInt with (a := 0); auto. exists (mkposreal 1 Rlt_0_1). intros y _. apply RInt_correct. apply (ex_RInt_continuous (V := R_CompleteNormedModule)). auto.
Qed.
Lemma dS x : is_derive fresnelS x (sin (PI / 2 * x ^ 2)).
Proof. apply (RInt_derive (fun t => sin (PI / 2 * t ^ 2))). intros t. apply continuity_pt_filterlim. apply derivable_continuous_pt. reg. Qed.
Lemma dC_ x : is_derive fresnelC x (cos (PI / 2 * x ^ 2)).
Proof. apply (RInt_derive (fun t => cos (PI / 2 * t ^ 2))). intros t. apply continuity_pt_filterlim. apply derivable_continuous_pt. reg. Qed.
Lemma S_0 : fresnelS 0 = 0. Proof. apply (RInt_point (V := R_CompleteNormedModule)). Qed.
Lemma C_0 : fresnelC 0 = 0. Proof. apply (RInt_point (V := R_CompleteNormedModule)). Qed.

Section Fres.
Variable tol : R.
Hypothesis Ht : 0 <= tol.
Definition clear (x : R) : Prop := x = 0 \/ tol < Rabs x.
Let G := zFresnelIntgGen tol sin cos (PI / 2) fresnel_exact.
Definition res_s (r : bool * R * R) : R := snd (fst r).
Definition res_c (r : bool * R * R) : R := snd r.
Lemma scale_big x f : tol < Rabs f -> exists r, 0 < r /\ PI / 2 / (r * r) = Rabs f /\
  zFresnelIntgScale tol (PI / 2) fresnel_exact x f = (true, fresnelS (x / r) * (if Rltb 0 f then r else - r), fresnelC (x / r) * r).
Proof.
  intros Hf. unfold zFresnelIntgScale. rewrite is_tol_R. destruct (Rleb_spec (Rabs f) tol); [lra|].
  cbn [sdiv sabs ssqrt sopp slt smul s0 RealS]. unfold fresnel_exact.
  assert (P : 0 < PI / 2 / Rabs f). { apply Rdiv_lt_0_compat; [apply PI2_RGT_0|lra]. }
  exists (R_sqrt.sqrt (PI / 2 / Rabs f)). split; [now apply R_sqrt.sqrt_lt_R0|]. split; [|reflexivity].
  rewrite R_sqrt.sqrt_sqrt by lra. pose proof PI_RGT_0. field. split; lra.
Qed.
(** value and derivative of the scaled integral *)
Lemma scale_fun f : tol < Rabs f -> exists s c : R -> R, (forall x, zFresnelIntgScale tol (PI / 2) fresnel_exact x f = (true, s x, c x)) /\
  s 0 = 0 /\ c 0 = 0 /\ (forall x, is_derive s x (sin (f * x ^ 2))) /\ (forall x, is_derive c x (cos (f * x ^ 2))).
Proof.
  intros Hf. destruct (scale_big 0 f Hf) as (r & Hr & E & _).
  assert (forall x, zFresnelIntgScale tol (PI / 2) fresnel_exact x f = (true, fresnelS (x / r) * (if Rltb 0 f then r else - r), fresnelC (x / r) * r)) as Q.
  { intros x. destruct (scale_big x f Hf) as (r' & Hr' & E' & ->). assert (r' = r) as ->; [|reflexivity].
    apply Rsqr_inj; unfold Rsqr; try lra. rewrite <- E' in E. pose proof PI_RGT_0. assert (H2 : r * r <> 0) by nra. assert (H3 : r' * r' <> 0) by nra.
    apply (f_equal (fun z => z * (r * r) * (r' * r') * 2 / PI)) in E. transitivity (PI / 2 / (r * r) * (r * r) * (r' * r') * 2 / PI); [field; repeat split; nra|rewrite E; field; repeat split; nra]. }
  exists (fun x => fresnelS (x / r) * (if Rltb 0 f then r else - r)), (fun x => fresnelC (x / r) * r).
  split; [exact Q|]. replace (0 / r) with 0 by (field; lra). rewrite S_0, C_0. split; [ring|]. split; [ring|].
  assert (A : forall x, PI / 2 * (x / r) ^ 2 = Rabs f * x ^ 2) by (intros; rewrite <- E; field; lra).
  assert (D1 : forall x, is_derive (fun x => fresnelS (x / r)) x (sin (Rabs f * x ^ 2) / r)).
  { intros x. rewrite <- A. replace (sin (PI / 2 * (x / r) ^ 2) / r) with (/ r * sin (PI / 2 * (x / r) ^ 2)) by (field; lra).
    apply (is_derive_comp fresnelS (fun x => x / r) x _ (/ r)); [apply dS|]. auto_derive; auto. ring. }
  assert (D2 : forall x, is_derive (fun x => fresnelC (x / r)) x (cos (Rabs f * x ^ 2) / r)).
  { intros x. rewrite <- A. replace (cos (PI / 2 * (x / r) ^ 2) / r) with (/ r * cos (PI / 2 * (x / r) ^ 2)) by (field; lra).
    apply (is_derive_comp fresnelC (fun x => x / r) x _ (/ r)); [apply dC_|]. auto_derive; auto. ring. }
  assert (SC : forall (h : R -> R) l k x, is_derive h x l -> is_derive (fun x => h x * k) x (l * k)).
  { intros h l k x H. apply (is_derive_ext (fun x => k * h x)); [intros; apply Rmult_comm|]. replace (l * k) with (k * l) by ring. now apply @is_derive_scal. }
  split; intros x.
  - replace (sin (f * x ^ 2)) with (sin (Rabs f * x ^ 2) / r * (if Rltb 0 f then r else - r)); [apply SC, D1|].
    destruct (Rltb_spec 0 f). { rewrite Rabs_right by lra. field. lra. }
    rewrite Rabs_left1 by lra. replace (- f * x ^ 2) with (- (f * x ^ 2)) by ring. rewrite sin_neg. field. lra.
  - replace (cos (f * x ^ 2)) with (cos (Rabs f * x ^ 2) / r * r); [apply SC, D2|].
    unfold Rabs. destruct (Rcase_abs f); [|field; lra]. replace (- f * x ^ 2) with (- (f * x ^ 2)) by ring. rewrite cos_neg. field. lra.
Qed.
Lemma gen_fun f0 f1 f2 : clear f1 -> clear f2 -> exists s c : R -> R, (forall x, G x f0 f1 f2 = (true, s x, c x)) /\
  s 0 = 0 /\ c 0 = 0 /\ (forall x, is_derive s x (sin (f0 + f1 * x + f2 * x ^ 2))) /\ (forall x, is_derive c x (cos (f0 + f1 * x + f2 * x ^ 2))).
Proof.
  intros H1 H2. unfold G, zFresnelIntgGen. rewrite !is_tol_R.
  destruct (Rleb_spec (Rabs f2) tol) as [L2|L2].
  - assert (f2 = 0) as -> by (destruct H2; [auto|lra]).
    destruct (Rleb_spec (Rabs f1) tol) as [L1|L1].
    + assert (f1 = 0) as -> by (destruct H1; [auto|lra]). cbn [smul RealS].
      exists (fun x => x * sin f0), (fun x => x * cos f0). split; [reflexivity|]. split; [ring|]. split; [ring|].
      split; intros x; (auto_derive; [auto|]); replace (f0 + 0 * x + 0 * x ^ 2) with f0 by ring; ring.
    + assert (N1 : f1 <> 0) by (intros ->; rewrite Rabs_R0 in L1; lra). cbn [smul sadd ssub sopp sdiv RealS].
      exists (fun x => - (cos (f0 + f1 * x) - cos f0) / f1), (fun x => (sin (f0 + f1 * x) - sin f0) / f1).
      split; [reflexivity|]. replace (f0 + f1 * 0) with f0 by ring. split; [field; auto|]. split; [field; auto|].
      split; intros x; (auto_derive; [auto|]); replace (f0 + f1 * x + 0 * x ^ 2) with (f0 + f1 * x) by ring; field; auto.
  - assert (B2 : tol < Rabs f2) by lra. assert (N2 : f2 <> 0) by (intros ->; rewrite Rabs_R0 in B2; lra).
    destruct (scale_fun f2 B2) as (s & c & E & s0 & c0 & Ds & Dc).
    set (k := 1 / 2 * f1 / f2). set (th := f0 - 1 / 2 * (1 / 2) * f1 * f1 / f2).
    exists (fun x => (c (x + k) - c k) * sin th + (s (x + k) - s k) * cos th), (fun x => (c (x + k) - c k) * cos th - (s (x + k) - s k) * sin th).
    split. { intros x. cbn [smul sadd ssub sopp sdiv sofZ RealS]. fold k. rewrite !E. reflexivity. }
    rewrite Rplus_0_l. split; [ring|]. split; [ring|].
    assert (Ph : forall x, f0 + f1 * x + f2 * x ^ 2 = f2 * (x + k) ^ 2 + th) by (intros; unfold k, th; field; auto).
    assert (Dsh : forall (h : R -> R) (l : R -> R) x, (forall x, is_derive h x (l x)) -> is_derive (fun x => h (x + k) - h k) x (l (x + k))).
    { intros h l x H. replace (l (x + k)) with (1 * l (x + k) - 0) by ring. apply @is_derive_minus; [|apply @is_derive_const].
      apply (is_derive_comp h (fun x => x + k) x (l (x + k)) 1); [apply H|]. auto_derive; auto. }
    pose proof (fun x => Dsh c _ x Dc) as D1. pose proof (fun x => Dsh s _ x Ds) as D2. cbv beta in D1, D2.
    assert (SC : forall (h : R -> R) l q x, is_derive h x l -> is_derive (fun x => h x * q) x (l * q)).
    { intros h l q x H. apply (is_derive_ext (fun x => q * h x)); [intros; apply Rmult_comm|]. replace (l * q) with (q * l) by ring. now apply @is_derive_scal. }
    split; intros x; rewrite Ph.
    + rewrite sin_plus. replace (sin (f2 * (x + k) ^ 2) * cos th + cos (f2 * (x + k) ^ 2) * sin th) with (cos (f2 * (x + k) ^ 2) * sin th + sin (f2 * (x + k) ^ 2) * cos th) by ring.
      apply (is_derive_plus (fun x => (c (x + k) - c k) * sin th) (fun x => (s (x + k) - s k) * cos th)); apply SC; auto.
    + rewrite cos_plus.
      apply (is_derive_minus (fun x => (c (x + k) - c k) * cos th) (fun x => (s (x + k) - s k) * sin th)); apply SC; auto.
Qed.
End Fres.
