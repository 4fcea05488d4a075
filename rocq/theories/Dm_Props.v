(** C103-C105: descent methods. *)
From Coq Require Import Reals Lra Lia QArith PrimFloat.
From Coquelicot Require Import Coquelicot.
From Verif Require Import Prelude Prelude_Proofs Scalar RealLib Fmat Fmat_Proofs LE_Model IP_Model IP_Proofs Vop Qp_Spec Qp_Proofs Root_Model Root_Proofs Root_Props Asm_Model Asm_Proofs Dm_Model Dm_Spec Dm_Proofs Dm2_Proofs Dm3_Proofs.
Local Open Scope R_scope.

(** What the iteration takes as the gradient is G: a user function that returns n components, or, without one,
    the central differences of an objective that depends on its n arguments only. *)
Definition gradient_is (n : nat) (eps : R) (eval : fvec R -> R) (grad : option (fvec R -> fvec R)) (G : fvec R -> nat -> R) : Prop :=
  match grad with
  | Some f => (forall x, vlen x = n -> vlen (f x) = n) /\ forall x i, G x i = vel (f x) i
  | None => eps <> 0 /\ respects n eval /\ forall x i, G x i = central eval eps x i
  end.
Lemma gradient_fills n eps eval grad G : gradient_is n eps eval grad G ->
  forall x b, vlen x = n -> vlen b = n -> exists r, _grad eps eval grad x b = Ok r /\ vlen r = n /\ forall i, (i < n)%nat -> vel r i = G x i.
Proof.
  unfold gradient_is, _grad. destruct grad as [f|].
  - intros [L E] x b Lx Lb. eexists. split; [reflexivity|]. split; auto.
  - intros (E0 & RE & E) x b Lx Lb. destruct (grad_ng_ok eval eps n E0 RE x b Lx Lb) as (v & g & -> & _ & _ & Lg & Vg). cbn [rmap snd]. eexists. split; [reflexivity|].
    destruct (store_ok g) as [S1 S2]. split; [congruence|]. intros i Hi. rewrite S2, E by lia. auto.
Qed.
(** the workspace of a created optimiser of dimension n, in any state of its vectors *)
Lemma create_sizes n : sizes n (zOptDMCreate n).
Proof. constructor; reflexivity. Qed.

(** ** C103 *)
(** One line search by Nocedal's backtracking, from any state: the new point is var - c d, with the value and gradient of that
    point; the value has fallen by at least 1e-4 a times the slope g.d, a being the step length c (or a length within zTOL); and the
    slope there has fallen to cfac g.d, unless the length is within 0.001. *)
Theorem C103_wolfe n ztol eps scale isnan isinf eval grad G s var e0 cfac fuel tf : (0 < n)%nat -> 0 <= ztol < 1 / 1000 -> 0 < scale ->
  gradient_is n eps eval grad G -> sizes n s -> vlen var = n ->
  exists o, _zOptDMStepNoc ztol eps isnan isinf eval grad scale fuel tf cfac s var e0 = Ok o /\
  match o with
  | Some (Some (s', var', e1)) => exists a c, 0 < a <= c /\ (a = c \/ a <= ztol) /\
      vlen var' = n /\ (forall i, (i < n)%nat -> vel var' i = vel var i - c * vel (dd s) i) /\ e1 = eval var' /\
      e0 - e1 >= a * (1 / 10000 * dot n (vel (dg s)) (vel (dd s))) /\
      (a <= 1 / 1000 \/ dot n (G var') (vel (dd s)) <= cfac * dot n (vel (dg s)) (vel (dd s))) /\
      (forall i, (i < n)%nat -> vel (dp s') i = vel var' i - vel var i) /\
      (forall i, (i < n)%nat -> vel (dg s') i = G var' i) /\ (forall i, (i < n)%nat -> vel (dq s') i = G var' i - vel (dg s) i) /\ sizes n s'
  | _ => True
  end.
Proof.
  intros N Z SC HG S Lv. destruct (noc_ok ztol eps scale isnan isinf eval grad n G N Z SC (gradient_fills _ _ _ _ _ HG) s var e0 cfac fuel tf S Lv) as (o & -> & P).
  exists o. split; auto. destruct o as [[[[s' v'] e1]|]|]; auto. destruct P as (a & c & M & _ & A & B & C & D & _). exists a, c.
  destruct M. conjs; auto; try lra. intros i Hi. rewrite m_p, m_var by auto. ring.
Qed.
(** The steepest descent with that line search, for any objective and any gradient function: it does not read outside its vectors;
    the objective at the answer is not above its value at the start, and *eval lies between the two.  When the answer
    is a number, there is a point within tol of the answer whose gradient is within 1000 tol (no infinite and no undefined
    values, tol below the step limit). *)
Theorem C103_descends_partial n ztol eps scale isnan isinf eval grad G fuel tf tol iter s var : (0 < n)%nat -> 0 <= ztol < 1 / 1000 -> 0 < scale ->
  gradient_is n eps eval grad G -> sizes n s -> vlen var = n ->
  exists o, zOptDMSolve eps eval grad (zOptDMAssignSD ztol eps isnan isinf eval grad scale fuel tf Noc) s var tol iter = Ok o /\
  match o with
  | None => True
  | Some a => vlen (avar a) = n /\ eval (avar a) <= aeval a <= eval var /\
      match number a with
      | None => aeval a = eval (avar a)
      | Some j => (j <= ziter iter)%nat /\
          ((forall x, isinf (eval x) || isnan (eval x) = false) -> 0 <= tol < scale ->
           exists y, vlen y = n /\ (forall m, (m < n)%nat -> Rabs (vel y m - vel (avar a) m) <= tol) /\ within n (1000 * tol) (G y))
      end
  end.
Proof.
  intros N Z SC HG S Lv. destruct (sd_solve ztol eps scale isnan isinf eval grad n G N Z SC (gradient_fills _ _ _ _ _ HG) fuel tf tol iter s var S Lv) as (o & -> & P).
  exists o. split; auto. destruct o as [[num v e]|]; auto. cbn [result avar aeval number] in *. destruct P as (P1 & P2 & P3). conjs; auto; try apply P2.
  destruct num; auto. destruct P3 as [P3 P4]. split; auto. lia.
Qed.
(** The step by Brent's line search is no worse than half of the full step (but see C103_brent_refuted). *)
Theorem C103_half_step n ztol eps isnan eval grad G s var e0 s' var' e1 : (0 < n)%nat -> 0 <= ztol -> 0 <= eps -> respects n eval ->
  gradient_is n eps eval grad G -> sizes n s -> vlen var = n ->
  _zOptDMStepBrent ztol eps isnan eval grad s var e0 = Ok (Some (Some (s', var', e1))) ->
  e1 = eval var' /\ e1 <= eval (FV n (fun i => vel var i - vel (dd s) i / 2)).
Proof.
  intros N Z E RE HG S Lv. unfold _zOptDMStepBrent. destruct (isnan e0); [discriminate|]. rewrite (z_x n s S), (z_d n s S), Lv, Nat.leb_refl. cbn [andb].
  set (h := fun x : R => eval _). set (a := zOptLineBrent ztol h zGOLDENRATIO2 eps s0 s1 100).
  destruct (try_ok eval n var (dd s) (TR a (dp s) (dx s) s0) Lv (z_d n s S) (z_p n s S) (z_x n s S)) as (t & -> & A & Lp & Lx & T). cbn [bind].
  destruct (gradient_fills _ _ _ _ _ HG (tx t) (dr s) Lx (z_r n s S)) as (r & -> & Lr & Vr). cbn [bind].
  match goal with |- context [accept s ?p ?x ?r ?b] => destruct (accept_ok n s p x r b S Lp Lx Lr) as (s1 & -> & _) end. cbn [bind fst snd].
  intros H. inversion H; subst. destruct T as (T1 & T2 & T3). split; auto. rewrite T3.
  assert (B := C47_brent_improves h 0 1 ztol eps zGOLDENRATIO2 100 ltac:(lra) Z E).
  assert (GR : 0 <= @zGOLDENRATIO2 R _ <= 1) by (unfold zGOLDENRATIO2; cbn [sdiv sofZ RealS]; lra).
  specialize (B GR). cbv zeta in B. destruct B as [_ B].
  replace (eval (tx t)) with (h a).
  - eapply Rle_trans; [exact B|]. right. unfold h. apply RE; auto. intros i Hi. cbn [vel sadd smul sopp RealS]. field.
  - unfold h. apply RE; auto. intros i Hi. cbn [vel sadd smul sopp RealS]. rewrite T2 by auto. cbn [ta]. ring.
Qed.

(** The optimiser as created (steepest descent, no line search) goes up the gradient, and answers 0 at once: for every objective,
    wherever the gradient is not within the tolerance already. *)
Theorem C103_plain_refuted n ztol eps scale isnan isinf eval grad G fuel tf tol iter var : gradient_is n eps eval grad G -> vlen var = n -> 0 <= tol ->
  ~ within n tol (G var) ->
  exists v, zOptDMSolve eps eval grad (zOptDMAssignSD ztol eps isnan isinf eval grad scale fuel tf Plain) (zOptDMCreate n) var tol iter = Ok (Some (Ans (Some 0%nat) v (eval var))) /\
    vlen v = n /\ forall i, (i < n)%nat -> vel v i = vel var i + G var i.
Proof.
  intros HG Lv T NW. unfold zOptDMSolve. destruct (gradient_fills _ _ _ _ _ HG var (dg (zOptDMCreate n)) Lv eq_refl) as (g & -> & Lg & Vg). cbn [bind].
  destruct (zVecIsTol tol g) eqn:I.
  { exfalso. apply NW. intros i Hi. rewrite <- Vg by auto. apply (istol_R _ _ I). lia. }
  destruct (ziter_pos iter) as [k ->]. cbn [dm_loop]. unfold zOptDMAssignSD at 1. cbn [m_vec].
  match goal with |- context [_zOptDMVecSD ?s var] => destruct (sd_ok n s var) as (s1 & -> & S1 & G1 & P1 & _ & D1); [constructor; cbn [dx dd dg dp dq dr dh zOptDMCreate]; auto|] end. cbn [bind dp dg] in *.
  unfold zOptDMAssignSD at 1. cbn [m_step]. unfold assign_step, _zOptDMStepPlain, zVecAddNC. rewrite vop2_ok by (rewrite ?(z_d n s1 S1); congruence). cbn [bind].
  rewrite P1. replace (zVecIsTol tol (dp (zOptDMCreate n))) with true.
  2:{ symmetry. unfold zVecIsTol. apply forallb_forall. intros i _. cbn [zOptDMCreate dp vel zvec]. rewrite is_tol_R. cbn [s0 RealS]. rewrite Rabs_R0. destruct (Rleb_spec 0 tol); [auto|lra]. }
  rewrite Bool.orb_true_r. eexists. split; [reflexivity|]. match goal with |- context [store ?v] => destruct (store_ok v) as [L V] end. cbn [vlen vel] in *.
  split; [congruence|]. intros i Hi. rewrite V by lia. cbn [sadd RealS]. rewrite D1, Vg by auto. reflexivity.
Qed.

(** Nocedal's backtracking never ends on f(x) = -x: it doubles the step up to the limit, where the step is cut, for ever. *)
Section Endless.
  Let f := fun x : fvec R => - vel x 0.
  Let g := fun _ : fvec R => FV 1 (fun _ => - (1)).
  Let no := fun _ : R => false.
  Variables (ztol eps : R).
  Hypothesis Z : 0 <= ztol < 1 / 1000.
  Lemma test_line d var e0 : vlen d = 1%nat -> vel d 0 = - (1) -> vlen var = 1%nat -> e0 = f var -> forall tf t, vlen (tp t) = 1%nat -> vlen (tx t) = 1%nat -> 1 / 1000 < ta t ->
    exists o, _zOptDMStepTest ztol no no f 1000 tf var d e0 (1 / 10000) t = Ok o /\
    match o with None => True | Some (b, t') => b = true /\ vlen (tp t') = 1%nat /\ vlen (tx t') = 1%nat /\ 1 / 1000 < ta t' end.
  Proof.
    intros Ld Vd Lv ->. induction tf as [|tf IH]; intros t Lp Lx A; [exists None; auto|].
    cbn [_zOptDMStepTest]. cbn [slt sle smul ssub RealS]. destruct (Rltb_spec ztol (ta t)); [|lra].
    destruct (try_ok f 1 var d t Lv Ld Lp Lx) as (t1 & -> & A1 & Lp1 & Lx1 & (T1 & T2 & T3)). cbn [bind]. unfold no at 1 2. cbn [orb].
    destruct (absmax_ok 1 ltac:(lia) (tp t1) Lp1) as (m & -> & M1 & (i & Hi & M2)). cbn [bind slt RealS].
    replace i with O in M2 by lia. rewrite T1, Vd in M2 by lia. replace (- ta t * - (1)) with (ta t) in M2 by ring. rewrite Rabs_pos_eq in M2 by lra. subst m.
    destruct (Rltb_spec 1000 (ta t)) as [H|H].
    - apply IH; cbn [tp tx ta]; auto. cbn [sdiv RealS]. rewrite A1. replace (ta t * (1000 / ta t)) with 1000 by (field; lra). lra.
    - eexists. split; [reflexivity|]. cbn beta iota. conjs; auto; [|lra]. destruct (Rleb_spec (ta t1 * (1 / 10000)) (f var - te t1)) as [|C]; auto. exfalso. apply C.
      rewrite T3. unfold f. rewrite T2, Vd by lia. rewrite A1. lra.
  Qed.
  Theorem endless_loop s var e0 tf : sizes 1 s -> vlen var = 1%nat -> e0 = f var -> vel (dd s) 0 = - (1) -> forall fuel t, vlen (tp t) = 1%nat -> vlen (tx t) = 1%nat -> 1 / 1000 < ta t ->
    noc_loop ztol eps no no f (Some g) 1000 fuel tf s var e0 (1 / 10000) (9 / 10) t = Ok None.
  Proof.
    intros S Lv He Vd. induction fuel as [|fuel IH]; intros t Lp Lx A; [reflexivity|].
    cbn [noc_loop]. unfold step_min. cbn [sle slt sofZ sdiv RealS]. destruct (Rleb_spec (1 / 1000) (ta t)); [|lra].
    destruct (test_line (dd s) var e0 (z_d 1 s S) Vd Lv He tf t Lp Lx A) as (o & -> & P). cbn [bind]. destruct o as [[b t']|]; [|reflexivity].
    destruct P as (-> & Lp' & Lx' & A'). unfold _grad. cbn [bind]. rewrite ksum_R. unfold g at 1 2. cbn [vlen vel rsum]. rewrite Vd. cbn [smul RealS].
    destruct (Rltb_spec (1 / 1000) (ta t')); [|lra]. match goal with |- context [Rltb ?x ?y] => destruct (Rltb_spec x y) end; [|lra]. cbn [andb].
    apply IH; cbn [tp tx ta]; auto. cbn [smul RealS]. lra.
  Qed.
End Endless.
Theorem C103_endless_refuted ztol eps fuel tf tol iter : 0 <= ztol < 1 / 1000 -> tol < 1 ->
  let f := fun x : fvec R => - vel x 0 in let g := fun _ : fvec R => FV 1 (fun _ => - (1)) in let no := fun _ : R => false in
  zOptDMSolve eps f (Some g) (zOptDMAssignSD ztol eps no no f (Some g) 1000 fuel tf Noc) (zOptDMCreate 1) (FV 1 (fun _ => 0)) tol iter = Ok None.
Proof.
  intros Z T f g no. unfold zOptDMSolve. cbn [bind _grad].
  destruct (zVecIsTol tol (g (FV 1 (fun _ => 0)))) eqn:I.
  { pose proof (istol_R _ _ I O) as H. unfold g in H. cbn [vlen vel] in H. specialize (H ltac:(lia)). rewrite Rabs_Ropp, Rabs_R1 in H. lra. }
  destruct (ziter_pos iter) as [k ->]. cbn [dm_loop]. unfold zOptDMAssignSD at 1. cbn [m_vec].
  match goal with |- context [_zOptDMVecSD ?s ?v] => destruct (sd_ok 1 s v) as (s1 & -> & S1 & G1 & _ & _ & D1); [constructor; reflexivity|] end. cbn [bind dp dg] in *.
  unfold zOptDMAssignSD at 1. cbn [m_step]. unfold assign_step, _zOptDMStepNoc. unfold no at 1. rewrite ksum_R.
  rewrite G1. unfold decrease, cf9. cbn [smul sdiv sofZ RealS].
  match goal with |- bind ?x _ = _ => replace x with (@Ok (option (@stepped R)) None) end; [reflexivity|]. symmetry.
  assert (DD : vel (dd s1) 0 = - (1)) by (apply (D1 O); lia).
  match goal with |- noc_loop _ _ _ _ _ _ _ _ _ _ _ _ ?a ?b _ = _ =>
    replace a with (1 / 10000) by (unfold g; cbn [vlen rsum vel]; rewrite DD; field); replace b with (9 / 10) by (unfold g; cbn [vlen rsum vel]; rewrite DD; field) end.
  apply (endless_loop ztol eps Z s1 (FV 1 (fun _ => 0)) _ tf S1); auto.
  - cbn [tp]. apply (z_p 1 s1 S1).
  - cbn [tx]. apply (z_x 1 s1 S1).
  - cbn [ta]. cbn [Scalar.s1 RealS]. lra.
Qed.

(** In double arithmetic, with zTOL = 1e-12, Z_OPT_EPS = 1e-6 and the step limit 1000. *)
Section Float.
  Local Open Scope float_scope.
  Local Set Warnings "-inexact-float".
  Definition vf (l : list float) : fvec float := vec_of 0 l.
  Definition f_nan (x : float) := negb (x =? x).
  Definition f_inf (x : float) := PrimFloat.abs x =? infinity.
  Definition solve (assign : forall fuel tf : nat, @method float) (n : nat) (eval : fvec float -> float) grad (x : list float) (tol : float) (iter : Z) :=
    zOptDMSolve 1e-6 eval grad (assign 60%nat 60%nat) (zOptDMCreate n) (vf x) tol iter.
  Definition SD m eval grad fuel tf := zOptDMAssignSD 1e-12 1e-6 f_nan f_inf eval grad 1000 fuel tf m.
  Definition LM m eval grad hess fuel tf := zOptDMAssignLM 1e-12 1e-6 f_nan f_inf eval grad hess 1000 fuel tf m.
  (** 5000 x^2 and its derivative *)
  Definition steep (x : fvec float) := 5000 * vel x 0 * vel x 0.
  Definition steep' (x : fvec float) := vf [10000 * vel x 0].
  (** Nocedal's search gives up at 1: no step length above 0.001 makes 5000 x^2 smaller. *)
  Theorem C103_stuck_refuted : exists a, solve (SD Noc steep (Some steep')) 1 steep (Some steep') [1] 1e-9 100 = Ok (Some a) /\ number a = None /\ to_list (avar a) = [1].
  Proof. eexists. split; [vm_compute; reflexivity|]. split; vm_compute; reflexivity. Qed.
  (** Dennis-Schnabel's search never ends there. *)
  Lemma ds_stuck tf fuel : ds_loop 1e-12 f_nan f_inf steep 1000 fuel (S (S tf)) (vf [10000]) (vf [1]) 5000 1e8 1e4 1e-3 1e-3 5e11 (TR 1e-3 (vf [-10]) (vf [-9]) 405000) = Ok None.
  Proof. induction fuel as [|fuel IH]; [reflexivity|]. etransitivity; [|exact IH]. vm_compute. reflexivity. Qed.
  Lemma ds_start tf fuel : ds_loop 1e-12 f_nan f_inf steep 1000 fuel (S (S tf)) (vf [10000]) (vf [1]) 5000 1e8 1e4 1e-2 1e-1 5e9 (TR 1e-2 (vf [-100]) (vf [-99]) 49005000) = Ok None.
  Proof.
    do 6 (destruct fuel as [|fuel]; [vm_compute; reflexivity|]). etransitivity; [|apply (ds_stuck tf fuel)]. vm_compute. reflexivity.
  Qed.
  Theorem C103_ds_endless_refuted fuel tf tol iter : (10000 <=? tol) = false ->
    zOptDMSolve 1e-6 steep (Some steep') (SD DS steep (Some steep') fuel tf) (zOptDMCreate 1) (vf [1]) tol iter = Ok None.
  Proof.
    intros T. unfold zOptDMSolve. cbn [bind _grad].
    replace (zVecIsTol tol (steep' (vf [1]))) with false by (symmetry; unfold zVecIsTol; cbn [vlen steep' vf vec_of length List.seq forallb]; rewrite Bool.andb_true_r; exact T).
    destruct (ziter_pos iter) as [k ->]. cbn [dm_loop]. unfold SD, zOptDMAssignSD at 1. cbn [m_vec].
    match goal with |- context [_zOptDMVecSD ?s ?v] => let x := fresh in set (x := _zOptDMVecSD s v); vm_compute in x; subst x end. cbn [bind]. unfold zOptDMAssignSD at 1. cbn [m_step]. unfold assign_step.
    match goal with |- bind ?x _ = _ => replace x with (@Ok (option (@stepped float)) None) end; [reflexivity|]. symmetry.
    do 2 (destruct tf as [|tf]; [vm_compute; reflexivity|]).
    match goal with |- _zOptDMStepDS _ _ _ _ _ _ _ _ _ ?s _ _ = _ =>
      transitivity (bind (ds_loop 1e-12 f_nan f_inf steep 1000 fuel (S (S tf)) (vf [10000]) (vf [1]) 5000 1e8 1e4 1e-2 1e-1 5e9 (TR 1e-2 (vf [-100]) (vf [-99]) 49005000)) (finish 1e-6 steep (Some steep') s)) end.
    - vm_compute. reflexivity.
    - rewrite ds_start. reflexivity.
  Qed.
  (** More-Thuente's search takes 100 x + 1e9 x^4, which is convex, from the value 0 to 1e17. *)
  Definition quartic (x : fvec float) := 100 * vel x 0 + 1e9 * vel x 0 * vel x 0 * vel x 0 * vel x 0.
  Definition quartic' (x : fvec float) := vf [100 + 4e9 * vel x 0 * vel x 0 * vel x 0].
  Theorem C103_mt_refuted : exists a, solve (SD MT quartic (Some quartic')) 1 quartic (Some quartic') [0] 1e-9 1 = Ok (Some a) /\ (9e16 <? quartic (avar a)) = true.
  Proof. eexists. split; [vm_compute; reflexivity|]. vm_compute. reflexivity. Qed.
  (** Brent's search does not look at the start: here f(x) = x near 0, but the value rises from 0 to 5. *)
  Definition dented (x : fvec float) := let t := - vel x 0 in
    if t <? 0.01 then - t else if t <? 0.02 then 600 * t - 6.01 else if t <? 0.5 then 6 - (t - 0.02) / 0.48 else 5 + 2 * (t - 0.5).
  Definition dented' (x : fvec float) := let t := - vel x 0 in vf [if t <? 0.01 then 1 else if t <? 0.02 then -600 else if t <? 0.5 then 1 / 0.48 else -2].
  Theorem C103_brent_refuted : exists a, solve (SD Brent dented (Some dented')) 1 dented (Some dented') [0] 1e-9 1 = Ok (Some a) /\ (4.9 <? dented (avar a)) = true.
  Proof. eexists. split; [vm_compute; reflexivity|]. vm_compute. reflexivity. Qed.
  (** Levenberg-Marquardt: the linear solver overwrites the gradient with the eliminated right-hand side, so that the slope is taken
      for negative and a growth is accepted.  The objective has a positive definite Hessian. *)
  Definition bowl (x : fvec float) := let a := vel x 0 in let b := vel x 1 in
    0.1 * a + 0.1 * b + (0.1 * a * a + 2 * a * b + 100 * b * b) / 2 + 0.08035 * (a * a + b * b) * (a * a + b * b).
  Definition bowl' (x : fvec float) := let a := vel x 0 in let b := vel x 1 in
    vf [0.1 + 0.1 * a + b + 4 * 0.08035 * (a * a + b * b) * a; 0.1 + a + 100 * b + 4 * 0.08035 * (a * a + b * b) * b].
  Definition bowl'' (x : fvec float) := let a := vel x 0 in let b := vel x 1 in let k := 4 * 0.08035 in
    FM 2 2 (fun i j => match i, j with O, O => 0.1 + k * (3 * a * a + b * b) | S _, S _ => 100 + k * (a * a + 3 * b * b) | _, _ => 1 + 2 * k * a * b end).
  Theorem C103_lm_refuted : exists a, solve (LM DS bowl (Some bowl') (Some bowl'')) 2 bowl (Some bowl') [0; 0] 1e-9 1 = Ok (Some a) /\ (0 <? bowl (avar a)) = true /\ (bowl (vf [0; 0]) =? 0) = true.
  Proof. eexists. split; [vm_compute; reflexivity|]. split; vm_compute; reflexivity. Qed.
  (** A gradient by differences vanishes where 1e-6 is lost: x^2/2 is taken to be minimal at 1e12. *)
  Definition half_sq (x : fvec float) := vel x 0 * vel x 0 / 2.
  Theorem C105_round_refuted : exists a, solve (SD Noc half_sq None) 1 half_sq None [1e12] 1e-9 100 = Ok (Some a) /\ number a = Some 0%nat /\ to_list (avar a) = [1e12].
  Proof. eexists. split; [vm_compute; reflexivity|]. split; vm_compute; reflexivity. Qed.
End Float.
(** The value answered is that of the point before the last: x^2/2 from 1, in rational arithmetic. *)
Theorem C103_eval_refuted : let f := fun x : fvec Q => Qred (vel x 0%nat * vel x 0%nat / 2)%Q in let g := fun x : fvec Q => x in
  exists a, zOptDMSolve (1 # 1000000)%Q f (Some g) (zOptDMAssignSD (1 # 1000000000000)%Q (1 # 1000000)%Q (fun _ => false) (fun _ => false) f (Some g) 1000%Q 60 60 Noc)
    (zOptDMCreate 1) (vec_of 0%Q [1%Q]) (1 # 1000000000)%Q 100 = Ok (Some a) /\ number a = Some 0%nat /\ to_list (avar a) = [0%Q] /\ aeval a = (1 # 2)%Q.
Proof. cbv zeta. eexists. split; [vm_compute; reflexivity|]. split; [|split]; vm_compute; reflexivity. Qed.
(** Non-vacuity of C103: the square of a variable, with its derivative and without. *)
Example C103_case : let f := fun x : fvec R => vel x 0 * vel x 0 in
  gradient_is 1 (1 / 1000000) f (Some (fun x => FV 1 (fun i => 2 * vel x i))) (fun x i => 2 * vel x i) /\
  gradient_is 1 (1 / 1000000) f None (central f (1 / 1000000)) /\ ~ within 1 (1 / 10) (fun i => 2 * vel (FV 1 (fun _ => 1)) i) /\ sizes 1 (@zOptDMCreate R _ 1).
Proof.
  cbv zeta. split; [|split; [|split]].
  - split; auto.
  - split; [lra|]. split; auto. intros x y _ _ H. rewrite (H O) by lia. reflexivity.
  - intros C. specialize (C O ltac:(lia)). cbn [vel] in C. rewrite Rabs_pos_eq in C; lra.
  - apply create_sizes.
Qed.

(** ** C104 *)
(** Either update of the variable metric method gives the same matrix, by the Broyden-Fletcher-Goldfarb-Shanno formula. *)
Definition update (d : bool) (s : @dm R) : res dm := if d then _zOptDMUpdateDFP s else _zOptDMUpdateBFGS s.
Theorem C104_formula d n s : sizes n s -> exists s', update d s = Ok s' /\ sizes n s' /\
  (forall i j, (i < n)%nat -> (j < n)%nat -> el (dh s') i j = bfgs n (el (dh s)) (vel (dp s)) (vel (dq s)) i j) /\ dg s' = dg s /\ dp s' = dp s /\ dq s' = dq s.
Proof.
  intros S. destruct d; unfold update.
  - destruct (dfp_ok n s S) as (s' & E & A & B & C & D & F & G). exists s'. conjs; auto.
  - destruct (bfgs_ok n s S) as (s' & E & A & B & C & D & F & G). exists s'. conjs; auto.
Qed.
Lemma mulv_ext_l n H H' v i : (forall j, (j < n)%nat -> H i j = H' i j) -> mulv n H v i = mulv n H' v i.
Proof. intros E. apply rsum_ext. intros j Hj. rewrite E; auto. Qed.
(** The new matrix is symmetric, maps the change of the gradient to the step, and is positive definite if the present one is
    and the step and the change of the gradient agree in direction. *)
Theorem C104_secant d n s s' : sizes n s -> symmetric n (el (dh s)) -> dot n (vel (dp s)) (vel (dq s)) <> 0 -> update d s = Ok s' ->
  symmetric n (el (dh s')) /\ (forall i, (i < n)%nat -> mulv n (el (dh s')) (vel (dq s)) i = vel (dp s) i) /\
  (pos_def n (el (dh s)) -> 0 < dot n (vel (dp s)) (vel (dq s)) -> pos_def n (el (dh s'))).
Proof.
  intros S SY K E. destruct (C104_formula d n s S) as (s1 & E1 & S1 & F & _). rewrite E in E1. inversion E1; subst s1.
  split; [|split].
  - intros i j Hi Hj. rewrite !F by auto. apply (bfgs_sym n _ _ _ SY i j Hi Hj).
  - intros i Hi. rewrite (mulv_ext_l n _ (bfgs n (el (dh s)) (vel (dp s)) (vel (dq s)))) by (intros; apply F; auto). apply bfgs_secant; auto.
  - intros PD KP v V. rewrite (dot_ext n v v _ (mulv n (bfgs n (el (dh s)) (vel (dp s)) (vel (dq s))) v)); auto.
    + apply (bfgs_pd n _ _ _ SY K PD KP v V).
    + intros i Hi. apply mulv_ext_l. intros; apply F; auto.
Qed.
(** One iteration of the variable metric method with Nocedal's search, from a symmetric positive definite estimate and a gradient that
    is not zero: the objective falls strictly, and the updated estimate is positive definite again unless the step length is within 0.001. *)
Theorem C104_iteration d n ztol eps scale isnan isinf eval grad G s var fuel tf : (0 < n)%nat -> 0 <= ztol < 1 / 1000 -> 0 < scale ->
  gradient_is n eps eval grad G -> sizes n s -> vlen var = n -> symmetric n (el (dh s)) -> pos_def n (el (dh s)) -> (exists i, (i < n)%nat /\ vel (dg s) i <> 0) ->
  exists s1 o, _zOptDMVecVM s var = Ok s1 /\ _zOptDMStepNoc ztol eps isnan isinf eval grad scale fuel tf cf9 s1 var (eval var) = Ok o /\
  match o with
  | Some (Some (s2, var', e1)) => e1 = eval var' /\ e1 < eval var /\
      exists a c s3, 0 < a <= c /\ (a = c \/ a <= ztol) /\ (forall i, (i < n)%nat -> vel var' i = vel var i - c * mulv n (el (dh s)) (vel (dg s)) i) /\
        update d s2 = Ok s3 /\ symmetric n (el (dh s3)) /\
        (1 / 1000 < a -> pos_def n (el (dh s3)) /\ forall i, (i < n)%nat -> mulv n (el (dh s3)) (fun j => G var' j - vel (dg s) j) i = vel var' i - vel var i)
  | _ => True
  end.
Proof.
  intros N Z SC HG S Lv SY PD GN.
  destruct (mulmv_R (dh s) (dg s) (dd s)) as (d0 & E0 & L0 & V0); [rewrite (z_nc n s S), (z_g n s S); auto|rewrite (z_nr n s S), (z_d n s S); auto|].
  unfold _zOptDMVecVM. rewrite E0. cbn [bind]. destruct (store_ok d0) as [L1 V1]. rewrite (z_g n s S), (z_d n s S) in *.
  assert (DV : forall i, (i < n)%nat -> vel (store d0) i = mulv n (el (dh s)) (vel (dg s)) i) by (intros i Hi; rewrite V1 by lia; apply V0; auto).
  set (s1 := with_d s (store d0)). assert (S1 : sizes n s1) by (destruct S; constructor; cbn [s1 with_d dx dd dg dp dq dr dh]; auto; congruence).
  destruct (noc_ok ztol eps scale isnan isinf eval grad n G N Z SC (gradient_fills _ _ _ _ _ HG) s1 var (eval var) cf9 fuel tf S1 Lv) as (o & EO & P).
  exists s1, o. split; [reflexivity|]. split; [exact EO|]. destruct o as [[[[s2 v'] e1]|]|]; auto. destruct P as (a & c & M & _ & A & B & C & D & _).
  assert (SL : dot n (vel (dg s1)) (vel (dd s1)) = dot n (vel (dg s)) (mulv n (el (dh s)) (vel (dg s)))) by (apply dot_ext; auto).
  assert (SP : 0 < dot n (vel (dg s)) (mulv n (el (dh s)) (vel (dg s)))) by (apply PD; auto).
  rewrite SL in *. set (sl := dot n (vel (dg s)) (mulv n (el (dh s)) (vel (dg s)))) in *.
  assert (0 < a * (1 / 10000 * sl)) by (apply Rmult_lt_0_compat; lra).
  destruct M. split; auto. split; [lra|].
  destruct (C104_formula d n s2 m_sizes) as (s3 & E3 & S3 & F3 & _).
  assert (SY2 : symmetric n (el (dh s2))) by (rewrite m_h; exact SY).
  exists a, c, s3. split; [lra|]. split; auto. split. { intros i Hi. rewrite m_var by auto. cbn [dd s1 with_d]. rewrite DV by auto. reflexivity. }
  split; auto. split. { intros i j Hi Hj. rewrite !F3 by auto. apply (bfgs_sym n _ _ _ SY2 i j Hi Hj). }
  intros A1. destruct D as [D|D]; [lra|].
  assert (PQ : dot n (vel (dp s2)) (vel (dq s2)) = c * (sl - dot n (G v') (vel (dd s1)))).
  { rewrite (dot_ext n (vel (dp s2)) (fun i => - c * vel (dd s1) i) (vel (dq s2)) (fun i => G v' i + (-1) * vel (dg s) i)); [|auto|intros i Hi; rewrite m_q by auto; cbn [dg s1 with_d]; ring].
    rewrite dot_lin. replace sl with (dot n (vel (dg s)) (vel (dd s1))) by (unfold sl; apply dot_ext; auto).
    unfold dot. rewrite <- rsum_sub, <- !rsum_scal, <- rsum_add. apply rsum_ext. intros i Hi. ring. }
  unfold cf9 in D. cbn [sdiv sofZ RealS] in D.
  assert (PQ0 : 0 < dot n (vel (dp s2)) (vel (dq s2))) by (rewrite PQ; apply Rmult_lt_0_compat; lra).
  destruct (C104_secant d n s2 s3 m_sizes SY2 ltac:(lra) E3) as (_ & SE & PD3). split.
  - apply PD3; auto. rewrite m_h. exact PD.
  - intros i Hi. rewrite (mulv_ext n (el (dh s3)) _ (vel (dq s2))) by (intros j Hj; rewrite m_q by auto; reflexivity).
    rewrite SE, m_p, m_var by auto. ring.
Qed.
(** The update called DFP is not that of Davidon, Fletcher and Powell. *)
Theorem C104_dfp_refuted : exists n s s', sizes n s /\ symmetric n (el (dh s)) /\ pos_def n (el (dh s)) /\ 0 < dot n (vel (dp s)) (vel (dq s)) /\
  update true s = Ok s' /\ el (dh s') 1 1 <> dfp n (el (dh s)) (vel (dp s)) (vel (dq s)) 1 1.
Proof.
  set (z := FV 2 (fun _ => 0)). set (s := DM z z z (FV 2 (fun i => if (i =? 0)%nat then 1 else 0)) (FV 2 (fun _ => 1)) z (FM 2 2 (fun i j => if (i =? j)%nat then 1 else 0)) [] 0).
  assert (S : sizes 2 s) by (constructor; reflexivity). destruct (C104_formula true 2 s S) as (s' & E & _ & F & _).
  exists 2%nat, s, s'. split; [exact S|]. split. { intros i j _ _. cbn [s dh el]. rewrite Nat.eqb_sym. reflexivity. } split.
  { intros v (i & Hi & V). unfold dot, mulv, rsum, s. cbn [dh el Nat.eqb].
    replace (0 + v 0%nat * (0 + 1 * v 0%nat + 0 * v 1%nat) + v 1%nat * (0 + 0 * v 0%nat + 1 * v 1%nat)) with (Rsqr (v 0%nat) + Rsqr (v 1%nat)) by (unfold Rsqr; ring).
    destruct i as [|[|]]; [| |lia]; pose proof (Rlt_0_sqr _ V); [pose proof (Rle_0_sqr (v 1%nat))|pose proof (Rle_0_sqr (v 0%nat))]; lra. }
  split. { unfold dot, rsum, s. cbn. lra. } split; [exact E|]. rewrite F by lia.
  unfold bfgs, dfp, dot, mulv, rsum, s. cbn [dh dp dq el vel Nat.eqb]. lra.
Qed.
Example C104_case : exists s, sizes 2 s /\ symmetric 2 (el (dh s)) /\ pos_def 2 (el (dh s)) /\ 0 < dot 2 (vel (dp s)) (vel (dq s)).
Proof.
  set (z := FV 2 (fun _ => 0)). exists (DM z z z (FV 2 (fun i => if (i =? 0)%nat then 1 else 0)) (FV 2 (fun _ => 1)) z (FM 2 2 (fun i j => if (i =? j)%nat then 1 else 0)) [] 0).
  split; [constructor; reflexivity|]. split. { intros i j _ _. cbn [dh el]. rewrite Nat.eqb_sym. reflexivity. } split.
  - intros v (i & Hi & V). unfold dot, mulv, rsum. cbn [dh el Nat.eqb].
    replace (0 + v 0%nat * (0 + 1 * v 0%nat + 0 * v 1%nat) + v 1%nat * (0 + 0 * v 0%nat + 1 * v 1%nat)) with (Rsqr (v 0%nat) + Rsqr (v 1%nat)) by (unfold Rsqr; ring).
    destruct i as [|[|]]; [| |lia]; pose proof (Rlt_0_sqr _ V); [pose proof (Rle_0_sqr (v 1%nat))|pose proof (Rle_0_sqr (v 0%nat))]; lra.
  - unfold dot, rsum. cbn. lra.
Qed.

(** ** C105 *)
(** Without a gradient function, the gradient is the central difference quotient in every direction; the variables are restored. *)
Theorem C105_gradient n eps eval var g : eps <> 0 -> respects n eval -> vlen var = n -> vlen g = n ->
  exists var' g', _zOptDMGradNG eps eval var g = Ok (var', g') /\ vlen var' = n /\ (forall i, (i < n)%nat -> vel var' i = vel var i) /\
    vlen g' = n /\ forall i, (i < n)%nat -> vel g' i = central eval eps var i.
Proof. intros. apply grad_ng_ok; auto. Qed.
(** It is exact for a quadratic objective, *)
Theorem C105_quadratic n eps eval Q c k x i : eps <> 0 -> vlen x = n -> (i < n)%nat -> symmetric n Q -> (forall y, vlen y = n -> eval y = quad n Q c (vel y) + k) ->
  central eval eps x i = mulv n Q (vel x) i + c i.
Proof. intros. apply (central_quad eval eps n H Q c k x i); auto. Qed.
(** and otherwise off by at most M eps^2/6, M bounding the third derivative along the direction. *)
Theorem C105_error n eps eval x i M : 0 < eps -> vlen x = n -> (i < n)%nat ->
  let phi := fun t => eval (bumped x i t) in
  (forall t k, (k <= 3)%nat -> ex_derive_n phi k t) -> (forall t, - eps <= t <= eps -> Rabs (Derive_n phi 3 t) <= M) ->
  Rabs (central eval eps x i - Derive phi 0) <= M * (eps * eps) / 6.
Proof. intros E _ _ phi D B. apply (central_error phi eps M E D B). Qed.
(** The Hessian by differences holds the difference quotients of the gradient; it is exact when that is the gradient of a quadratic objective,
    whether by a function or by differences again. *)
Theorem C105_hessian n eps eval grad G var h : eps <> 0 -> gradient_is n eps eval grad G -> (forall j, (j < n)%nat -> respects n (fun x => G x j)) ->
  vlen var = n -> nr h = n -> nc h = n ->
  exists var' h', _zOptDMHessNG eps eval grad var h = Ok (var', h') /\ vlen var' = n /\ (forall i, (i < n)%nat -> vel var' i = vel var i) /\ nr h' = n /\ nc h' = n /\
    (forall i j, (i < n)%nat -> (j < n)%nat -> el h' i j = central (fun x => G x j) eps var i) /\
    forall Q c, symmetric n Q -> (forall x j, vlen x = n -> (j < n)%nat -> G x j = mulv n Q (vel x) j + c j) -> forall i j, (i < n)%nat -> (j < n)%nat -> el h' i j = Q i j.
Proof.
  intros E0 HG RG Lv Hr Hc. destruct (hess_ng_ok eval grad eps n G E0 (gradient_fills _ _ _ _ _ HG) RG var h Lv Hr Hc) as (v' & h' & E & A & B & C & D & F).
  exists v', h'. conjs; auto. intros Q c SY GQ i j Hi Hj. rewrite F by auto. unfold central. rewrite !GQ by (auto; unfold bumped; auto).
  assert (BV : forall t, mulv n Q (vel (bumped var i t)) j = mulv n Q (vel var) j + t * Q j i).
  { intros t. set (e := fun a : nat => if (a =? i)%nat then 1 else 0). rewrite (mulv_ext n Q _ (fun a => vel var a + t * e a)).
    - rewrite mulv_lin. f_equal. f_equal. unfold mulv. rewrite (rsum_delta n i _ Hi); [unfold e; rewrite Nat.eqb_refl; ring|]. intros a Ha Hn. unfold e. rewrite (proj2 (Nat.eqb_neq a i) Hn). ring.
    - intros a Ha. unfold bumped, e. cbn [vel]. destruct (a =? i)%nat; ring. }
  rewrite !BV, (SY i j) by auto. field. auto.
Qed.
Example C105_case : let f := fun x : fvec R => vel x 0 * vel x 0 + 3 * vel x 0 in let Q := fun _ _ : nat => 2 in
  respects 1 f /\ symmetric 1 Q /\ (forall y, vlen y = 1%nat -> f y = quad 1 Q (fun _ => 3) (vel y) + 0) /\
  central f (1 / 1000000) (FV 1 (fun _ => 5)) 0 = 13.
Proof.
  cbv zeta. assert (E : forall y : fvec R, vlen y = 1%nat -> vel y 0 * vel y 0 + 3 * vel y 0 = quad 1 (fun _ _ => 2) (fun _ => 3) (vel y) + 0).
  { intros y _. unfold quad, dot, mulv, rsum. field. }
  split; [|split; [|split]]; auto.
  - intros x y _ _ H. rewrite (H O) by lia. reflexivity.
  - intros i j _ _. reflexivity.
  - rewrite (C105_quadratic 1 (1 / 1000000) _ (fun _ _ => 2) (fun _ => 3) 0 _ 0); auto; try lra; [unfold mulv, rsum; cbn [vel]; lra|intros i j _ _; reflexivity].
Qed.
Print Assumptions C103_descends_partial.
Print Assumptions C103_ds_endless_refuted.
Print Assumptions C103_eval_refuted.
Print Assumptions C104_iteration.
Print Assumptions C105_error.
