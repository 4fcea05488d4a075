(** C47 (line search), C48 (roots of a single equation). *)
From Coq Require Import Reals Lra Lia Psatz QArith Floats.
From Verif Require Import Prelude Scalar RealLib Root_Model Root_Spec Root_Proofs Root2_Proofs.
Local Open Scope R_scope.

(** ** C47.  The answer of trisection is the middle of an interval inside of [a,b] that holds the
    minimiser and is short, or has shrunk by 2/3 in every iteration. *)
Theorem C47_trisection f a b m ztol iter : unimodal f a b m -> 0 <= ztol ->
  exists l h, zOptLineTrisection ztol f a b iter = (l + h) / 2 /\ a <= l <= m /\ m <= h <= b /\
    (short ztol l h \/ h - l <= (2 / 3) ^ ziter iter * (b - a)).
Proof.
  intros U T. unfold zOptLineTrisection. destruct U as [U0 U1]. pose proof (tri_ok f a b m (conj U0 U1) ztol T (ziter iter) a b) as H.
  destruct (tri_loop _ _ _ _ _) as [l h]. destruct H as [H1 [H2 [H3 [H4 H5]]]]; try lra.
  exists l, h. repeat split; auto. cbn [smul sadd sdiv s1 sofZ RealS]. field.
Qed.
(** Golden section with the exact ratio (3 - sqrt 5)/2, the only root of g^2 - 3g + 1 below 1. *)
Theorem C47_golden_exact f a b m ztol iter g : unimodal f a b m -> 0 <= ztol -> g * g - 3 * g + 1 = 0 -> g < 1 ->
  exists l h, golden ztol f g a b iter = (l + h) / 2 /\ a <= l <= m /\ m <= h <= b /\
    (short ztol l h \/ h - l <= (1 - g) ^ ziter iter * (b - a)).
Proof.
  intros U T G1 G2. unfold golden. pose proof (gold_exact f a b m ztol U T g G1 G2 (ziter iter)) as H.
  cbv zeta in *. set (s := gold_loop _ _ _ _ _) in *. destruct H as [H1 [H2 [H3 [H4 H5]]]].
  exists (gmin s), (gmax s). repeat split; auto. cbn [smul sadd sdiv s1 sofZ RealS]. field.
Qed.
(** The constant of the library has 15 digits.  The errors it makes in the places of the inner points grow;
    the bracket is kept for 60 iterations, or when these suffice to get below the tolerance. *)
Theorem C47_golden_partial f a b m ztol iter : unimodal f a b m -> 0 <= ztol ->
  (ziter iter <= 60)%nat \/ (1 / 10 ^ 12) * (b - a) <= ztol ->
  exists l h, zOptLineGoldenSection ztol f a b iter = (l + h) / 2 /\ a <= l <= m /\ m <= h <= b /\
    (short ztol l h \/ h - l <= (6275 / 10000) ^ ziter iter * (b - a)).
Proof.
  intros U T N. unfold zOptLineGoldenSection, golden. pose proof (gold_library f a b m ztol U T (ziter iter) N) as H.
  change g0 with (@zGOLDENRATIO2 R _) in H.
  cbv zeta in *. set (s := gold_loop _ _ _ _ _) in *. destruct H as [H1 [H2 [H3 [H4 H5]]]].
  exists (gmin s), (gmax s). repeat split; auto. cbn [smul sadd sdiv s1 sofZ RealS]. field.
Qed.
(** Without that bound the minimiser is lost: |x - 3.375| on [-8e12, 8e12], in double arithmetic.  The final
    interval lies beside 3.375, by more than 1000 times the tolerance. *)
Theorem C47_golden_refuted : exists c l h : float, let f := fun x : float => PrimFloat.abs (x - c)%float in
  let s := gold_loop (T:=float) 1e-12%float f (zGOLDENRATIO2 (T:=float)) 1000 (gold_init f (zGOLDENRATIO2 (T:=float)) l h) in
  (l <? c)%float = true /\ (c <? h)%float = true /\ (c + 1e-8 <? gmin s)%float = true /\
  Complex_Model.zEqual (gmin s) (gmax s) 1e-12%float = true.
Proof. exists 3.375%float, (-8e12)%float, 8e12%float. vm_compute. auto. Qed.
(** Brent's method: the answer is in [a,b] and is no worse than the midpoint. *)
Theorem C47_brent_improves f a b ztol eps g iter : a <= b -> 0 <= ztol -> 0 <= eps -> 0 <= g <= 1 ->
  let r := zOptLineBrent ztol f g eps a b iter in a <= r <= b /\ f r <= f ((a + b) / 2).
Proof.
  intros AB Z E G. unfold zOptLineBrent. cbv zeta. cbn [smul sadd sdiv s1 sofZ RealS s0].
  replace (1 / 2 * (a + b)) with (/ 2 * (a + b)) by field. replace ((a + b) / 2) with (/ 2 * (a + b)) by field.
  match goal with |- context [brent_loop _ _ _ _ ?n ?s] => pose proof (bloop0_ok f a b ztol eps g Z E G n s) as H end.
  destruct H as [H1 [H2 [H3 [H4 H5]]]]; [|split; [lra|exact H5]].
  unfold binv0. cbn [ba bb bx bex]. repeat split; lra.
Qed.
(** The minimiser stays in the interval, and is near to the answer when the method reports no failure,
    unless a step of length zero is made. *)
Theorem C47_brent_partial f a b m ztol eps g iter : unimodal f a b m -> 0 <= ztol -> 0 <= eps -> 0 <= g <= 1 ->
  let x := 1 / 2 * (a + b) in
  let st := BR a b x x x (f x) (f x) (f x) 0 0 in
  let s := brent_loop ztol f g eps (S (ziter iter)) st in
  moves f ztol eps g (S (ziter iter)) st ->
  zOptLineBrent ztol f g eps a b iter = bx s /\ a <= ba s <= m /\ m <= bb s <= b /\ ba s <= bx s <= bb s /\
  (brent_done ztol eps s = true -> Rabs (bx s - m) <= 2 * (eps * Rabs (bx s) + ztol)).
Proof.
  intros U Z E G x st s M. pose proof (bloop_ok f a b m U ztol eps g Z E G (S (ziter iter)) st) as H.
  destruct H as [[H1 [H2 [H3 [H4 H5]]]] H6]; [|exact M|].
  - unfold binv, st. cbn [ba bb bx bex]. destruct U as [U _]. replace (/ 2 * (a + b)) with x by (unfold x; field). unfold x. repeat split; lra.
  - fold s in H1, H2, H3, H4, H6. repeat split; auto; lra.
Qed.
(** Otherwise it is lost: here the parabola through three points has its vertex at the best of them, the left
    end is moved there although the minimiser 1/2 is further left, and the method stops "successfully" at 0.618. *)
Local Open Scope Q_scope.
Definition gQ : Q := Eval vm_compute in zGOLDENRATIO2.
Definition x1Q : Q := Qred (1 - gQ).
Definition u2Q : Q := Qred (x1Q * (1 - gQ)).
Fixpoint broken_line (p : Q * Q) (l : list (Q * Q)) (t : Q) : Q :=
  match l with
  | [] => snd p
  | q :: r => if Qle_bool t (fst q) then Qred (snd p + (snd q - snd p) * (t - fst p) / (fst q - fst p)) else broken_line q r t
  end.
Definition bf : Q -> Q :=
  broken_line (0, 1) [(u2Q, Qred ((x1Q - u2Q) * (x1Q - u2Q))); (1#2, -(1)); (x1Q, 0); (1, Qred ((1 - x1Q) * (1 - x1Q))); (2, 1)].
Theorem C47_brent_refuted :
  (** the corners of the broken line: it falls strictly on [0,1/2] and rises strictly on [1/2,2] *)
  (0 < u2Q /\ u2Q < 1#2 /\ 1#2 < x1Q /\ x1Q < 1 /\ bf u2Q < bf 0 /\ bf (1#2) < bf u2Q /\
   bf (1#2) < bf x1Q /\ bf x1Q < bf 1 /\ bf 1 < bf 2) /\
  let s := brent_loop (1#100) bf gQ (1#1000000) 10 (BR 0 2 1 1 1 (bf 1) (bf 1) (bf 1) 0 0) in
  brent_done (1#100) (1#1000000) s = true /\ bx s = x1Q /\ ba s = x1Q /\ 61#100 < bx s.
Proof. vm_compute. repeat split; auto. Qed.
Close Scope Q_scope.

(** ** C48.  From a sign-changing bracket. *)
Theorem C48_bisec rnd f x1 x2 tol iter : sign_change f x1 x2 -> 0 <= tol ->
  let r := zNLE_Bisec rnd f x1 x2 tol iter in
  between x1 x2 r /\
  (Rabs (f r) <= tol \/
   exists y, between x1 x2 y /\ sign_change f r y /\ Rabs (y - r) = Rabs (x2 - x1) / 2 ^ S (ziter iter)).
Proof.
  intros H T. unfold zNLE_Bisec. destruct (ziter_pos iter) as [n E]. rewrite E.
  destruct (bracket_sc rnd f x1 x2 tol n H) as [->|[[-> A]|[-> A]]].
  - apply bisec_ok; auto.
  - split; [apply btw_l|auto].
  - split; [apply btw_r|auto].
Qed.
Theorem C48_bisec_root rnd f x1 x2 tol iter : continuity f -> sign_change f x1 x2 -> 0 <= tol ->
  let r := zNLE_Bisec rnd f x1 x2 tol iter in
  Rabs (f r) <= tol \/ exists z, between x1 x2 z /\ f z = 0 /\ Rabs (z - r) <= Rabs (x2 - x1) / 2 ^ S (ziter iter).
Proof.
  intros C H T r. pose proof (C48_bisec rnd f x1 x2 tol iter H T) as H0. cbv zeta in H0. fold r in H0. clearbody r.
  destruct H0 as [B [A|[y [By [S E]]]]]; [auto|right].
  assert (Z : exists z, between r y z /\ f z = 0).
  { unfold sign_change in S. destruct (Rle_dec r y) as [L|L].
    - destruct (IVT_cor f r y C L) as [z [Z1 Z2]]; [lra|]. exists z. split; [left|]; auto.
    - destruct (IVT_cor f y r C) as [z [Z1 Z2]]; [lra|lra|]. exists z. split; [right|]; auto. }
  destruct Z as [z [Z1 Z2]]. exists z. split; [exact (btw_trans _ _ _ _ _ B By Z1)|]. split; [exact Z2|].
  rewrite <- E. unfold between in Z1. unfold Rabs. destruct (Rcase_abs _), (Rcase_abs _); lra.
Qed.
Theorem C48_regula_falsi rnd f x1 x2 tol iter : sign_change f x1 x2 -> 0 <= tol ->
  let r := zNLE_RF rnd f x1 x2 tol iter in
  between x1 x2 r /\ (Rabs (f r) <= tol \/ exists y, between x1 x2 y /\ sign_change f r y).
Proof.
  intros H T. unfold zNLE_RF. destruct (ziter_pos iter) as [n E]. rewrite E.
  destruct (bracket_sc rnd f x1 x2 tol n H) as [->|[[-> A]|[-> A]]].
  - apply rf_ok; auto.
  - split; [apply btw_l|auto].
  - split; [apply btw_r|auto].
Qed.
(** van Wijngaarden-Dekker-Brent: a root within the tolerance, or an end of a sign-changing interval that
    is as short as the tolerance, or has been shortened by ztol/2 in every iteration but one *)
Theorem C48_vdb rnd f x1 x2 tol ztol iter : sign_change f x1 x2 -> 0 <= tol -> 0 < ztol ->
  let r := zNLE_VDB ztol rnd f x1 x2 tol iter in
  between x1 x2 r /\
  (Rabs (f r) <= tol \/
   exists y, between x1 x2 y /\ sign_change f r y /\
     (Rabs (y - r) <= 4 * ztol * Rabs r + ztol \/
      Rabs (y - r) <= Rabs (x2 - x1) - INR (ziter iter - 1) * (ztol / 2))).
Proof.
  intros H T Z. unfold zNLE_VDB. destruct (ziter_pos iter) as [n E]. rewrite E. replace (S n - 1)%nat with n by lia.
  destruct (bracket_sc rnd f x1 x2 tol n H) as [->|[[-> A]|[-> A]]].
  - assert (P : pre f x1 x2 (VDB x1 x2 x2 (f x1) (f x2) (f x2))).
    { unfold pre, vals. cbn [vx1 vx2 vx3 vf1 vf2 vf3]. unfold sign_change in *.
      repeat split; auto using btw_l, btw_r; intros Q; rewrite Q in H; lra. }
    apply (vdb_ok f tol ztol T Z x1 x2 n _ (Rabs (x2 - x1)) P).
    destruct (order_ok f x1 x2 _ P) as [_ O]. unfold width. cbn [vx1 vx2 vx3] in O.
    assert (N : f x2 <> 0) by (intros Q; unfold sign_change in H; rewrite Q in H; lra).
    unfold vdb_order. cbv zeta. cbn [vx1 vx2 vx3 vf1 vf2 vf3 slt smul s0 sabs RealS].
    rewrite (Rltb_true 0 (f x2 * f x2)) by nra. cbn [vx1 vx2 vx3 vf1 vf2 vf3].
    destruct (Rltb _ _); cbn [vx2 vx3]; [lra|rewrite Rabs_minus_sym; lra].
  - split; [apply btw_l|auto].
  - split; [apply btw_r|auto].
Qed.
(** The secant method finds the root of an affine function... *)
Theorem C48_secant_partial rnd p q x1 x2 tol iter : p <> 0 -> 0 <= tol -> tol < Rabs (p * x1 - p * x2) ->
  let f := fun x => p * x + q in Rabs (f (zNLE_Secant rnd f x1 x2 tol iter)) <= tol.
Proof.
  intros P T D f. unfold zNLE_Secant. destruct (ziter_pos iter) as [n E]. rewrite E. cbn [secant_start secant_loop].
  rewrite !is_tol_R. cbn [ssub sdiv smul RealS].
  destruct (Rleb_spec (Rabs (f x1)) tol); [auto|]. destruct (Rleb_spec (Rabs (f x2)) tol); [auto|].
  assert (D' : f x1 - f x2 = p * x1 - p * x2) by (unfold f; ring).
  destruct (Rleb_spec (Rabs (f x1 - f x2)) tol) as [Q|_]; [rewrite D' in Q; lra|]. cbn [negb].
  assert (NZ : x2 - x1 <> 0).
  { intros Q. replace (p * x1 - p * x2) with 0 in D by (replace x2 with x1 by lra; ring). rewrite Rabs_R0 in D. lra. }
  assert (X : f ((f x2 * x1 - f x1 * x2) / (f x2 - f x1)) = 0).
  { unfold f. field. replace (p * x2 + q - (p * x1 + q)) with (p * (x2 - x1)) by ring. apply Rmult_integral_contrapositive_currified; auto. }
  set (xc := _ / _) in *. rewrite X, Rabs_R0. rewrite (Rleb_true 0 tol) by lra. rewrite X, Rabs_R0. exact T.
Qed.
(** ... but divides by the difference of two values of the function without a test: from the sign-changing
    bracket [-3,1] of x^2 - 5 it answers NaN. *)
Theorem C48_secant_refuted : exists (f : float -> float) x1 x2,
  (forall x, f x = x * x - 5)%float /\ (f x1 * f x2 <? 0)%float = true /\
  let r := zNLE_Secant (fun _ a _ => a) f x1 x2 1e-12%float 10 in (r =? r)%float = false.
Proof. exists (fun x => x * x - 5)%float, (-3)%float, 1%float. split; [reflexivity|]. vm_compute. auto. Qed.
(** Without a sign change in the beginning, a root met by the random search is not the one answered: (x-1)^2 on
    [0,3] with the first number drawn 1 is answered by the end 0. *)
Theorem C48_random_bracket_refuted : exists (f : Q -> Q) rnd x1 x2 tol,
  (forall x, f x = Qred ((x - 1) * (x - 1)))%Q /\ (forall k, Qle x1 (rnd k x1 x2) /\ Qle (rnd k x1 x2) x2) /\
  f (rnd 0%nat x1 x2) = 0%Q /\
  forall solver, In solver [zNLE_Bisec rnd f; zNLE_RF rnd f; zNLE_VDB (1#100)%Q rnd f] ->
    solver x1 x2 tol 5%Z = x1 /\ Qlt tol (f x1).
Proof.
  exists (fun x => Qred ((x - 1) * (x - 1)))%Q, (fun _ _ _ => 1%Q), 0%Q, 3%Q, (1#10)%Q.
  split; [reflexivity|]. split; [intros; split; vm_compute; discriminate|]. split; [reflexivity|].
  intros s [<-|[<-|[<-|[]]]]; vm_compute; auto.
Qed.

(** *** the hypotheses can be met *)
Lemma quad_unimodal : unimodal (fun x => (x - 1) * (x - 1)) 0 3 1.
Proof. repeat split; try lra; intros; nra. Qed.
Example C47_case : exists l h, zOptLineTrisection (1 / 10) (fun x => (x - 1) * (x - 1)) 0 3 0 = (l + h) / 2 /\ 0 <= l <= 1 /\ 1 <= h <= 3 /\
    (short (1 / 10) l h \/ h - l <= (2 / 3) ^ ziter 0 * (3 - 0)).
Proof. apply C47_trisection; [exact quad_unimodal|lra]. Qed.
Example C47_golden_case : exists l h, zOptLineGoldenSection (1 / 10 ^ 11) (fun x => (x - 1) * (x - 1)) 0 3 0 = (l + h) / 2 /\ 0 <= l <= 1 /\ 1 <= h <= 3 /\
    (short (1 / 10 ^ 11) l h \/ h - l <= (6275 / 10000) ^ ziter 0 * (3 - 0)).
Proof. apply C47_golden_partial; [exact quad_unimodal|cbn [pow]; lra|right; cbn [pow]; lra]. Qed.
Example C47_ratio_case : ((3 - R_sqrt.sqrt 5) / 2) * ((3 - R_sqrt.sqrt 5) / 2) - 3 * ((3 - R_sqrt.sqrt 5) / 2) + 1 = 0 /\ (3 - R_sqrt.sqrt 5) / 2 < 1.
Proof.
  assert (H : R_sqrt.sqrt 5 * R_sqrt.sqrt 5 = 5) by (apply sqrt_sqrt; lra). split; [nra|].
  assert (1 < R_sqrt.sqrt 5) by (apply Rsqr_incrst_0; unfold Rsqr; try lra; apply sqrt_pos). lra.
Qed.
(** runs of the model: the answers, in rational numbers *)
Example C47_run :
  Qle_bool (Qabs.Qabs (zOptLineTrisection (1#1000) (fun x => Qred ((x - 1) * (x - 1)))%Q 0%Q 3%Q 50 - 1)%Q) (1#1000) = true /\
  Qle_bool (Qabs.Qabs (zOptLineBrent (1#1000) (fun x => Qred ((x - 1) * (x - 1)))%Q gQ (1#1000000) 0%Q 3%Q 20 - 1)%Q) (1#100) = true.
Proof. vm_compute. auto. Qed.
Example C48_case : sign_change (fun x => x * x - 2) 0 2 /\
  Qle_bool (Qabs.Qabs (zNLE_Bisec (fun _ a _ => a) (fun x => Qred (x * x - 2))%Q 0%Q 2%Q (1#1000) 50 - (1414#1000))%Q) (1#1000) = true /\
  Qle_bool (Qabs.Qabs (zNLE_RF (fun _ a _ => a) (fun x => Qred (x * x - 2))%Q 0%Q 2%Q (1#1000) 50 - (1414#1000))%Q) (1#1000) = true /\
  Qle_bool (Qabs.Qabs (zNLE_VDB (1#10000) (fun _ a _ => a) (fun x => Qred (x * x - 2))%Q 0%Q 2%Q (1#1000) 10 - (1414#1000))%Q) (1#1000) = true.
Proof. split; [unfold sign_change; lra|]. vm_compute. auto. Qed.
Print Assumptions C47_trisection.
Print Assumptions C47_golden_exact.
Print Assumptions C47_golden_partial.
Print Assumptions C47_golden_refuted.
Print Assumptions C47_brent_improves.
Print Assumptions C47_brent_partial.
Print Assumptions C47_brent_refuted.
Print Assumptions C48_bisec.
Print Assumptions C48_bisec_root.
Print Assumptions C48_regula_falsi.
Print Assumptions C48_vdb.
Print Assumptions C48_secant_partial.
Print Assumptions C48_secant_refuted.
Print Assumptions C48_random_bracket_refuted.
