(** C96: the roots found by the polynomial equation solvers. *)
From Coq Require Import Reals Lra PrimFloat Floats.
From Verif Require Import Prelude Prelude_Proofs Scalar RealLib Pex_Model Pex_Spec Complex_Model Complex_Spec Complex_Proofs
  PexEq_Model PexEq_Spec PexEq_Proofs PexEq2_Proofs PexEq3_Proofs.
From Coquelicot Require Import Coquelicot.
Local Open Scope R_scope.

(** any scalar type: zPexBH refuses a vector that is too small for the roots; otherwise it
    always ends with an answer and never leaves the arrays *)
Theorem C96_answers : forall (T : Type) (ST : Scalar T) (ztol peqtol half four : T) (maxiter : nat)
  (a : list T) (ans : list (T * T)) (tol : T) (iter : nat), a <> nil ->
  if (length a - 1 <=? length ans)%nat
  then exists out w, zPexBH ztol peqtol maxiter half four a ans tol iter = Ok (Some (out, w)) /\ length out = length ans
  else zPexBH ztol peqtol maxiter half four a ans tol iter = Ok None.
Proof.
  intros T ST ztol peqtol half four maxiter a ans tol iter Ha. unfold zPexBH, zPexBHDST.
  assert (0 < length a)%nat by (destruct a; [contradiction|cbn; lia]).
  destruct (Nat.leb_spec (length a - 1) (length ans)) as [L|L]; destruct (Nat.ltb_spec (length ans) (length a - 1)) as [L'|L']; try lia; auto.
  destruct (bhdst_total maxiter half four (if seq tol s0 then peqtol else tol) iter (length a) (length a - 1) a ans false) as (out & w & E & Lo & _); [lia|lia|lia|].
  rewrite E. cbn [bind]. do 2 eexists. split; [reflexivity|]. unfold zCVecTouchup. now rewrite map_length.
Qed.

(** No warning: the polynomial is the product of the returned linear factors up to the
    remainders of the divisions, all of which are small.  [e] is the tolerance in use.
    Missing: a bound on the distance to the true roots, and the end of the iteration. *)
Theorem C96_factors_partial : forall (ztol peqtol tol : R) (maxiter iter : nat) (a : list R) (ans out : list C),
  0 <= ztol -> 0 <= peqtol -> 0 <= tol -> regular a ->
  zPexBH ztol peqtol maxiter (1 / 2) 4 a ans tol iter = Ok (Some (out, false)) ->
  let n := (length a - 1)%nat in
  let e := if Req_EM_T tol 0 then peqtol else tol in
  exists zs fs rest,
    Forall2 (touched ztol) zs out /\ length zs = length ans /\
    (forall i, (n <= i)%nat -> nth i zs (RtoC 0) = nth i ans (RtoC 0)) /\
    small_remainders e n (coef a) fs /\ (length rest <= 1)%nat /\
    ((forall f, In f fs -> fp f <> 0 \/ fq f <> 0) -> forall x,
      Cpeval a x = nested fs (fun x => Cmult (RtoC (coef a n)) (Croots rest x)) x /\
      Cmult (RtoC (coef a n)) (Croots (firstn n zs) x) = nested (map no_remainder fs) (fun x => Cmult (RtoC (coef a n)) (Croots rest x)) x).
Proof.
  intros ztol peqtol tol maxiter iter a ans out Hz Hp Ht (Ha & Hl) E n e.
  assert (0 < length a)%nat by (destruct a; [contradiction|cbn; lia]).
  unfold zPexBH, zPexBHDST in E. destruct (Nat.ltb_spec (@length (R * R) ans) (length a - 1)) as [L|L]; [discriminate|].
  apply bind_ok in E as ([zs w] & E & E1). inversion E1; subst w out. clear E1.
  assert ((if seq tol s0 then peqtol else tol) = e) as Ee.
  { unfold e. rs. destruct (Reqb_spec tol 0), (Req_EM_T tol 0); auto; contradiction. }
  rewrite Ee in E. destruct (bhdst_trace maxiter e iter) with (fuel := length a) (n := n) (a := a) (ans := ans) (ans' := zs) (w := false)
    as (L1 & K & fs & rest & S1 & S2 & S3); auto.
  - unfold e. destruct (Req_EM_T tol 0); auto.
  - unfold n. clia.
  - unfold n. clia.
  - exists zs, fs, rest. split; [now apply touchup_vec|]. split; [exact L1|]. split; [exact K|]. split; [exact S1|]. split; [exact S2|].
    intros H0 x. split.
    + destruct (S3 H0 x) as (F1 & _). unfold lead in F1. replace (n + 1)%nat with (length a) in F1 by (unfold n; lia). exact F1.
    + apply (S3 H0 x).
Qed.

(** the idealisation of a zero tolerance, and x^2 does not divide the polynomial: exactly
    the n roots are returned, each as often as its multiplicity *)
Theorem C96_exact : forall (ztol : R) (maxiter iter : nat) (a : list R) (ans out : list C),
  0 <= ztol -> regular a -> coef a 0 <> 0 \/ coef a 1 <> 0 ->
  zPexBH ztol 0 maxiter (1 / 2) 4 a ans 0 iter = Ok (Some (out, false)) ->
  let n := (length a - 1)%nat in
  exists zs, Forall2 (touched ztol) zs out /\ length zs = length ans /\
    forall x, Cpeval a x = Cmult (RtoC (coef a n)) (Croots (firstn n zs) x).
Proof.
  intros ztol maxiter iter a ans out Hz Ha H0 E n.
  destruct (C96_factors_partial ztol 0 0 maxiter iter a ans out Hz (Rle_refl 0) (Rle_refl 0) Ha E) as (zs & fs & rest & T1 & L & K & S1 & S2 & S3).
  destruct (Req_EM_T 0 0); [|contradiction]. exists zs. split; auto. split; auto. intros x.
  destruct S3 with (x := x) as (F1 & F2).
  - eapply small_nonzero; eauto. apply Ha.
  - etransitivity; [exact F1|]. symmetry. etransitivity; [exact F2|]. symmetry. apply nested_no_remainder. eapply small_zero; eauto.
Qed.
(** in particular with ztol = 0 as well the answer itself is the list of the roots *)
Corollary C96_exact_roots : forall (maxiter iter : nat) (a : list R) (ans out : list C),
  regular a -> coef a 0 <> 0 \/ coef a 1 <> 0 ->
  zPexBH 0 0 maxiter (1 / 2) 4 a ans 0 iter = Ok (Some (out, false)) ->
  let n := (length a - 1)%nat in
  forall x, Cpeval a x = Cmult (RtoC (coef a n)) (Croots (firstn n out) x).
Proof.
  intros maxiter iter a ans out Ha H0 E n x. destruct (C96_exact 0 maxiter iter a ans out (Rle_refl 0) Ha H0 E) as (zs & T1 & L & F).
  replace out with zs; [apply F|]. clear - T1. induction T1 as [|z z' zs zs' H T1 IH]; auto. f_equal; auto.
  destruct z as [u v], z' as [u' v']. destruct H as (H1 & H2). cbn in *. rewrite Rmult_0_l in H1, H2.
  assert (forall x, Rabs x <= 0 -> x = 0) as K by (intros y; unfold Rabs; destruct (Rcase_abs y); lra).
  f_equal.
  - destruct H1 as [|(-> & H1)]; auto.
  - destruct H2 as [|(-> & H2)]; auto.
Qed.

(** the hypotheses are met by x^3 + 2 x^2 + x = x (x + 1)^2, which ends at once *)
Example C96_exact_case : let a := [0; 1; 2; 1] in let z := RtoC 0 in
  regular a /\ (coef a 0 <> 0 \/ coef a 1 <> 0) /\
  exists out, zPexBH 0 0 5 (1 / 2) 4 a [z; z; z] 0 1 = Ok (Some (out, false)).
Proof.
  cbn zeta. split; [split; [discriminate|unfold coef; cbn; lra]|]. split; [right; unfold coef; cbn; lra|].
  pose proof (C96_answers R _ 0 0 (1 / 2) 4 5 [0; 1; 2; 1] [RtoC 0; RtoC 0; RtoC 0] 0 1 ltac:(discriminate)) as H.
  cbn [length Nat.sub Nat.leb] in H. destruct H as (out & w & E & _). exists out.
  assert (w = false) as ->; [|exact E].
  unfold zPexBH, zPexBHDST in E. cbn [length Nat.sub Nat.ltb Nat.leb] in E. apply bind_ok in E as ([zs w'] & E & E1). inversion E1; subst. clear E1.
  cbn [bhdst_loop] in E. rs. cbn [get nth_error bind] in E. apply bind_ok in E as ([[[p q] a'] w1] & E1 & E).
  assert (w1 = false) as ->.
  { revert E1. unfold _zPexBH. cbn [Nat.eqb bh_loop]. unfold bh_quot, bh_grad, bh_delta, for_.
    cbn [Nat.sub Nat.add repeat get nth_error bind set Nat.ltb Nat.leb length upd loop for_down negb andb]. unfold is_tol. rs.
    match goal with |- context [Reqb ?d 0] => destruct (Reqb_spec d 0) as [Hd|Hd]; [exfalso; lra|] end.
    replace (if Reqb 0 0 then 0 else 0) with 0 by (destruct (Reqb 0 0); reflexivity). cbn [negb andb].
    repeat match goal with |- context [Rleb (Rabs (?u * ?v)) 0] => replace (u * v) with (0 * v) by (f_equal; ring); rewrite Rmult_0_l, Rabs_R0; destruct (Rleb_spec 0 0); [|lra] end.
    cbn [andb bind]. intros E1. cbn [get nth_error bind set Nat.ltb Nat.leb length upd loop] in E1. now inversion E1. }
  apply bind_ok in E as (an & _ & E). cbn [orb] in E. cbn [Nat.sub bhdst_loop] in E.
  apply bind_ok in E as (? & _ & E). apply bind_ok in E as (? & _ & E). apply bind_ok in E as (? & _ & E). now inversion E.
Qed.

(** IEEE doubles: for x^3 - x - 1 the very first correction divides by zero; whatever the
    iteration limit, all real parts of the answer are NaN (only a warning is printed) *)
Definition cubic : list float := [(-1)%float; (-1)%float; 0%float; 1%float].
Lemma cubic_stuck k b c :
  bh_loop k 1e-7%float cubic 3 nan nan [nan; nan; nan; 1%float] [b; c; 1%float] = Ok (nan, nan, [nan; nan; nan; 1%float], true).
Proof.
  revert b c. induction k as [|k IH]; intros b c; cbn [bh_loop]; [reflexivity|].
  replace (bh_quot nan nan cubic 3 [nan; nan; nan; 1%float]) with (Ok [nan; nan; nan; 1%float]) by (vm_compute; reflexivity). cbn [bind].
  replace (bh_grad nan nan 3 [nan; nan; nan; 1%float] [b; c; 1%float]) with (Ok [nan; nan; 1%float]) by (vm_compute; reflexivity). cbn [bind].
  replace (bh_delta [nan; nan; nan; 1%float] [nan; nan; 1%float]) with (Ok (nan, nan, false)) by (vm_compute; reflexivity). cbn [bind negb andb].
  replace (is_tol 1e-7%float nan) with false by (vm_compute; reflexivity). cbn [andb].
  replace (sadd nan nan) with nan by (vm_compute; reflexivity). apply IH.
Qed.
Theorem C96_singular_refuted : forall (maxiter k : nat), let z := (0%float, 0%float) in
  exists out, zPexBH 1e-12%float 1e-7%float maxiter 0.5%float 4%float cubic [z; z; z] 0%float (3 + k) = Ok (Some (out, true)) /\
    length out = 3%nat /\ List.Forall (fun r => PrimFloat.is_nan (fst r) = true) out.
Proof.
  intros maxiter k z. unfold zPexBH, zPexBHDST. cbn [length cubic Nat.sub Nat.ltb Nat.leb bhdst_loop]. fold cubic.
  replace (seq 0%float s0) with true by (vm_compute; reflexivity). unfold _zPexBH. cbn [Nat.add Nat.eqb].
  cbn [get nth_error cubic bind]. fold cubic. cbn [repeat Nat.add].
  assert (bh_loop (S (S (S k))) 1e-7%float cubic 3 (sadd (-1)%float s1) (sadd (-1)%float s1) [(s0 : float); (s0 : float); (s0 : float); (s0 : float)] [(s0 : float); (s0 : float); (s0 : float)] = Ok (nan, nan, [nan; nan; nan; 1%float], true)) as ->.
  { cbn [bh_loop].
    replace (bh_quot (sadd (-1)%float s1) (sadd (-1)%float s1) cubic 3 [(s0 : float); (s0 : float); (s0 : float); (s0 : float)]) with (Ok [(-1)%float; (-1)%float; 0%float; 1%float]) by (vm_compute; reflexivity). cbn [bind].
    replace (bh_grad (sadd (-1)%float s1) (sadd (-1)%float s1) 3 [(-1)%float; (-1)%float; 0%float; 1%float] [(s0 : float); (s0 : float); (s0 : float)]) with (Ok [(-1)%float; 0%float; 1%float]) by (vm_compute; reflexivity). cbn [bind].
    replace (bh_delta [(-1)%float; (-1)%float; 0%float; 1%float] [(-1)%float; 0%float; 1%float]) with (Ok (infinity, nan, true)) by (vm_compute; reflexivity). cbn [bind negb andb].
    replace (sadd (sadd (-1)%float s1) infinity) with infinity by (vm_compute; reflexivity). replace (sadd (sadd (-1)%float s1) nan) with nan by (vm_compute; reflexivity).
    replace (bh_quot infinity nan cubic 3 [(-1)%float; (-1)%float; 0%float; 1%float]) with (Ok [nan; nan; neg_infinity; 1%float]) by (vm_compute; reflexivity). cbn [bind].
    replace (bh_grad infinity nan 3 [nan; nan; neg_infinity; 1%float] [(-1)%float; 0%float; 1%float]) with (Ok [nan; neg_infinity; 1%float]) by (vm_compute; reflexivity). cbn [bind].
    replace (bh_delta [nan; nan; neg_infinity; 1%float] [nan; neg_infinity; 1%float]) with (Ok (nan, nan, false)) by (vm_compute; reflexivity). cbn [bind negb andb].
    replace (is_tol 1e-7%float nan) with false by (vm_compute; reflexivity). cbn [andb].
    replace (sadd infinity nan) with nan by (vm_compute; reflexivity). replace (sadd nan nan) with nan by (vm_compute; reflexivity).
    replace (bh_quot nan nan cubic 3 [nan; nan; neg_infinity; 1%float]) with (Ok [nan; nan; nan; 1%float]) by (vm_compute; reflexivity). cbn [bind].
    replace (bh_grad nan nan 3 [nan; nan; nan; 1%float] [nan; neg_infinity; 1%float]) with (Ok [nan; nan; 1%float]) by (vm_compute; reflexivity). cbn [bind].
    replace (bh_delta [nan; nan; nan; 1%float] [nan; nan; 1%float]) with (Ok (nan, nan, false)) by (vm_compute; reflexivity). cbn [bind negb andb].
    replace (is_tol 1e-7%float nan) with false by (vm_compute; reflexivity). cbn [andb].
    replace (sadd nan nan) with nan by (vm_compute; reflexivity). apply cubic_stuck. }
  eexists. split; [vm_compute; reflexivity|]. split; [reflexivity|]. repeat constructor.
Qed.

(** an iteration limit leaves a pair that is not near the roots: one iteration for
    x^3 - 2 x - 5; the only sign of it is the message *)
Theorem C96_limit_refuted : let z := (0%float, 0%float) in let a := [(-5)%float; (-2)%float; 0%float; 1%float] in
  exists out y v, zPexBH 1e-12%float 1e-7%float 100 0.5%float 4%float a [z; z; z] 0%float 1 = Ok (Some (out, true)) /\
    nth_error out 0 = Some y /\ pexcval a y = Ok v /\ PrimFloat.ltb 1 (PrimFloat.abs (fst v)) = true.
Proof. do 3 eexists. split; [vm_compute; reflexivity|]. split; [reflexivity|]. split; vm_compute; reflexivity. Qed.

Lemma nth_first_ {A} (l : list A) k j d : (j < k)%nat -> nth j (firstn k l) d = nth j l d.
Proof. revert l j; induction k as [|k IH]; intros [|x l] [|j] H; cbn; auto; try lia. apply IH. lia. Qed.

(** Durand-Kerner-Aberth: no warning, then each of the n numbers makes the real and the
    imaginary part of the polynomial at most the tolerance; the rest of the vector is kept.
    Missing: convergence, and that all roots are found *)
Theorem C96_dka_partial : forall (ztol peqtol tol : R) (maxiter iter : nat) (powr : R -> R -> R) (cosr sinr : R -> R) (pix2 c15 : R)
  (a : list R) (ans out : list C), 0 <= ztol -> a <> nil ->
  zPexDKA ztol peqtol maxiter powr cosr sinr pix2 c15 a ans tol iter = Ok (Some (out, false)) ->
  let n := (length a - 1)%nat in
  let e := if Req_EM_T tol 0 then peqtol else tol in
  exists zs, Forall2 (touched ztol) zs out /\ length zs = length ans /\ (forall i, (n <= i)%nat -> nth i zs (RtoC 0) = nth i ans (RtoC 0)) /\
    (forall z, In z (firstn n zs) -> Rabs (fst (Cpeval a z)) <= e /\ Rabs (snd (Cpeval a z)) <= e) /\
    (e = 0 -> NoDup (firstn n zs) -> forall x, Cpeval a x = Cmult (RtoC (coef a n)) (Croots (firstn n zs) x)).
Proof.
  intros ztol peqtol tol maxiter iter powr cosr sinr pix2 c15 a ans out Hz Ha E n e.
  assert (0 < length a)%nat as La by (destruct a; [contradiction|cbn; lia]).
  unfold zPexDKA in E. destruct (Nat.ltb_spec (@length (R * R) ans) (length a - 1)) as [L|L]; [discriminate|].
  assert ((if seq tol s0 then peqtol else tol) = e) as Ee.
  { unfold e. rs. destruct (Reqb_spec tol 0), (Req_EM_T tol 0); auto; contradiction. }
  rewrite Ee in E. apply bind_ok in E as ([s r0] & _ & E). apply bind_ok in E as (an & E1 & E). apply bind_ok in E as ([zs w] & E2 & E).
  inversion E; subst w out. clear E. apply dka_init_ok in E1 as (L1 & K1).
  apply dka_loop_ok in E2 as ((L2 & K2) & H); [|auto|clia|rewrite repeat_length; clia]. fold n in H, K1, K2.
  exists zs. split; [now apply touchup_vec|]. split; [clia|]. split; [intros; rewrite K2, K1; auto|].
  assert (forall z, In z (firstn n zs) -> Rabs (fst (Cpeval a z)) <= e /\ Rabs (snd (Cpeval a z)) <= e) as B.
  { intros z Hin. apply In_nth with (d := RtoC 0) in Hin as (i & Hi & <-). rewrite firstn_length in Hi.
    rewrite nth_first_ by lia. apply (H i). lia. }
  split; auto. intros E0 N x. pose proof (distinct_zeros n (fun i => RtoC (coef a i)) (firstn n zs)) as D. unfold pv in D.
  replace (S n) with (length a) in D by (unfold n; lia). apply D; auto.
  - rewrite firstn_length. unfold n. clia.
  - intros z Hin. destruct (B z Hin) as (B1 & B2). rewrite E0 in B1, B2.
    assert (forall y, Rabs y <= 0 -> y = 0) as K by (intros y; unfold Rabs; destruct (Rcase_abs y); lra).
    apply C_eq; cbn [RtoC fst snd]; now apply K.
Qed.

(** what the iteration does: from n points on a circle about the centre of gravity of the
    roots, simultaneous steps of Weierstrass; all of the allowed ones after a warning *)
Theorem C96_dka_steps : forall (ztol peqtol tol : R) (maxiter iter : nat) (powr : R -> R -> R) (cosr sinr : R -> R) (pix2 c15 : R)
  (a : list R) (ans out : list C) (w : bool), 0 <= ztol -> (2 <= length a)%nat ->
  let n := (length a - 1)%nat in
  ztol < Rabs (coef a n) ->
  zPexDKA ztol peqtol maxiter powr cosr sinr pix2 c15 a ans tol iter = Ok (Some (out, w)) ->
  let limit := (if iter =? 0 then maxiter else iter)%nat in
  let s := coef a (n - 1) / (coef a n * INR n) in
  exists r0 start k zs,
    (forall i, (i < n)%nat -> let t := (pix2 * INR i + c15) / INR n in nth i start (RtoC 0) = (r0 * cosr t - s, r0 * sinr t)) /\
    (k <= limit)%nat /\ (w = true -> k = limit) /\ weierstrass a n k start zs /\ Forall2 (touched ztol) zs out.
Proof.
  intros ztol peqtol tol maxiter iter powr cosr sinr pix2 c15 a ans out w Hz Ha n Hl E limit s.
  unfold zPexDKA in E. destruct (Nat.ltb_spec (@length (R * R) ans) (length a - 1)) as [L|L]; [discriminate|].
  apply bind_ok in E as ([s' r0] & E0 & E). apply bind_ok in E as (an & E1 & E). apply bind_ok in E as ([zs w'] & E2 & E).
  inversion E; subst w' out. clear E. fold n in E0, E1, E2.
  apply dka_radius_shift in E0; [|unfold n; lia|unfold n; lia].
  pose proof (dka_init_ok _ _ _ _ _ _ _ _ _ E1) as (L1 & K1). pose proof (dka_init_val _ _ _ _ _ _ _ _ _ L E1) as V1.
  assert (n < length a)%nat as Hn by (unfold n; lia). assert (n <= @length C an)%nat as Hn2 by (unfold n; clia).
  destruct (dka_loop_steps ztol _ a n Hz Hn Hl _ _ _ _ _ Hn2 (repeat_length _ _) E2) as (k & Hk & Hw & W).
  exists r0, an, k, zs. subst s'. split; [exact V1|]. split; [exact Hk|]. split; [exact Hw|]. split; [exact W|]. now apply touchup_vec.
Qed.

(** a constant polynomial: coefficient -1 is read *)
Theorem C96_dka_constant_refuted : forall (T : Type) (ST : Scalar T) (ztol peqtol : T) maxiter powr cosr sinr (pix2 c15 c tol : T) (ans : list (T * T)) iter,
  zPexDKA ztol peqtol maxiter powr cosr sinr pix2 c15 (c :: nil) ans tol iter = UB.
Proof. intros. unfold zPexDKA. cbn [length Nat.sub]. destruct (length ans <? 0)%nat eqn:E; [apply Nat.ltb_lt in E; lia|reflexivity]. Qed.

(** two close roots with a large leading coefficient: the division by the difference of the
    two iterates fails and an uninitialised variable is read.  1e9 x^2 - 1e-5, whose roots
    are 1e-7 and -1e-7; cos and sin of 0.75 and pi + 0.75, correctly rounded *)
Theorem C96_dka_refuted :
  let powr x y := if PrimFloat.eqb y 0.5 then PrimFloat.sqrt x else x in
  let cosr t := if PrimFloat.ltb t 2 then 0.7316888688738209%float else (-0.7316888688738209)%float in
  let sinr t := if PrimFloat.ltb t 2 then 0.6816387600233341%float else (-0.6816387600233341)%float in
  let z := (0%float, 0%float) in
  zPexDKA 1e-12%float 1e-7%float 100 powr cosr sinr 6.283185307179586%float 1.5%float
    [(-1e-5)%float; 0%float; 1e9%float] [z; z] 0%float 0 = UB.
Proof. vm_compute. reflexivity. Qed.


(** the hypotheses of C96_dka_partial are met: x - 1 over the reals, and x^2 - 1 in doubles
    (roots on the circle of radius sqrt 2 at the start, 1 and -1 at the end) *)
Example C96_dka_case :
  exists out, zPexDKA 0 0 5 (fun x _ => x) (fun _ => 1) (fun _ => 0) 6 (3 / 2) [-1; 1] (RtoC 0 :: nil) 0 1 = Ok (Some (out, false)).
Proof.
  unfold zPexDKA. cbn [length Nat.sub Nat.ltb Nat.leb]. unfold dka_radius, zPexModulo, dka_init, for_.
  cbn [getZ Z.of_nat Pos.of_succ_nat Z.sub Z.ltb Z.compare Z.to_nat get nth_error bind rmap length repeat Nat.add Nat.sub Nat.eqb negb for_down loop set Nat.ltb Nat.leb upd].
  cbn. unfold is_tol, nofn. rs. cbn [Z.of_nat Pos.of_succ_nat].
  replace (if Reqb 0 0 then 0 else 0) with 0 by (destruct (Reqb 0 0); reflexivity).
  replace (1 * Rabs ((-1 - -1 / (1 * 1) * 1) / 1)) with 0 by (replace ((-1 - -1 / (1 * 1) * 1) / 1) with 0 by field; rewrite Rabs_R0; ring).
  replace (if Rltb 0 0 then 0 else 0) with 0 by (destruct (Rltb 0 0); reflexivity).
  replace (0 * 1 - -1 / (1 * 1), 0 * 0) with (RtoC 1) by (apply C_eq; cbn; field).
  change [-1; 1] with (-1 :: 1 :: nil). rewrite (pexcval_ok (-1 :: 1 :: nil) (RtoC 1)) by (cbn; lia). cbn [bind].
  replace (Cpeval (-1 :: 1 :: nil) (RtoC 1)) with (RtoC 0) by (unfold Cpeval; apply C_eq; cbn; ring).
  cbn [fst snd RtoC]. rewrite Rabs_R0. destruct (Rleb_spec 0 0); [|lra]. cbn. eexists. reflexivity.
Qed.
Example C96_dka_float_case :
  let powr x y := if PrimFloat.eqb y 0.5 then PrimFloat.sqrt x else x in
  let cosr t := if PrimFloat.ltb t 2 then 0.7316888688738209%float else (-0.7316888688738209)%float in
  let sinr t := if PrimFloat.ltb t 2 then 0.6816387600233341%float else (-0.6816387600233341)%float in
  let z := (0%float, 0%float) in
  exists u v, zPexDKA 1e-12%float 1e-7%float 100 powr cosr sinr 6.283185307179586%float 1.5%float
    [(-1)%float; 0%float; 1%float] [z; z] 0%float 0 = Ok (Some ([u; v], false)) /\
    PrimFloat.ltb (PrimFloat.abs (fst u - 1)) 1e-7 = true /\ PrimFloat.ltb (PrimFloat.abs (fst v + 1)) 1e-7 = true.
Proof. do 2 eexists. split; [vm_compute; reflexivity|]. split; vm_compute; reflexivity. Qed.

Print Assumptions C96_answers.
Print Assumptions C96_factors_partial.
Print Assumptions C96_exact.
Print Assumptions C96_exact_roots.
Print Assumptions C96_singular_refuted.
Print Assumptions C96_limit_refuted.
Print Assumptions C96_dka_partial.
Print Assumptions C96_dka_steps.
Print Assumptions C96_dka_constant_refuted.
Print Assumptions C96_dka_refuted.
