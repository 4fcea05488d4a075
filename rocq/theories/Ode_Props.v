(** C49 (quadratures), C50 (one-step solvers), C51 (second-order solvers), C77 (multistep solvers),
    C78 (step-size control), C79 (implicit solvers). *)
From Coq Require Import Reals Lra Lia Psatz QArith Floats.
From Coquelicot Require Import Coquelicot.
From Verif Require Import Prelude Prelude_Proofs Scalar RealLib Fmat Fmat_Proofs Pex_Spec Pex_Proofs
  Ode_Model Ode_Spec Ode_Proofs Ode2_Proofs Ode3_Proofs Ode4_Proofs Ode5_Proofs Ode6_Proofs Ode7_Proofs.
Local Open Scope R_scope.

(** ** C49: quadratures, for every sequence of samples and steps *)
Theorem C49_rectangular s0 x0 l t : ig_s (run zIntgRect (zIntgInit s0 x0) l) = s0 + stepI t x0 l.
Proof. rewrite (rect_ok _ _ t). reflexivity. Qed.
Theorem C49_trapezoidal s0 x0 l t : Forall (fun xh => snd xh <> 0) l ->
  ig_s (run zIntgTR (zIntgInit s0 x0) l) = s0 + lineI t x0 l.
Proof. intros F. rewrite (tr_ok _ _ t F). reflexivity. Qed.
Theorem C49_trapezoidal_affine a b s0 hs t : Forall (fun h => h <> 0) hs ->
  ig_s (run zIntgTR (zIntgInit s0 (a + b * t)) (sample (fun u => a + b * u) t hs)) =
  s0 + RInt (fun u => a + b * u) t (t + hsum hs).
Proof.
  intros F. rewrite (C49_trapezoidal _ _ _ t) by (apply (sample_Forall (fun h => h <> 0)); exact F).
  rewrite lineI_affine by auto. reflexivity.
Qed.
(** The first step of the quadratic rule has two samples only and is a trapezoid. *)
Theorem C49_quadratic s0 x0 x1 h1 l t : 0 < h1 -> Forall (fun xh => 0 < snd xh) l ->
  ig_s (run zIntgQuad (zIntgInit s0 x0) ((x1, h1) :: l)) =
  s0 + RInt (line t x0 (t + h1) x1) t (t + h1) + parabI t x0 (t + h1) x1 l.
Proof. apply quad_ok. Qed.
Theorem C49_quadratic_poly a b c s0 t h1 hs : 0 < h1 -> Forall (fun h => 0 < h) hs ->
  let F := fun u => a + b * u + c * u ^ 2 in
  ig_s (run zIntgQuad (zIntgInit s0 (F t)) (sample F t (h1 :: hs))) =
  s0 + RInt F t (t + hsum (h1 :: hs)) + c * h1 ^ 3 / 6.
Proof. apply quad_poly. Qed.
Theorem C49_quadratic_refuted : exists F hs,
  (forall u, F u = u ^ 2) /\ Forall (fun h => 0 < h) hs /\
  ig_s (run zIntgQuad (zIntgInit 0 (F 0)) (sample F 0 hs)) <> RInt F 0 (hsum hs).
Proof.
  exists (fun u => 0 + 0 * u + 1 * u ^ 2), [1; 1]. split; [intros; ring|]. split; [repeat constructor; lra|].
  rewrite C49_quadratic_poly by (repeat constructor; lra).
  replace (0 + hsum [1; 1]) with (hsum [1; 1]) by ring. lra.
Qed.

(** ** C50: explicit one-step methods *)
Theorem C50_methods n f t x dt : ext_rhs n f ->
  rk_step n f tabEuler t x dt (zODEUpdateEuler f dcat t x dt) /\
  rk_step n f tabHeun3 t x dt (zODEUpdateHeun f dcat t x dt) /\
  rk_step n f tabRK4 t x dt (zODEUpdateRK4 f dcat t x dt) /\
  rk_step n f tabGill t x dt (zODEUpdateRKG f dcat dcat dmul t x dt).
Proof. intros E. auto using euler_rk, heun_rk, rk4_rk, rkg_rk. Qed.

Lemma gill_order4 : order4 tabGill.
Proof.
  pose proof sqrt2_sq as Q. unfold tabGill. cbv zeta. set (s := R_sqrt.sqrt 2) in *.
  unfold order4, order3, order2, order1, bdot, am. unr. cbn [pow].
  repeat split; try (field [Q]).
Qed.
Lemma gill_explicit : explicit tabGill.
Proof.
  intros i j Hi Hij Hj. unfold tabGill in *. cbn [stages tab_of length] in *. cbn [ta tab_of].
  destruct i as [|[|[|[|i]]]]; try lia; destruct j as [|[|[|[|j]]]]; try lia; reflexivity.
Qed.
Lemma gill_rows : row_sums tabGill.
Proof.
  pose proof sqrt2_sq as Q. unfold tabGill. cbv zeta. set (s := R_sqrt.sqrt 2) in *.
  intros i Hi. cbn [stages tab_of length] in Hi. unfold am.
  destruct i as [|[|[|[|i]]]]; try lia; unr; field.
Qed.
(** Butcher's order conditions *)
Theorem C50_orders :
  (order1 tabEuler /\ row_sums tabEuler) /\ (order3 tabHeun3 /\ row_sums tabHeun3) /\
  (order4 tabRK4 /\ row_sums tabRK4) /\ (order4 tabGill /\ row_sums tabGill) /\
  (order5 tabRKF5 /\ row_sums tabRKF5) /\ (order4 tabRKF4) /\
  (order5 tabCK5 /\ row_sums tabCK5) /\ (order4 tabCK4) /\
  (order5 tabDP5 /\ row_sums tabDP5) /\ (order4 tabDP4).
Proof.
  rewrite tabEuler_Q, tabHeun3_Q, tabRK4_Q, tabRKF5_Q, tabRKF4_Q, tabCK5_Q, tabCK4_Q, tabDP5_Q, tabDP4_Q.
  repeat split; try exact gill_rows; try apply row_sums_Q; try (vm_compute; reflexivity).
  all: first [apply order1_Q; vm_compute; reflexivity | idtac].
  all: match goal with |- order1 (ofQ ?m) => apply order1_Q; vm_compute; reflexivity
       | |- _ => idtac end.
  all: try (apply gill_order4).
  all: match goal with |- bdot (ofQ ?m) _ = _ =>
     first [apply (proj2 (order2_Q m eq_refl))
           |apply (proj1 (proj2 (order3_Q m eq_refl)))|apply (proj2 (proj2 (order3_Q m eq_refl)))
           |apply (order4_Q m eq_refl)|apply (order5_Q m eq_refl)] end.
Qed.

Lemma poly_ext n p : ext_rhs n (poly_rhs n p). Proof. intros t x y _ i Hi. reflexivity. Qed.
Lemma lin_ext n A : ext_rhs n (lin_rhs n A).
Proof. intros t x y E i Hi. cbn. apply rsum_ext. intros j Hj. rewrite E by auto. reflexivity. Qed.
(** x' = p( t ): exact for polynomials of degree less than the order *)
Theorem C50_polynomial n p t x dt i : (i < n)%nat ->
  let exact := vel x i + RInt (peval (p i)) t (t + dt) in
  ((forall j, (j < n)%nat -> (length (p j) <= 1)%nat) -> vel (zODEUpdateEuler (poly_rhs n p) dcat t x dt) i = exact) /\
  ((forall j, (j < n)%nat -> (length (p j) <= 3)%nat) -> vel (zODEUpdateHeun (poly_rhs n p) dcat t x dt) i = exact) /\
  ((forall j, (j < n)%nat -> (length (p j) <= 4)%nat) -> vel (zODEUpdateRK4 (poly_rhs n p) dcat t x dt) i = exact) /\
  ((forall j, (j < n)%nat -> (length (p j) <= 4)%nat) -> vel (zODEUpdateRKG (poly_rhs n p) dcat dcat dmul t x dt) i = exact).
Proof.
  intros Hi exact. destruct C50_orders as ((O1 & _) & (O2 & _) & (O3 & _) & (O4 & _) & _).
  destruct (C50_methods n (poly_rhs n p) t x dt (poly_ext n p)) as (M1 & M2 & M3 & M4).
  repeat split; intros L.
  - apply (rk_poly n tabEuler 1 p t x dt _ (order_quad _ 1 O1) L M1 i Hi).
  - apply (rk_poly n tabHeun3 3 p t x dt _ (order_quad _ 3 O2) L M2 i Hi).
  - apply (rk_poly n tabRK4 4 p t x dt _ (order_quad _ 4 O3) L M3 i Hi).
  - apply (rk_poly n tabGill 4 p t x dt _ (order_quad _ 4 O4) L M4 i Hi).
Qed.
(** x' = A x: the Taylor polynomial of the order of the method *)
Definition taylor n A (p : nat) dt (x : fvec R) i : R := rsum (S p) (fun k => dt ^ k / INR (fact k) * apow n A k (vel x) i).
Lemma taylor_of n A m p t x dt x' i : explicit m -> stages m = p ->
  (forall q, (q < p)%nat -> bdot m (amp m q) = 1 / INR (fact (S q))) ->
  rk_step n (lin_rhs n A) m t x dt x' -> (i < n)%nat -> vel x' i = taylor n A p dt x i.
Proof.
  intros X S B M Hi. rewrite (rk_linear n A m t x dt x' X M i Hi). unfold taylor. rewrite rsum_S_l.
  rewrite S. replace (dt ^ 0 / INR (fact 0) * apow n A 0 (vel x) i) with (vel x i) by (cbn; field). f_equal. apply rsum_ext. intros q Hq. rewrite B by auto.
  unfold Rdiv. ring.
Qed.
Theorem C50_linear n A t x dt i : (i < n)%nat ->
  vel (zODEUpdateEuler (lin_rhs n A) dcat t x dt) i = taylor n A 1 dt x i /\
  vel (zODEUpdateHeun (lin_rhs n A) dcat t x dt) i = taylor n A 3 dt x i /\
  vel (zODEUpdateRK4 (lin_rhs n A) dcat t x dt) i = taylor n A 4 dt x i /\
  vel (zODEUpdateRKG (lin_rhs n A) dcat dcat dmul t x dt) i = taylor n A 4 dt x i.
Proof.
  intros Hi. destruct (C50_methods n (lin_rhs n A) t x dt (lin_ext n A)) as (M1 & M2 & M3 & M4).
  assert (AM : forall m q a b, (bdotQ m (ampQ m q) == a # b)%Q -> bdot (ofQ m) (amp (ofQ m) q) = IZR a / IZR (Zpos b)).
  { intros m q a b E. eapply bdot_rep; [apply amp_rep|exact E]. }
  split; [|split; [|split]].
  - rewrite tabEuler_Q in M1. eapply taylor_of; [| | |exact M1|auto]; [apply explicit_Q; reflexivity|reflexivity|].
    intros q Hq. destruct q; [|lia]. rewrite (AM qEuler 0%nat 1%Z 1%positive) by reflexivity. cbn. lra.
  - rewrite tabHeun3_Q in M2. eapply taylor_of; [| | |exact M2|auto]; [apply explicit_Q; reflexivity|reflexivity|].
    intros q Hq. destruct q as [|[|[|q]]]; [| | |lia].
    + rewrite (AM qHeun3 0%nat 1%Z 1%positive) by reflexivity. cbn. lra.
    + rewrite (AM qHeun3 1%nat 1%Z 2%positive) by reflexivity. cbn. lra.
    + rewrite (AM qHeun3 2%nat 1%Z 6%positive) by reflexivity. cbn. lra.
  - rewrite tabRK4_Q in M3. eapply taylor_of; [| | |exact M3|auto]; [apply explicit_Q; reflexivity|reflexivity|].
    intros q Hq. destruct q as [|[|[|[|q]]]]; [| | | |lia].
    + rewrite (AM qRK4 0%nat 1%Z 1%positive) by reflexivity. cbn. lra.
    + rewrite (AM qRK4 1%nat 1%Z 2%positive) by reflexivity. cbn. lra.
    + rewrite (AM qRK4 2%nat 1%Z 6%positive) by reflexivity. cbn. lra.
    + rewrite (AM qRK4 3%nat 1%Z 24%positive) by reflexivity. cbn. lra.
  - eapply taylor_of; [exact gill_explicit|reflexivity| |exact M4|auto].
    pose proof sqrt2_sq as Q. unfold tabGill. cbv zeta. set (s := R_sqrt.sqrt 2) in *.
    intros q Hq. destruct q as [|[|[|[|q]]]]; [| | | |lia]; cbn [amp]; unfold bdot, am; unr; cbn; field [Q].
Qed.

(** ** C78: embedded methods *)
Ltac d7 i := destruct i as [|[|[|[|[|[|[|i]]]]]]]; try lia.
Ltac hold := split; [reflexivity|split; [reflexivity|split; [cbn; lia|]]]; split; [|split; [|split]];
  [intros i j Hi Hj; cbn [stages tab_of length] in Hi; d7 i; d7 j; reflexivity
  |intros i j Hi Hij Hj; cbn [stages tab_of length] in Hi, Hj; d7 i; d7 j; reflexivity
  |reflexivity
  |intros i Hi; cbn [stages tab_of length] in Hi; d7 i; reflexivity].
Ltac holdb := split; [reflexivity|]; intros i Hi; cbn [stages tab_of length] in Hi; d7 i; reflexivity.
Lemma hold_rkf5 : holds tabRKF5 rkf_a rkf_c. Proof. unfold tabRKF5. hold. Qed.
Lemma hold_rkf4 : holds tabRKF4 rkf_a rkf_c. Proof. unfold tabRKF4. hold. Qed.
Lemma hold_ck5 : holds tabCK5 ck_a ck_c. Proof. unfold tabCK5. hold. Qed.
Lemma hold_ck4 : holds tabCK4 ck_a ck_c. Proof. unfold tabCK4. hold. Qed.
Lemma hold_dp5 : holds tabDP5 dp_a dp_c. Proof. unfold tabDP5. hold. Qed.
Lemma hold_dp4 : holds tabDP4 dp_a dp_c. Proof. unfold tabDP4. hold. Qed.
Lemma holdb_rkf5 : holdsb tabRKF5 rkf_b5. Proof. unfold tabRKF5. holdb. Qed.
Lemma holdb_rkf4 : holdsb tabRKF4 rkf_b4. Proof. unfold tabRKF4. holdb. Qed.
Lemma holdb_ck4 : holdsb tabCK4 ck_b5. Proof. unfold tabCK4. holdb. Qed.
Lemma holdb_ck5 : holdsb tabCK5 ck_b4. Proof. unfold tabCK5. holdb. Qed.
Lemma holdb_dp5 : holdsb tabDP5 dp_b5. Proof. unfold tabDP5. holdb. Qed.
Lemma holdb_dp4 : holdsb tabDP4 dp_b4. Proof. unfold tabDP4. holdb. Qed.

(** the outcome of an adaptive update: accepted steps that cover [t, t+dt] *)
Definition adaptive n f fine coarse fuel t x dt (r : res (fvec R)) : Prop :=
  exists x' l, r = Ok x' /\ vlen x' = n /\ chain n f fine coarse l x x' /\ covers t l (t + dt) /\
    Forall (fun uh => exists k, (k <= fuel)%nat /\ snd uh = dt / 2 ^ k) l.
(** Every update terminates: the recursion is at most log2( dt / 1e-8 ) deep.  The result comes from
    steps of the method with the higher-order weights, each of which differs from the one with the other weights
    by at most 1e-6 or is not longer than 1e-8. *)
Theorem C78_embedded n f fuel t x dt : ext_rhs n f -> vlen x = n -> dt <= 1 / 100000000 * 2 ^ fuel ->
  adaptive n f tabRKF5 tabRKF4 fuel t x dt (zODEUpdateRKF45 f dcat ddist (S fuel) t x dt) /\
  adaptive n f tabCK4 tabCK5 fuel t x dt (zODEUpdateCK45 f dcat ddist (S fuel) t x dt) /\
  adaptive n f tabDP5 tabDP4 fuel t x dt (zODEUpdateDP45 f dcat ddist (S fuel) t x dt).
Proof.
  intros E L D. split; [|split].
  - apply (erk_ok n f tabRKF5 tabRKF4 rkf_a rkf_c rkf_b5 rkf_b4 E hold_rkf5 hold_rkf4 holdb_rkf5 holdb_rkf4 eq_refl fuel t x dt L D).
  - apply (erk_ok n f tabCK4 tabCK5 ck_a ck_c ck_b5 ck_b4 E hold_ck4 hold_ck5 holdb_ck4 holdb_ck5 eq_refl fuel t x dt L D).
  - apply (erk_ok n f tabDP5 tabDP4 dp_a dp_c dp_b5 dp_b4 E hold_dp5 hold_dp4 holdb_dp5 holdb_dp4 eq_refl fuel t x dt L D).
Qed.
Lemma chain_poly n p q fi co l : (forall k, (k < q)%nat -> bdot fi (fun j => tc fi j ^ k) = 1 / INR (S k)) ->
  (forall j, (j < n)%nat -> (length (p j) <= q)%nat) ->
  forall x x', chain n (poly_rhs n p) fi co l x x' -> forall t t', covers t l t' ->
  forall i, (i < n)%nat -> vel x' i = vel x i + RInt (peval (p i)) t t'.
Proof.
  intros Q L x x' CH. induction CH as [x|u h x y l z M _ _ IH]; intros t t' CV i Hi.
  - cbn in CV. subst t'. rewrite RInt_point. cbn. symmetry. apply Rplus_0_r.
  - destruct CV as (-> & CV). rewrite (IH _ _ CV i Hi), (rk_poly n fi q p t x h y Q L M i Hi).
    rewrite <- (RInt_Chasles (V:=R_CompleteNormedModule) (peval (p i)) t (t + h) t').
    + change plus with Rplus. ring.
    + apply (ex_RInt_continuous (V:=R_CompleteNormedModule)). intros z' _. apply cont_peval.
    + apply (ex_RInt_continuous (V:=R_CompleteNormedModule)). intros z' _. apply cont_peval.
Qed.
Theorem C50_embedded_polynomial n p fuel t x dt i : (i < n)%nat -> vlen x = n -> dt <= 1 / 100000000 * 2 ^ fuel ->
  let exact := vel x i + RInt (peval (p i)) t (t + dt) in
  ((forall j, (j < n)%nat -> (length (p j) <= 5)%nat) ->
     exists x', zODEUpdateRKF45 (poly_rhs n p) dcat ddist (S fuel) t x dt = Ok x' /\ vel x' i = exact) /\
  ((forall j, (j < n)%nat -> (length (p j) <= 4)%nat) ->
     exists x', zODEUpdateCK45 (poly_rhs n p) dcat ddist (S fuel) t x dt = Ok x' /\ vel x' i = exact) /\
  ((forall j, (j < n)%nat -> (length (p j) <= 5)%nat) ->
     exists x', zODEUpdateDP45 (poly_rhs n p) dcat ddist (S fuel) t x dt = Ok x' /\ vel x' i = exact).
Proof.
  intros Hi Lx D exact.
  destruct C50_orders as (_ & _ & _ & _ & (O1 & _) & _ & _ & O2 & (O3 & _) & _).
  destruct (C78_embedded n (poly_rhs n p) fuel t x dt (poly_ext n p) Lx D)
    as ((x1 & l1 & E1 & _ & C1 & V1 & _) & (x2 & l2 & E2 & _ & C2 & V2 & _) & (x3 & l3 & E3 & _ & C3 & V3 & _)).
  repeat split; intros L.
  - exists x1. split; [exact E1|]. apply (chain_poly n p 5 tabRKF5 tabRKF4 l1 (order_quad _ 5 O1) L _ _ C1 _ _ V1 i Hi).
  - exists x2. split; [exact E2|]. apply (chain_poly n p 4 tabCK4 tabCK5 l2 (order_quad _ 4 O2) L _ _ C2 _ _ V2 i Hi).
  - exists x3. split; [exact E3|]. apply (chain_poly n p 5 tabDP5 tabDP4 l3 (order_quad _ 5 O3) L _ _ C3 _ _ V3 i Hi).
Qed.
(** x' = A x: one accepted step of the embedded methods is the Taylor polynomial of the order and
    a multiple of the next term *)
Theorem C50_embedded_linear n A t x dt x' i : (i < n)%nat ->
  (rk_step n (lin_rhs n A) tabRKF5 t x dt x' -> vel x' i = taylor n A 5 dt x i + dt ^ 6 / 2080 * apow n A 6 (vel x) i) /\
  (rk_step n (lin_rhs n A) tabDP5 t x dt x' -> vel x' i = taylor n A 5 dt x i + dt ^ 6 / 600 * apow n A 6 (vel x) i).
Proof.
  intros Hi.
  assert (AM : forall m q a b, (bdotQ m (ampQ m q) == a # b)%Q -> bdot (ofQ m) (amp (ofQ m) q) = IZR a / IZR (Zpos b)).
  { intros m q a b E. eapply bdot_rep; [apply amp_rep|exact E]. }
  assert (T : taylor n A 5 dt x i = vel x i + rsum 5 (fun i0 => dt ^ S i0 / INR (fact (S i0)) * apow n A (S i0) (vel x) i)).
  { unfold taylor. rewrite rsum_S_l. f_equal. cbn. field. }
  rewrite T. clear T.
  split; intros M.
  - rewrite tabRKF5_Q in M. rewrite (rk_linear n A _ t x dt x' (explicit_Q qRKF5 eq_refl) M i Hi).
    rewrite ofQ_stages. cbn [length qRKF5 qb]. 
    change (rsum 6 ?g) with (rsum 5 g + g 5%nat). cbv beta.
    rewrite (AM qRKF5 5%nat 1%Z 2080%positive) by reflexivity.
    rewrite (rsum_ext 5 _ (fun i0 => dt ^ S i0 / INR (fact (S i0)) * apow n A (S i0) (vel x) i)).
    + generalize (rsum 5 (fun i0 => dt ^ S i0 / INR (fact (S i0)) * apow n A (S i0) (vel x) i)). intros w.
      generalize (apow n A 6 (vel x) i). intros v. cbn [pow fact INR]. field.
    + intros q Hq. f_equal. unfold Rdiv. f_equal. destruct q as [|[|[|[|[|q]]]]]; [| | | | |lia].
      * rewrite (AM qRKF5 0%nat 1%Z 1%positive) by reflexivity. cbn. lra.
      * rewrite (AM qRKF5 1%nat 1%Z 2%positive) by reflexivity. cbn. lra.
      * rewrite (AM qRKF5 2%nat 1%Z 6%positive) by reflexivity. cbn. lra.
      * rewrite (AM qRKF5 3%nat 1%Z 24%positive) by reflexivity. cbn. lra.
      * rewrite (AM qRKF5 4%nat 1%Z 120%positive) by reflexivity. cbn. lra.
  - rewrite tabDP5_Q in M. rewrite (rk_linear n A _ t x dt x' (explicit_Q qDP5 eq_refl) M i Hi).
    rewrite ofQ_stages. cbn [length qDP5 qb]. 
    change (rsum 7 ?g) with (rsum 5 g + g 5%nat + g 6%nat). cbv beta.
    rewrite (AM qDP5 5%nat 1%Z 600%positive) by reflexivity. rewrite (AM qDP5 6%nat 0%Z 1%positive) by reflexivity.
    rewrite (rsum_ext 5 _ (fun i0 => dt ^ S i0 / INR (fact (S i0)) * apow n A (S i0) (vel x) i)).
    + generalize (rsum 5 (fun i0 => dt ^ S i0 / INR (fact (S i0)) * apow n A (S i0) (vel x) i)). intros w.
      generalize (apow n A 6 (vel x) i) (apow n A 7 (vel x) i). intros v v'. cbn [pow fact INR]. field.
    + intros q Hq. f_equal. unfold Rdiv. f_equal. destruct q as [|[|[|[|[|q]]]]]; [| | | | |lia].
      * rewrite (AM qDP5 0%nat 1%Z 1%positive) by reflexivity. cbn. lra.
      * rewrite (AM qDP5 1%nat 1%Z 2%positive) by reflexivity. cbn. lra.
      * rewrite (AM qDP5 2%nat 1%Z 6%positive) by reflexivity. cbn. lra.
      * rewrite (AM qDP5 3%nat 1%Z 24%positive) by reflexivity. cbn. lra.
      * rewrite (AM qDP5 4%nat 1%Z 120%positive) by reflexivity. cbn. lra.
Qed.
(** zODEUpdateCK45 takes the fourth-order weights for the fifth-order ones: a polynomial of degree
    four is not integrated exactly. *)
Theorem C50_cash_karp_refuted : exists x', let dt := 1 / 100000000 in
  zODEUpdateCK45 (poly_rhs 1 (fun _ => [0;0;0;0;1])) dcat ddist 1 0 (dzero 1) dt = Ok x' /\
  vel x' 0%nat <> RInt (peval [0;0;0;0;1]) 0 dt.
Proof.
  set (dt := 1 / 100000000). set (p := fun _ : nat => [0;0;0;0;1]).
  destruct (C78_embedded 1 (poly_rhs 1 p) 0 0 (dzero 1) dt (poly_ext 1 p) eq_refl ltac:(unfold dt; cbn; lra)) as (_ & (x' & l & E & _ & CH & CV & F) & _).
  exists x'. split; [exact E|]. 
  rewrite (RInt_ext _ (fun u => u ^ 4)) by (intros; unfold peval; cbn; ring).
  assert (EX : RInt (fun u => u ^ 4) 0 dt = dt ^ 5 / 5).
  { rewrite (RInt_prim _ (fun u => u ^ 5 / 5)).
    - cbn. field.
    - intros u. auto_derive; auto. field.
    - intros u. apply (ex_derive_continuous (fun u => u ^ 4)). auto_derive; auto. }
  rewrite EX.
  assert (V : vel x' 0%nat = dt * (dt ^ 4 * bdot tabCK4 (fun j => tc tabCK4 j ^ 4))).
  { inversion CH as [|u h x y l' z M A CH2]; subst.
    - cbn in CV. unfold dt in CV. lra.
    - destruct CV as (-> & CV). inversion F as [|? ? (k & Hk & Eh) F']; subst. cbn [snd] in Eh.
      replace k with 0%nat in Eh by lia. cbn in Eh. assert (h = dt) by (rewrite Eh; field). subst h.
      assert (x' = y).
      { inversion CH2 as [|u2 h2 ? ? ? ? ? ? ? E1 E2]; subst; auto. exfalso. destruct CV as (_ & CV).
        assert (G : forall l t t', Forall (fun uh : R * R => exists k, (k <= 0)%nat /\ snd uh = dt / 2 ^ k) l -> covers t l t' -> t <= t').
        { clear. induction l as [|[u h] l IH]; cbn; intros t t' F C; [lra|]. destruct C as (-> & C). inversion F as [|? ? (k & Hk & Eh) F']; subst.
          specialize (IH _ _ F' C). cbn in Eh. replace k with 0%nat in Eh by lia. cbn in Eh. unfold dt in Eh. lra. }
        inversion F' as [|? ? (k2 & Hk2 & Eh2) F'']; subst. specialize (G _ _ _ F'' CV). cbn in Eh2.
        replace k2 with 0%nat in Eh2 by lia. cbn in Eh2. unfold dt in *. lra. }
      subst y. destruct M as (kk & HK & HX). rewrite HX by lia.
      rewrite (rsum_ext _ _ (fun j => dt ^ 4 * (tb tabCK4 j * tc tabCK4 j ^ 4))).
      + rewrite rsum_scal. unfold bdot. cbn [dzero vel]. rs. field.
      + intros j Hj. rewrite (HK j Hj 0%nat) by lia. cbn [poly_rhs vel p]. unfold peval, p. cbn [length rsum coef nth]. unfold coef. cbn [nth]. field. }
  rewrite V. rewrite tabCK4_Q.
  rewrite (bdot_rep qCK4 _ _ 82197 409600 (rep_pow _ _ _ 4 (rep_c qCK4))) by (vm_compute; reflexivity).
  unfold dt. lra.
Qed.

(** ** C78: deferred correction *)
Theorem C78_deferred_correction upd fuel t x dt x' : zODEUpdateDC dsub dmul ddist upd fuel t x dt = Ok x' ->
  exists l, dc_chain upd l x x' /\ covers t l (t + dt) /\ Forall (fun uh => exists k, (k < fuel)%nat /\ snd uh = dt / 2 ^ k) l.
Proof. apply dc_ok. Qed.
(** an accepted step of deferred correction upon Euler's method is a step of the midpoint method,
    which has order two *)
Theorem C78_deferred_euler n f t x h y : ext_rhs n f ->
  (forall i, vel y i = 2 * vel (dc_half (zODEUpdateEuler f dcat) t x h) i - vel (dc_full (zODEUpdateEuler f dcat) t x h) i) ->
  rk_step n f tabMid t x h y /\ order2 tabMid.
Proof.
  intros E H. split; [apply (dc_euler n f t x h y E H)|].
  unfold tabMid, order2, order1, bdot. unr. split; field.
Qed.
(** The extrapolation 2 x2 - x1 is that of a method of order one.  Upon the fourth-order method its error is
    fourteen times the error of the two half steps it starts from. *)
Theorem C78_deferred_rk4_refuted h : h <> 0 ->
  let upd := zODEUpdateRK4 (poly_rhs 1 (fun _ => [0;0;0;0;1])) dcat in
  let exact := RInt (peval [0;0;0;0;1]) 0 h in
  let x2 := dc_half upd 0 (dzero 1) h in let x1 := dc_full upd 0 (dzero 1) h in
  let y := dsub (dmul x2 2) x1 in
  vel x2 0%nat - exact <> 0 /\ vel y 0%nat - exact = -14 * (vel x2 0%nat - exact).
Proof.
  intros H upd exact x2 x1 y.
  assert (EX : exact = h ^ 5 / 5).
  { unfold exact. rewrite (RInt_ext _ (fun u => u ^ 4)) by (intros; unfold peval; cbn; ring).
    rewrite (RInt_prim _ (fun u => u ^ 5 / 5)).
    - req. cbn. field.
    - intros u. auto_derive; auto. field.
    - intros u. apply (ex_derive_continuous (fun u => u ^ 4)). auto_derive; auto. }
  assert (P : forall u, peval [0;0;0;0;1] u = u ^ 4) by (intros; unfold peval, coef; cbn [length rsum nth]; ring).
  assert (U : forall t x d, vel (upd t x d) 0%nat = vel x 0%nat + d * (t ^ 4 + 4 * (t + d / 2) ^ 4 + (t + d) ^ 4) / 6).
  { intros t x d. unfold upd, zODEUpdateRK4. cbv zeta. cbn [dcat poly_rhs vel]. rs. rewrite !P. field. }
  assert (E2 : vel x2 0%nat = h ^ 5 * (1 / 5 + 1 / 1920)).
  { unfold x2, dc_half. rewrite !U. cbn [dzero vel]. rs. field. }
  assert (E1 : vel x1 0%nat = h ^ 5 * (1 / 5 + 1 / 120)).
  { unfold x1, dc_full. rewrite !U. cbn [dzero vel]. rs. field. }
  unfold y. cbn [dsub dmul vel]. rewrite E1, E2, EX. rs. split; [|field].
  replace (h ^ 5 * (1 / 5 + 1 / 1920) - h ^ 5 / 5) with (h ^ 5 * (1 / 1920)) by field.
  apply Rmult_integral_contrapositive. split; [apply pow_nonzero; auto|lra].
Qed.

(** ** C79: implicit methods.  The answer is a step of the method whenever the nonlinear solver finds a zero of a
    residual function whose zeros are the steps (for the methods with two stages: the stage derivatives). *)
Theorem C79_implicit n f solve solve2 t x dt : ext_rhs n f ->
  (solver_finds n (rk_step n f tabBEuler t x dt) solve -> (exists y, rk_step n f tabBEuler t x dt y) ->
   rk_step n f tabBEuler t x dt (zODEUpdateBEuler f dcat dsub solve t x dt)) /\
  (solver_finds n (rk_step n f tabTR t x dt) solve -> (exists y, rk_step n f tabTR t x dt y) ->
   rk_step n f tabTR t x dt (zODEUpdateTR f dcat dsub solve t x dt)) /\
  (solver2_finds n (rk_stages2 n f tabGauss t x dt) solve2 -> (exists k, rk_stages2 n f tabGauss t x dt k) ->
   rk_step n f tabGauss t x dt (zODEUpdateGauss f dcat dsub solve2 (dzero n) t x dt)) /\
  (solver2_finds n (rk_stages2 n f tabRadau t x dt) solve2 -> (exists k, rk_stages2 n f tabRadau t x dt k) ->
   rk_step n f tabRadau t x dt (zODEUpdateRadau f dcat dsub solve2 (dzero n) t x dt)).
Proof. intros E. split; [|split; [|split]]; intros; [apply beuler_ex|apply tr_ex|apply gauss_ex|apply radau_ex]; auto. Qed.
Theorem C79_orders :
  (order1 tabBEuler /\ row_sums tabBEuler) /\ (order2 tabTR /\ row_sums tabTR) /\
  (order4 tabGauss /\ row_sums tabGauss) /\ (order3 tabRadau /\ row_sums tabRadau).
Proof.
  split; [|split; [|split]].
  - rewrite tabBEuler_Q. split; [apply order1_Q|apply row_sums_Q]; reflexivity.
  - rewrite tabTR_Q. split; [apply order2_Q|apply row_sums_Q]; reflexivity.
  - assert (Q : R_sqrt.sqrt 3 / 6 * (R_sqrt.sqrt 3 / 6) = 1 / 12).
    { replace (R_sqrt.sqrt 3 / 6 * (R_sqrt.sqrt 3 / 6)) with (R_sqrt.sqrt 3 * R_sqrt.sqrt 3 / 36) by field. rewrite sqrt_sqrt; lra. }
    unfold tabGauss. cbv zeta. set (s := R_sqrt.sqrt 3 / 6) in *. clearbody s.
    split.
    + unfold order4, order3, order2, order1, bdot, am. unr. cbn [pow].
      assert (Q3 : 12 * (s * s) = 1) by lra.
      repeat split; try (field [Q]); nra.
    + intros i Hi. cbn [stages tab_of length] in Hi. unfold am. destruct i as [|[|i]]; try lia; unr; field.
  - rewrite tabRadau_Q. split; [apply order3_Q|apply row_sums_Q]; reflexivity.
Qed.
(** the comment in the code calls Radau's method a fourth-order one *)
Theorem C79_radau_order4_refuted : ~ order4 tabRadau.
Proof.
  intros (_ & H & _). unfold tabRadau, bdot in H. cbn [rsum tab_of stages tb tc length nth pow] in H. lra.
Qed.
Lemma gauss_poly_exact n p t x dt x' i : (forall j, (j < n)%nat -> (length (p j) <= 4)%nat) -> (i < n)%nat ->
  rk_step n (poly_rhs n p) tabGauss t x dt x' -> vel x' i = vel x i + RInt (peval (p i)) t (t + dt).
Proof. intros L Hi M. destruct C79_orders as (_ & _ & (O & _) & _). apply (rk_poly n tabGauss 4 p t x dt _ (order_quad _ 4 O) L M i Hi). Qed.

(** ** C77: multistep methods *)
(** Adams-Bashforth-Moulton: if the history holds the derivatives at the preceding times,
    the update is exact for x' = p( t ), deg p < step, and the history stays so. *)
Theorem C77_adams n step p tol iter h t x x2 dt : (1 <= step)%nat -> (1 <= iter)%nat -> 0 <= tol ->
  (forall i, (i < n)%nat -> (length (p i) <= step)%nat) -> vlen x = n -> adams_hist n step p h t dt ->
  exists wb wm h' x',
    _zODESetWeightAdams step 1 = Ok wb /\ _zODESetWeightAdams step 0 = Ok wm /\
    zODEUpdateAdams (poly_rhs n p) dcat dcat ddist (dzero n) tol iter wb wm h x2 t x dt = Ok (h', x') /\
    vlen x' = n /\ adams_hist n step p h' (t + dt) dt /\
    forall i, (i < n)%nat -> vel x' i = vel x i + RInt (peval (p i)) t (t + dt).
Proof. intros. apply adams_step; auto. Qed.
(** For every differential equation: from the predicted vector z_0 each z_(k+1) is the correction of z_k with the
    remembered derivatives; the answer is the first one within the tolerance of its predecessor, or z_(iter-1). *)
Theorem C77_adams_correction n f tol iter (wb wm : fvec R) h x2 t x dt :
  (1 <= length h)%nat -> vlen wb = length h -> vlen wm = length h -> vlen x = n -> (1 <= iter)%nat ->
  exists (h' : list (fvec R)) (x' : fvec R) (z : nat -> fvec R),
    zODEUpdateAdams f dcat dcat ddist (dzero n) tol iter wb wm h x2 t x dt = Ok (h', x') /\
    (forall k, vlen (z k) = n) /\
    (forall i, vel (z O) i = vel x i + dt * rsum (length h) (fun j => vel wb j * vel (nth j (f t x :: h) dv) i)) /\
    (forall k i, vel (z (S k)) i =
       vel x i + dt * rsum (length h) (fun j => vel wm j * vel (nth j (f (t + dt) (z k) :: f t x :: h) dv) i)) /\
    let d k := R_sqrt.sqrt (rsum n (fun i => (vel (z k) i - vel (z (S k)) i) ^ 2)) in
    ((exists k, (k < iter)%nat /\ x' = z (S k) /\ d k <= tol /\ forall l, (l < k)%nat -> tol < d l) \/
     ((forall l, (l < iter)%nat -> tol < d l) /\ x' = z (iter - 1)%nat)).
Proof.
  intros H1 H2 H3 H4 H5.
  destruct (adams_correction n f tol iter wb wm h x2 t x dt H1 H2 H3 H4 H5) as (h' & x' & z & E & L & Z0 & ZS & H).
  exists h', x', z. do 4 (split; [assumption|]). cbv zeta.
  assert (D : forall k, R_sqrt.sqrt (rsum n (fun i => (vel (z k) i - vel (z (S k)) i) ^ 2)) = ddist (z k) (z (S k))).
  { intros k. unfold ddist. rewrite (dsum_R _ (fun i => (vel (z k) i - vel (z (S k)) i) * (vel (z k) i - vel (z (S k)) i))), L. apply (f_equal R_sqrt.sqrt). apply rsum_ext. intros; rs; ring. }
  destruct H as [(k & K1 & K2 & K3 & K4)|(K1 & K2)]; [left; exists k|right].
  - rewrite D. repeat split; auto. intros l Hl. rewrite D. auto.
  - split; auto. intros l Hl. rewrite D. auto.
Qed.
(** A new solver has a history of zeros: the first step for x' = 1 with three steps is 13/12 dt. *)
Theorem C77_adams_start_refuted :
  (match _zODESetWeightAdams 3 1, _zODESetWeightAdams 3 0 with
   | Ok wb, Ok wm =>
       match zODEUpdateAdams (fun _ _ => vec_of 0 [1]) dcat dcat ddist (dzero 1) 0 5 wb wm (repeat (dzero 1) 3) (dzero 1) 0 (dzero 1) 1 with
       | Ok (_, x) => (PrimFloat.abs (vel x 0%nat - 13 / 12) <=? 1 / 1000)
       | UB => false
       end
   | _, _ => false
   end)%float = true.
Proof. vm_compute. reflexivity. Qed.
(** Gear: if the history holds the values at the preceding times and the nonlinear solver has found
    a zero, the update is exact for solutions that are polynomials of degree at most [step], and the history stays so. *)
Theorem C77_gear n step p q (solver : (fvec R -> res (fvec R)) -> fvec R -> fvec R) (g : gear R (fvec R)) t x dt : (1 <= step <= 6)%nat ->
  (forall i, (i < n)%nat -> (length (q i) <= S step)%nat) ->
  (forall i, (i < n)%nat -> forall u, Derive (peval (q i)) u = peval (p i) u) ->
  (exists z, zODECreateGear (dzero n) step = Ok z /\ gr_a g = gr_a z /\ gr_b g = gr_b z) ->
  gear_hist n step q (gr_hist g) t dt ->
  (forall i, (i < n)%nat -> vel x i = peval (q i) t) ->
  let r := _zODE_Gear_Func (poly_rhs n p) dcat (Gear (gr_a g) (gr_b g) (x :: tl (gr_hist g))) t dt in
  let x' := solver r x in
  (exists z, r x' = Ok z /\ vzero n z) ->
  exists g', zODEUpdateGear (poly_rhs n p) dcat solver g t x dt = Ok (g', x') /\
    gr_a g' = gr_a g /\ gr_b g' = gr_b g /\ gear_hist n step q (gr_hist g') (t + dt) dt /\
    forall i, (i < n)%nat -> vel x' i = peval (q i) (t + dt).
Proof.
  intros Hs Hq Hpq (z & Ez & Ea & Eb). apply gear_step; auto.
  - rewrite Ea. destruct step as [|[|[|[|[|[|[|s]]]]]]]; try lia; injection Ez as <-; reflexivity.
  - rewrite Eb. destruct step as [|[|[|[|[|[|[|s]]]]]]]; try lia; injection Ez as <-; reflexivity.
Qed.
(** zODEInitHistoryGear fills the history with the initial value: two steps, x' = 1 from 0 give 2/3 dt *)
Theorem C77_gear_start_refuted (solver : (fvec R -> res (fvec R)) -> fvec R -> fvec R) g0 :
  zODECreateGear (dzero 1) 2 = Ok g0 ->
  let g := zODEInitHistoryGear g0 (dzero 1) in
  let r := _zODE_Gear_Func (poly_rhs 1 (fun _ => [1])) dcat (Gear (gr_a g) (gr_b g) (dzero 1 :: tl (gr_hist g))) 0 1 in
  (exists z, r (solver r (dzero 1)) = Ok z /\ vzero 1 z) ->
  exists g' x', zODEUpdateGear (poly_rhs 1 (fun _ => [1])) dcat solver g 0 (dzero 1) 1 = Ok (g', x') /\ vel x' 0%nat = 2 / 3.
Proof.
  intros [= <-] g r (z & E & Z). eexists _, _. split; [reflexivity|]. fold r.
  change (vel (solver r (dzero 1)) 0%nat = 2 / 3).
  set (x' := solver r (dzero 1)) in *. injection E as <-. specialize (Z 0%nat ltac:(lia)). cbn in Z. lra.
Qed.

(** ** C51: second-order equations *)
(** constant acceleration: [k] symplectic updates, and [k] leapfrog updates from the half-step velocity [w] *)
Theorem C51_constant_acceleration n a k t x v w dt :
  (let '(x', v') := sympl_run (accel n (fun _ => a)) k t (x, v) dt in
   forall i, vel v' i = vel v i + INR k * dt * a i /\
             vel x' i = vel x i + vel v i * (INR k * dt) + a i * (INR k * dt) ^ 2 / 2 + a i * dt * (INR k * dt) / 2) /\
  (let '(w', (x', v')) := leap_run (accel n (fun _ => a)) (S k) w t (x, v) dt in
   (forall i, vel w i = vel v i - dt / 2 * a i) ->
   forall i, vel v' i = vel v i + INR (S k) * dt * a i /\
             vel x' i = vel x i + vel v i * (INR (S k) * dt) + a i * (INR (S k) * dt) ^ 2 / 2).
Proof.
  split.
  - pose proof (sympl_const n a k t x v dt) as H. destruct (sympl_run _ _ _ _ _) as [x' v']. intros i.
    destruct (H i) as (-> & ->). split; [reflexivity|field].
  - pose proof (leap_const n a k t w x v dt) as H. destruct (leap_run _ _ _ _ _ _) as [w' [x' v']]. intros W i.
    destruct (H i) as (_ & -> & ->). rewrite W. split; field.
Qed.
(** zODE2InitHistoryLeapfrog makes the initial velocity the half-step velocity: neither the velocity nor the position is exact *)
Theorem C51_leapfrog_start_refuted n a k t x v dt i :
  let '(_, (x', v')) := leap_run (accel n (fun _ => a)) (S k) (zODE2InitHistoryLeapfrog x v dt) t (x, v) dt in
  a i <> 0 -> dt <> 0 ->
  vel v' i <> vel v i + INR (S k) * dt * a i /\
  vel x' i <> vel x i + vel v i * (INR (S k) * dt) + a i * (INR (S k) * dt) ^ 2 / 2.
Proof.
  pose proof (leap_const n a k t (zODE2InitHistoryLeapfrog x v dt) x v dt) as H. destruct (leap_run _ _ _ _ _ _) as [w' [x' v']]. intros A D.
  destruct (H i) as (_ & -> & ->). unfold zODE2InitHistoryLeapfrog.
  assert (X : dt * a i <> 0) by (apply Rmult_integral_contrapositive; auto).
  assert (Y : INR (S k) * dt * (dt * a i) <> 0).
  { apply Rmult_integral_contrapositive. split; auto. apply Rmult_integral_contrapositive. split; auto. apply not_0_INR. lia. }
  split; intros E; [apply X|apply Y].
  - lra.
  - field_simplify in E. field_simplify. lra.
Qed.
(** For an acceleration that depends on the position only and has a symmetric derivative the update preserves
    the symplectic form of any two tangent vectors (for one dimension: the area). *)
Theorem C51_symplectic n (f : fvec R -> nat -> R) (H : nat -> nat -> R) t (x v : fvec R) dt :
  (forall xi i, (i < n)%nat -> is_derive (fun s => f (shiftv x s xi) i) 0 (rsum n (fun j => H i j * xi j))) ->
  (forall i j, H i j = H j i) ->
  exists D : (nat -> R) -> (nat -> R) -> (nat -> R) * (nat -> R),
    (forall xi eta i, (i < n)%nat ->
       is_derive (fun s => vel (fst (zODE2UpdateSymplectic (accel n f) dcat dcat t (shiftv x s xi) (shiftv v s eta) dt)) i) 0 (fst (D xi eta) i) /\
       is_derive (fun s => vel (snd (zODE2UpdateSymplectic (accel n f) dcat dcat t (shiftv x s xi) (shiftv v s eta) dt)) i) 0 (snd (D xi eta) i)) /\
    forall x1 v1 x2 v2, omega n (fst (D x1 v1)) (snd (D x1 v1)) (fst (D x2 v2)) (snd (D x2 v2)) = omega n x1 v1 x2 v2.
Proof. apply sympl_form. Qed.
(** the half-step velocity and the position of the leapfrog method follow the same map *)
Theorem C51_leapfrog_is_symplectic n f w t x v dt :
  let '(w', x', v') := zODE2UpdateLeapfrog (accel n f) dcat dcat w t x v dt in
  (x', w') = zODE2UpdateSymplectic (accel n f) dcat dcat t x w dt /\ v' = dcat w' (1 / 2 * dt) (FV n (f x')).
Proof. apply leap_sympl. Qed.
(** Time reversal: from the last state, taken back by one position update and with the velocity reversed, the same number
    of updates leads to the first state, taken back and reversed in the same way. *)
Theorem C51_reversible n (f : fvec R -> nat -> R) dt k t t' z :
  (forall x y, veq n x y -> forall i, (i < n)%nat -> f x i = f y i) ->
  let back z := (dcat (fst z) (- dt) (snd z), dmul (snd z) (-1)) in
  let r := sympl_run (accel n f) k t' (back (sympl_run (accel n f) k t z dt)) dt in
  veq n (fst r) (fst (back z)) /\ veq n (snd r) (snd (back z)).
Proof. intros Hf. exact (run_rev n f dt Hf k t t' z). Qed.
(** solvers made of a first-order solver make a step of its method upon the system of positions and velocities *)
Theorem C51_regular n (f : R -> fvec R -> fvec R -> fvec R) t x v dt :
  (forall t x v, vlen (f t x v) = n) ->
  (forall t x v x' v', veq n x x' -> veq n v v' -> veq n (f t x v) (f t x' v')) ->
  vlen x = n -> vlen v = n ->
  let F := _zODE2RegularFunc f in
  let cat := _zODE2Cat dcat dcat in
  (forall t y i, vlen y = (n + n)%nat -> (i < n)%nat ->
     vel (F t y) i = vel y (n + i)%nat /\ vel (F t y) (n + i)%nat = vel (f t (lo y) (hi y)) i) /\
  forall m upd, In (m, upd) [(tabEuler, zODEUpdateEuler F cat); (tabHeun3, zODEUpdateHeun F cat); (tabRK4, zODEUpdateRK4 F cat); (tabGill, zODEUpdateRKG F cat dcat dmul)] ->
  let '(x', v') := zODE2UpdateRegular upd t x v dt in
  vlen x' = n /\ vlen v' = n /\
  rk_step (n + n) F m t (join x v) dt (join x' v').
Proof.
  intros Lf Ef Lx Lv F cat. split.
  - intros t0 y i L Hi. unfold F, _zODE2RegularFunc. cbn [join hi lo vlen vel]. rewrite L, div2.
    destruct (Nat.ltb_spec i n); [|lia]. destruct (Nat.ltb_spec (n + i) n); [lia|]. split; f_equal; lia.
  - intros m upd Hin.
    assert (LJ : vlen (join x v) = (n + n)%nat) by (cbn; lia).
    set (F' := fun t (y : fvec R) => F t (FV (n + n) (vel y))).
    assert (EF : ext_rhs (n + n) F').
    { intros t0 y1 y2 E i Hi. unfold F', F, _zODE2RegularFunc. cbn [join hi lo vlen vel]. rewrite div2.
      destruct (Nat.ltb_spec i n).
      - apply E. lia.
      - apply Ef; [| |lia]; intros j Hj; cbn [lo hi vlen vel]; rewrite ?div2; apply E; lia. }
    assert (FF : forall t (y : fvec R), vlen y = (n + n)%nat -> F t y = F' t y).
    { intros t0 [k g] L. cbn in L. subst k. reflexivity. }
    assert (LF' : forall t y, vlen (F' t y) = (n + n)%nat).
    { intros t0 y. unfold F', F, _zODE2RegularFunc. cbn [join hi lo vlen]. rewrite Lf, div2. reflexivity. }
    assert (M : exists y', upd t (join x v) dt = y' /\ vlen y' = (n + n)%nat /\ rk_step (n + n) F' m t (join x v) dt y').
    { cbn [In] in Hin. destruct Hin as [E|[E|[E|[E|[]]]]]; injection E as <- <-; eexists; (split; [reflexivity|]).
      - unfold F, cat. rewrite (reg_euler n f Lf) by auto. fold F.
        replace (zODEUpdateEuler F dcat t (join x v) dt) with (zODEUpdateEuler F' dcat t (join x v) dt);
          [split; [exact LJ|apply euler_rk; exact EF]|].
        unfold zODEUpdateEuler. rewrite !FF by exact LJ. reflexivity.
      - unfold F, cat. rewrite (reg_heun n f Lf) by auto. fold F.
        replace (zODEUpdateHeun F dcat t (join x v) dt) with (zODEUpdateHeun F' dcat t (join x v) dt);
          [split; [exact LJ|apply heun_rk; exact EF]|].
        unfold zODEUpdateHeun. cbv zeta. rewrite !FF by exact LJ. reflexivity.
      - unfold F, cat. rewrite (reg_rk4 n f Lf) by auto. fold F.
        replace (zODEUpdateRK4 F dcat t (join x v) dt) with (zODEUpdateRK4 F' dcat t (join x v) dt);
          [split; [exact LJ|apply rk4_rk; exact EF]|].
        unfold zODEUpdateRK4. cbv zeta. rewrite !FF by exact LJ. reflexivity.
      - unfold F, cat. rewrite (reg_rkg n f Lf) by auto. fold F.
        replace (zODEUpdateRKG F dcat dcat dmul t (join x v) dt) with (zODEUpdateRKG F' dcat dcat dmul t (join x v) dt);
          [split; [exact LJ|apply rkg_rk; exact EF]|].
        unfold zODEUpdateRKG. cbv zeta. rewrite !FF by exact LJ. reflexivity. }
    destruct M as (y' & E & LY & M). unfold zODE2UpdateRegular. rewrite E.
    split; [cbn [lo vlen]; rewrite LY; apply div2|]. split; [cbn [hi vlen]; rewrite LY; apply div2|].
    rewrite (join_lohi n) by exact LY. exact M.
Qed.

(** ** cases *)
Local Open Scope Q_scope.
Example C49_case : ig_s (fold_left (fun g xh => zIntgQuad g (fst xh) (snd xh)) [(1, 1); (4, 1); (16, 2)] (zIntgInit 0 0)) = 43 # 2.
Proof. vm_compute. reflexivity. Qed.
Example C50_case : vel (zODEUpdateRK4 (fun _ x => x) dcat 0 (vec_of 0 [1]) 1) 0%nat = 65 # 24 /\
  vel (zODEUpdateHeun (fun _ x => x) dcat 0 (vec_of 0 [1]) 1) 0%nat = 8 # 3 /\
  rmap (fun x : fvec Q => vel x 0%nat) (zODEUpdateRKF45 (fun _ x => x) dcat (fun _ _ => 0) 1 0 (vec_of 0 [1]) 1) = Ok (3391 # 1248).
Proof. vm_compute. auto. Qed.
Local Open Scope R_scope.
Example C77_adams_case : adams_hist 1 2 (fun _ => [0; 1]) [FV 1 (fun _ => -1); dv] 0 1.
Proof. split; [reflexivity|]. intros k Hk i Hi. replace k with 0%nat by lia. unfold peval, coef. cbn. ring. Qed.
Example C77_gear_case (solver : (fvec R -> res (fvec R)) -> fvec R -> fvec R) : (forall r y, solver r y = FV 1 (fun _ => 1)) ->
  exists g, zODECreateGear (dzero 1) 2 = Ok g /\
    let g := Gear (gr_a g) (gr_b g) [dv; FV 1 (fun _ => 1)] in
    gear_hist 1 2 (fun _ => [0; 0; 1]) (gr_hist g) 0 1 /\ (forall u, Derive (peval [0; 0; 1]) u = peval [0; 2] u) /\
    exists z, _zODE_Gear_Func (poly_rhs 1 (fun _ => [0; 2])) dcat (Gear (gr_a g) (gr_b g) (dzero 1 :: tl (gr_hist g))) 0 1 (solver (fun x => Ok x) (dzero 1)) = Ok z /\ vzero 1 z.
Proof.
  intros S. eexists. split; [reflexivity|]. cbv zeta. split; [|split].
  - split; [reflexivity|]. intros k Hk i Hi. replace k with 1%nat by lia. unfold peval, coef. cbn. ring.
  - intros u. apply is_derive_unique. apply (is_derive_ext (fun u => u ^ 2)).
    + intros w. unfold peval, coef. cbn. req. ring.
    + unfold peval, coef. cbn. auto_derive; auto. ring.
  - rewrite S. eexists. split; [reflexivity|]. intros i Hi. cbn. field.
Qed.
Example C79_case : let solve := fun (_ : fvec R -> fvec R) (_ : fvec R) => FV 1 (fun _ => 1 / 2) in
  let f := fun (_ : R) (x : fvec R) => FV 1 (fun i => - vel x i) in let x := FV 1 (fun _ => 1) in
  ext_rhs 1 f /\ solver_finds 1 (rk_step 1 f tabBEuler 0 x 1) solve /\ exists y, rk_step 1 f tabBEuler 0 x 1 y.
Proof.
  intros solve f x.
  assert (S : rk_step 1 f tabBEuler 0 x 1 (FV 1 (fun _ => 1 / 2))).
  { exists (fun _ => FV 1 (fun _ => - (1 / 2))). split.
    - intros j Hj i Hi. cbn in Hj. replace j with 0%nat by lia. cbn. field.
    - intros i Hi. cbn. field. }
  split; [intros t u v E i Hi; cbn; rewrite E by auto; reflexivity|]. split; [|eauto].
  intros r u H _. apply H. exact S.
Qed.
Example C79_case_gauss : let solve := fun (_ : fvec R * fvec R -> fvec R * fvec R) (_ : fvec R * fvec R) => (FV 1 (fun _ => 1), FV 1 (fun _ => 1)) in
  let f := fun (_ : R) (_ : fvec R) => FV 1 (fun i => 1) in
  ext_rhs 1 f /\ solver2_finds 1 (rk_stages2 1 f tabGauss 0 (dzero 1) 1) solve /\ exists k, rk_stages2 1 f tabGauss 0 (dzero 1) 1 k.
Proof.
  intros solve f.
  assert (S : rk_stages2 1 f tabGauss 0 (dzero 1) 1 (FV 1 (fun _ => 1), FV 1 (fun _ => 1))) by (split; intros i Hi; reflexivity).
  split; [intros t u v E i Hi; reflexivity|]. split; [|eauto]. intros r u H _. apply H. exact S.
Qed.
Example C51_case n (x xi : fvec R) i : (i < n)%nat ->
  is_derive (fun s => - vel (shiftv x s (vel xi)) i) 0 (rsum n (fun j => (if (i =? j)%nat then -1 else 0) * vel xi j)).
Proof.
  intros Hi. rewrite (rsum_delta n i); [|exact Hi|intros j Hj Hne; destruct (Nat.eqb_spec i j); [congruence|ring]].
  rewrite Nat.eqb_refl. cbn. auto_derive; auto. ring.
Qed.
Example C78_case : (1 <= 1 / 100000000 * 2 ^ 27)%R. Proof. lra. Qed.
Print Assumptions C49_rectangular. Print Assumptions C49_trapezoidal. Print Assumptions C49_trapezoidal_affine. Print Assumptions C49_quadratic. Print Assumptions C49_quadratic_poly. Print Assumptions C49_quadratic_refuted.
Print Assumptions C50_methods. Print Assumptions C50_orders. Print Assumptions C50_polynomial. Print Assumptions C50_linear. Print Assumptions C50_embedded_polynomial. Print Assumptions C50_embedded_linear. Print Assumptions C50_cash_karp_refuted.
Print Assumptions C51_constant_acceleration. Print Assumptions C51_leapfrog_start_refuted. Print Assumptions C51_symplectic. Print Assumptions C51_leapfrog_is_symplectic. Print Assumptions C51_reversible. Print Assumptions C51_regular.
Print Assumptions C77_adams. Print Assumptions C77_adams_correction. Print Assumptions C77_adams_start_refuted. Print Assumptions C77_gear. Print Assumptions C77_gear_start_refuted.
Print Assumptions C78_embedded. Print Assumptions C78_deferred_correction. Print Assumptions C78_deferred_euler. Print Assumptions C78_deferred_rk4_refuted.
Print Assumptions C79_implicit. Print Assumptions C79_orders. Print Assumptions C79_radau_order4_refuted.
