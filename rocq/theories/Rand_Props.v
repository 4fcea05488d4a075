(** C89: random numbers stay in the support of their distribution, for every stream. *)
From Coq Require Import List Arith Lia Reals Lra ZArith Bool.

From Verif Require Import Prelude Scalar RealLib Rand_Model Rand_Proofs.
Import ListNotations.
Local Open Scope R_scope.

(** [always x P]: every value of x satisfies P; there is no division by 0 *)
Definition always {A} (x : act A) (P : A -> Prop) : Prop := forall p, x p <> Div0 /\ forall a q, x p = Val a q -> P a.
Lemma always_gives {A} (x : act A) (P : A -> Prop) : gives x P -> always x P.
Proof. intros H p. specialize (H p). destruct (x p) as [a q| |]; [|contradiction|split; [discriminate|intros; discriminate]]. split; [discriminate|]. intros a0 q0 E. injection E as <- <-. exact H. Qed.

Section C89.
  Variables (rn ru rf : nat -> R).
  Hypothesis Hn : forall p, 0 <= rn p < 1.
  Hypothesis Hu : forall p, 0 <= ru p < 1.
  Hypothesis Hf : forall p, 0 <= rf p < 1.
  (** libm in exact arithmetic; nothing is assumed outside of the domains *)
  Variables (log : R -> R) (pow : R -> R -> R) (ceil : R -> Z) (zE pix2 ztol : R).
  Hypothesis Hlog : forall x, 0 < x -> log x = ln x.
  Hypothesis Hpow : forall x y, 0 < x -> pow x y = Rpower x y.
  Hypothesis Hpow0 : forall y, 0 < y -> pow 0 y = 0.
  Hypothesis Hceil : forall x, x <= IZR (ceil x) < x + 1.
  Hypothesis HzE : 0 < zE.
  Hypothesis Hz : 0 <= ztol.
  Variable fuel : nat.

  Theorem C89_gamma : forall a, 0 < a -> always (zRandGamma rn log exp pow zE fuel a) (fun x => 0 <= x /\ (1 < a -> 0 < x)).
  Proof. intros. apply always_gives. apply g_gamma; auto. Qed.
  Theorem C89_chi : forall nu, 0 < nu -> always (zRandChiSqr rn log exp pow zE fuel nu) (fun x => 0 <= x /\ (2 < nu -> 0 < x)).
  Proof. intros. apply always_gives. apply g_chi; auto. Qed.
  Theorem C89_t : forall n last, 0 < n -> always (zRandT rn ru log exp sin cos pow zE pix2 ztol fuel n last) (fun _ => True).
  Proof. intros. apply always_gives. apply g_t; auto. Qed.
  Theorem C89_exp : always (zRandExp ru log) (fun x => 0 <= x).
  Proof. apply always_gives. apply g_exp; auto. Qed.
  Theorem C89_log : always (zRandLog ru log ztol fuel) (fun _ => True).
  Proof. apply always_gives. eapply g_log; eauto. Qed.
  Theorem C89_power : forall n, -1 < n -> always (zRandPower ru pow n) (fun x => 0 <= x <= 1).
  Proof. intros. apply always_gives. apply g_power; auto. Qed.
  Theorem C89_tri : always (zRandTri rn) (fun x => -1 < x < 1).
  Proof. apply always_gives. apply g_tri; auto. Qed.
  Theorem C89_cauchy : always (zRandCauchy rf fuel) (fun _ => True).
  Proof. apply always_gives. apply g_cauchy; auto. Qed.
  Theorem C89_weibull : forall alpha, 0 < alpha -> always (zRandWeibull ru log pow alpha) (fun x => 0 <= x).
  Proof. intros. apply always_gives. apply g_weibull; auto. Qed.
  (** ** the laws: which transformation of the draws is returned *)
  (** exponential: the inverse of the distribution function 1 - exp(-x) *)
  Theorem C89_exp_law : forall q, exists x, zRandExp ru log q = Val x (S q) /\ 1 - exp (- x) = ru q.
  Proof.
    intros q. unfold zRandExp, abind, zRandMTNU, ret. eexists. split; [reflexivity|]. rs. pose proof (Hu q). rewrite Hlog by lra.
    rewrite Ropp_involutive, exp_ln by lra. ring.
  Qed.
  (** Weibull: the inverse of 1 - exp(-x^alpha) *)
  Theorem C89_weibull_law : forall alpha q, 0 < alpha -> exists x, zRandWeibull ru log pow alpha q = Val x (S q) /\
    (ru q = 0 -> x = 0) /\ (0 < ru q -> 0 < x /\ 1 - exp (- Rpower x alpha) = ru q).
  Proof.
    intros alpha q Ha. unfold zRandWeibull, abind, zRandMTNU, sdivd, ret. change (@seq R _) with Reqb. rs. destruct (Reqb_spec alpha 0); [lra|].
    eexists. split; [reflexivity|]. pose proof (Hu q). assert (0 < 1 / alpha) by (apply Rdiv_lt_0_compat; lra). rewrite Hlog by lra. split.
    - intros ->. rewrite Rminus_0_r, ln_1, Ropp_0. auto.
    - intros Hp. assert (0 < - ln (1 - ru q)) by (pose proof (ln_increasing (1 - ru q) 1 ltac:(lra) ltac:(lra)) as L; rewrite ln_1 in L; lra).
      rewrite Hpow by auto. split; [apply exp_pos|]. rewrite Rpower_mult. replace (1 / alpha * alpha) with 1 by (field; lra). rewrite Rpower_1 by auto.
      rewrite Ropp_involutive, exp_ln by lra. ring.
  Qed.
  (** power: the inverse of x^(n+1) *)
  Theorem C89_power_law : forall n q, -1 < n -> exists x, zRandPower ru pow n q = Val x (S q) /\
    (ru q = 0 -> x = 0) /\ (0 < ru q -> 0 < x /\ Rpower x (n + 1) = ru q).
  Proof.
    intros n q Ha. unfold zRandPower, abind, zRandMTNU, sdivd, ret. change (@seq R _) with Reqb. rs. destruct (Reqb_spec (n + 1) 0); [lra|].
    eexists. split; [reflexivity|]. pose proof (Hu q). assert (0 < 1 / (n + 1)) by (apply Rdiv_lt_0_compat; lra). split.
    - intros ->. auto.
    - intros Hp. rewrite Hpow by auto. split; [apply exp_pos|]. rewrite Rpower_mult. replace (1 / (n + 1) * (n + 1)) with 1 by (field; lra). now apply Rpower_1.
  Qed.
  (** logistic: the inverse of exp(x) / (1 + exp(x)) at the first draw that is not tiny *)
  Theorem C89_log_law : forall q x q', zRandLog ru log ztol fuel q = Val x q' ->
    exists p, q' = S p /\ (q <= p)%nat /\ ztol < ru p /\ (forall k, (q <= k < p)%nat -> ru k <= ztol) /\ exp x / (1 + exp x) = ru p.
  Proof.
    intros q x q'. unfold zRandLog, abind. destruct (nottiny ru ztol fuel q) as [r q1| |] eqn:E; try discriminate.
    assert (forall f q, nottiny ru ztol f q = Val r q1 -> exists p, q1 = S p /\ (q <= p)%nat /\ r = ru p /\ ztol < ru p /\ forall k, (q <= k < p)%nat -> ru k <= ztol) as K.
    { clear E q. induction f as [|f IH]; intros q E; cbn [nottiny] in E; [discriminate|]. unfold abind, zRandMTNU in E. unfold is_tol in E. rs. pose proof (Hu q).
      rewrite Rabs_pos_eq in E by lra. destruct (Rleb_spec (ru q) ztol) as [Hl|Hl].
      - destruct (IH _ E) as (p & H1 & H2 & H3 & H4 & H5). exists p. repeat split; auto; [lia|]. intros k Hk. destruct (Nat.eq_dec k q) as [->|]; auto. apply H5. lia.
      - unfold ret in E. injection E as <- <-. exists q. repeat split; auto; [lra|]. intros; lia. }
    destruct (K fuel q E) as (p & -> & Hp & -> & Ht & Hk). unfold sdivd. change (@seq R _) with Reqb. rs. destruct (Reqb_spec (1 - ru p) 0); [discriminate|].
    unfold ret. intros Ev. injection Ev as <- <-. exists p. repeat split; auto. pose proof (Hu p). assert (0 < ru p / (1 - ru p)) by (apply Rdiv_lt_0_compat; lra).
    rewrite Hlog, exp_ln by auto. field. lra.
  Qed.
  (** triangular: the difference of two draws; Cauchy: the slope of a point of the half disc *)
  Theorem C89_tri_law : forall q, zRandTri rn q = Val (rn q - rn (S q)) (S (S q)).
  Proof. reflexivity. Qed.
  Lemma disk_law (d : nat -> R) k q x y q' : disk (fun p => Val (d p) (S p)) k q = Val (x, y) q' ->
    exists p, q' = S (S p) /\ (q <= p)%nat /\ x = 1 - d p /\ y = 2 * d (S p) - 1 /\ x * x + y * y <= 1.
  Proof.
    revert q. induction k as [|k IH]; intros q E; cbn [disk] in E; [discriminate|]. unfold abind in E. change (@slt R _) with Rltb in E. rs.
    match type of E with (if Rltb 1 ?v then _ else _) _ = _ => destruct (Rltb_spec 1 v) as [H|H] end.
    - destruct (IH _ E) as (p & H1 & H2 & H3). exists p. split; [auto|]. split; [lia|auto].
    - unfold ret in E. injection E as <- <- <-. exists q. repeat split; auto. lra.
  Qed.
  Theorem C89_cauchy_law : forall q x q', zRandCauchy rf fuel q = Val x q' ->
    exists p, q' = S (S p) /\ (q <= p)%nat /\ let u := 1 - rf p in let v := 2 * rf (S p) - 1 in u * u + v * v <= 1 /\ x = v / u.
  Proof.
    intros q x q'. unfold zRandCauchy, abind. destruct (disk (zRandMTF01 rf) fuel q) as [[u v] q1| |] eqn:E; try discriminate.
    destruct (disk_law rf fuel q u v q1 E) as (p & -> & Hq & -> & -> & Hd). unfold sdivd. change (@seq R _) with Reqb. rs.
    destruct (Reqb (1 - rf p) 0); [discriminate|]. intros Ev. injection Ev as <- <-. exists p. auto.
  Qed.
  (** chi-squared, beta and F from gamma numbers; the general normal number from the standard one *)
  Theorem C89_chi_law : forall nu q x q', zRandChiSqr rn log exp pow zE fuel nu q = Val x q' <->
    exists g, zRandGamma rn log exp pow zE fuel (nu / 2) q = Val g q' /\ x = 2 * g.
  Proof.
    intros nu q x q'. unfold zRandChiSqr, abind. rs. replace (1 / 2 * nu) with (nu / 2) by lra.
    destruct (zRandGamma rn log exp pow zE fuel (nu / 2) q) as [g q1| |].
    - unfold ret. split; [intros E; injection E as <- <-; eauto|intros (g' & E & ->); injection E as <- <-; reflexivity].
    - split; [discriminate|intros (? & ? & _); discriminate].
    - split; [discriminate|intros (? & ? & _); discriminate].
  Qed.
  Theorem C89_beta_law : forall a b q x q', zRandBeta rn log exp pow zE fuel a b q = Val x q' ->
    exists g h q1, zRandGamma rn log exp pow zE fuel a q = Val g q1 /\ zRandGamma rn log exp pow zE fuel b q1 = Val h q' /\ g + h <> 0 /\ x = g / (g + h).
  Proof.
    intros a b q x q'. unfold zRandBeta, abind. destruct (zRandGamma rn log exp pow zE fuel a q) as [g q1| |]; try discriminate.
    destruct (zRandGamma rn log exp pow zE fuel b q1) as [h q2| |] eqn:E; try discriminate. unfold sdivd. change (@seq R _) with Reqb. rs.
    destruct (Reqb_spec (g + h) 0); [discriminate|]. intros Ev. injection Ev as <- <-. exists g, h, q1. auto.
  Qed.
  Theorem C89_f_law : forall a b q x q', zRandFD rn log exp pow zE fuel a b q = Val x q' -> a <> 0 -> b <> 0 ->
    exists c d q1, zRandChiSqr rn log exp pow zE fuel a q = Val c q1 /\ zRandChiSqr rn log exp pow zE fuel b q1 = Val d q' /\ d <> 0 /\ x = (c / a) / (d / b).
  Proof.
    intros a b q x q' E Ha Hb. revert E. unfold zRandFD, abind. destruct (zRandChiSqr rn log exp pow zE fuel a q) as [c q1| |]; try discriminate.
    destruct (zRandChiSqr rn log exp pow zE fuel b q1) as [d q2| |] eqn:E; try discriminate. unfold sdivd. change (@seq R _) with Reqb. rs.
    destruct (Reqb_spec (d * a) 0) as [|Hd]; [discriminate|]. intros Ev. injection Ev as <- <-. exists c, d, q1. split; auto. split; auto.
    assert (d <> 0) by (intros ->; apply Hd; ring). split; auto. field. auto.
  Qed.
  Theorem C89_nd_law : forall mu sigma last q x l q', zRandND ru log sin cos pix2 mu sigma last q = Val (x, l) q' <->
    exists z, zRandND0 ru log sin cos pix2 last q = Val (z, l) q' /\ x = mu + sigma * z.
  Proof.
    intros mu sigma last q x l q'. unfold zRandND, abind. destruct (zRandND0 ru log sin cos pix2 last q) as [[z l1] q1| |].
    - unfold ret. split; [intros E; injection E as <- <- <-; eauto|intros (z' & E & ->); injection E as <- <- <-; reflexivity].
    - split; [discriminate|intros (? & ? & _); discriminate].
    - split; [discriminate|intros (? & ? & _); discriminate].
  Qed.
  Lemma disk_grows (d : nat -> R) k q : match disk (fun p => Val (d p) (S p)) k q with Val _ q' => (q < q')%nat | _ => True end.
  Proof.
    destruct (disk (fun p => Val (d p) (S p)) k q) as [[x y] q'| |] eqn:E; auto. apply disk_law in E as (p & -> & Hp & _). lia.
  Qed.
  Lemma gamma_grows a q : match zRandGamma rn log exp pow zE fuel a q with Val _ q' => (q <= q')%nat | _ => True end.
  Proof.
    unfold zRandGamma. destruct (slt 1%S a).
    - cbv zeta. generalize (ssqrt (sofZ 2 * (a - 1) + 1))%S as t. generalize (a - 1)%S as a'. intros a' t. generalize fuel at 2 as f. intros f. revert q.
      induction f as [|f IH]; intros q; cbn [gamma_big]; [exact I|]. unfold abind.
      assert (G : forall f q, match gamma_pos rn fuel t a' f q with Val _ q' => (q <= q')%nat | _ => True end).
      { clear IH q. clear f. induction f as [|f IH]; intros q; cbn [gamma_pos]; [exact I|]. unfold abind. pose proof (disk_grows rn fuel q) as G. unfold zRandMTN.
        destruct (disk (fun p => Val (rn p) (S p)) fuel q) as [[x y] q1| |]; auto. unfold sdivd. destruct (seq x 0%S); auto. destruct (sle _ _); [|cbn; lia].
        pose proof (IH q1) as G2. destruct (gamma_pos rn fuel t a' f q1); auto. lia. }
      pose proof (G fuel q) as Gq. destruct (gamma_pos rn fuel t a' fuel q) as [[x y] q1| |]; auto. destruct (slt _ _).
      + pose proof (IH q1) as G2. destruct (gamma_big rn log exp fuel t a' f q1); auto. lia.
      + unfold zRandMTN. destruct (slt _ _); [|cbn; lia]. pose proof (IH (S q1)) as G2. destruct (gamma_big rn log exp fuel t a' f (S q1)); auto. lia.
    - generalize (zE / (a + zE))%S as t. intros t. generalize fuel as f. intros f. revert q. induction f as [|f IH]; intros q; cbn [gamma_small]; [exact I|]. unfold abind, zRandMTN.
      destruct (slt (rn q) t); unfold ret; cbn [fst snd]; (destruct (sle _ _); [|lia]); pose proof (IH (S (S (S q)))) as G;
        destruct (gamma_small rn log exp pow t a f (S (S (S q)))); auto; lia.
  Qed.
  Lemma chi_grows nu q : match zRandChiSqr rn log exp pow zE fuel nu q with Val _ q' => (q <= q')%nat | _ => True end.
  Proof.
    unfold zRandChiSqr, abind. pose proof (gamma_grows (1 / sofZ 2 * nu)%S q) as G. destruct (zRandGamma rn log exp pow zE fuel (1 / sofZ 2 * nu)%S q); auto.
  Qed.
  (** Student: a normal number over the root of a chi-squared number per degree of freedom, or for more than two degrees
      a normal number accepted by a comparison with an exponential number *)
  Theorem C89_t_law : forall n last q x l q', zRandT rn ru log exp sin cos pow zE pix2 ztol fuel n last q = Val (x, l) q' ->
    if Rle_dec n 2
    then exists c z q0 q1, (q <= q0)%nat /\ zRandChiSqr rn log exp pow zE fuel n q0 = Val c q1 /\ ztol < Rabs c /\
      zRandND0 ru log sin cos pix2 last q1 = Val (z, l) q' /\ x = z / sqrt (c / n)
    else exists last' z q0 p, zRandND0 ru log sin cos pix2 last' q0 = Val (z, l) p /\ q' = S p /\
      let b := z * z / (n - 2) in let c := ln (1 - ru p) / (1 - n / 2) in
      exp (- b - c) <= 1 - b /\ x = z / sqrt ((1 - 2 / n) * (1 - b)).
  Proof.
    intros n last q x l q'. unfold zRandT. change (@sle R _) with Rleb. rs. destruct (Rle_dec n 2) as [Hn2|Hn2]; destruct (Rleb_spec n 2) as [Hr|Hr]; try lra.
    - unfold abind. destruct (t_small rn log exp pow zE ztol fuel n fuel q) as [c q1| |] eqn:E; try discriminate.
      assert (forall f q, t_small rn log exp pow zE ztol fuel n f q = Val c q1 -> exists q0, (q <= q0)%nat /\ zRandChiSqr rn log exp pow zE fuel n q0 = Val c q1 /\ ztol < Rabs c) as K.
      { clear E q. induction f as [|f IH]; intros q E; cbn [t_small] in E; [discriminate|]. unfold abind in E.
        destruct (zRandChiSqr rn log exp pow zE fuel n q) as [d q2| |] eqn:Ec; try discriminate. unfold is_tol in E. rs. destruct (Rleb_spec (Rabs d) ztol) as [H|H].
        - destruct (IH _ E) as (q0 & H1 & H2). exists q0. split; auto. pose proof (chi_grows n q) as G. rewrite Ec in G. lia.
        - unfold ret in E. injection E as <- <-. exists q. split; auto. split; auto. lra. }
      destruct (K _ _ E) as (q0 & Hq & Hc & Ht). destruct (zRandND0 ru log sin cos pix2 last q1) as [[z l1] q2| |] eqn:En; try discriminate.
      unfold sdivd. change (@seq R _) with Reqb. rs. destruct (Reqb (sqrt (c / n)) 0); [discriminate|]. unfold ret. intros Ev. injection Ev as <- <- <-.
      exists c, z, q0, q1. auto.
    - unfold abind. destruct (t_big ru log exp sin cos pix2 n last fuel q) as [[[z b] l1] q1| |] eqn:E; try discriminate.
      assert (forall f last q, t_big ru log exp sin cos pix2 n last f q = Val (z, b, l1) q1 -> exists last' q0 p, zRandND0 ru log sin cos pix2 last' q0 = Val (z, l1) p /\ q1 = S p /\
        b = z * z / (n - 2) /\ exp (- b - ln (1 - ru p) / (1 - n / 2)) <= 1 - b) as K.
      { clear E q last. induction f as [|f IH]; intros last q E; cbn [t_big] in E; [discriminate|]. unfold abind in E.
        destruct (zRandND0 ru log sin cos pix2 last q) as [[a l2] q2| |] eqn:Ec; try discriminate. unfold zRandMTNU in E. change (@slt R _) with Rltb in E. rs. pose proof (Hu q2).
        rewrite Hlog in E by lra.
        match type of E with (if Rltb ?u ?v then _ else _) _ = _ => destruct (Rltb_spec u v) as [H1|H1] end.
        - eauto.
        - unfold ret in E. injection E as <- <- <- <-. exists last, q, q2. repeat split; auto. replace (1 - n / 2) with (1 - 1 / 2 * n) by field. lra. }
      destruct (K _ _ _ E) as (last' & q0 & p & H1 & -> & -> & H2).
      unfold sdivd. change (@seq R _) with Reqb. rs. match goal with |- context [Reqb ?u 0] => destruct (Reqb u 0) end; [discriminate|]. unfold ret. intros Ev. injection Ev as <- <- <-.
      exists last', z, q0, p. auto.
  Qed.
  (** gamma: the accepted candidate *)
  Theorem C89_gamma_small_law : forall a q x q', a <= 1 -> zRandGamma rn log exp pow zE fuel a q = Val x q' ->
    exists p, q' = S (S (S p)) /\ (q <= p)%nat /\
      if Rlt_dec (rn p) (zE / (a + zE)) then x = pow (rn (S p)) (1 / a) /\ rn (S (S p)) < exp (- x)
      else x = 1 - ln (1 - rn (S p)) /\ rn (S (S p)) < Rpower x (a - 1).
  Proof.
    intros a q x q' Ha. unfold zRandGamma. change (@slt R _) with Rltb. rs. destruct (Rltb_spec 1 a); [lra|].
    generalize fuel as f. intros f. revert q. induction f as [|f IH]; intros q E; cbn [gamma_small] in E; [discriminate|].
    unfold abind, zRandMTN in E. change (@slt R _) with Rltb in E. change (@sle R _) with Rleb in E. rs.
    destruct (Rltb_spec (rn q) (zE / (a + zE))) as [H1|H1]; unfold ret in E; cbn [fst snd] in E.
    - match type of E with (if Rleb ?u ?v then _ else _) _ = _ => destruct (Rleb_spec u v) as [H2|H2] end.
      + destruct (IH _ E) as (p & Hq & Hp & K). exists p. split; auto. split; [lia|auto].
      + injection E as <- <-. exists q. split; auto. split; auto. destruct (Rlt_dec (rn q) (zE / (a + zE))); [|contradiction]. split; auto. lra.
    - pose proof (Hn (S q)) as Hs. rewrite Hlog in E by lra. pose proof (ln_le0 (1 - rn (S q)) ltac:(lra)) as Hl.
      rewrite Hpow in E by lra.
      match type of E with (if Rleb ?u ?v then _ else _) _ = _ => destruct (Rleb_spec u v) as [H2|H2] end.
      + destruct (IH _ E) as (p & Hq & Hp & K). exists p. split; auto. split; [lia|auto].
      + injection E as <- <-. exists q. split; auto. split; auto. destruct (Rlt_dec (rn q) (zE / (a + zE))); [contradiction|]. split; auto. lra.
  Qed.
  Theorem C89_gamma_big_law : forall a q x q', 1 < a -> zRandGamma rn log exp pow zE fuel a q = Val x q' ->
    exists p r, q' = S r /\ (q <= p < r)%nat /\
      let u := 1 - rn p in let v := 2 * rn (S p) - 1 in let y := v / u in let t := sqrt (2 * a - 1) in
      let e := (a - 1) * ln (x / (a - 1)) - t * y in
      u * u + v * v <= 1 /\ x = t * y + (a - 1) /\ 0 < x /\ -50 <= e /\ rn r <= (1 + y * y) * exp e.
  Proof.
    intros a q x q' Ha. unfold zRandGamma. change (@slt R _) with Rltb. rs. destruct (Rltb_spec 1 a); [|lra]. replace (2 * (a - 1) + 1) with (2 * a - 1) by ring.
    set (t := sqrt (2 * a - 1)).
    assert (G : forall f q x y q', gamma_pos rn fuel t (a - 1) f q = Val (x, y) q' -> exists p, q' = S (S p) /\ (q <= p)%nat /\
      let u := 1 - rn p in let v := 2 * rn (S p) - 1 in y = v / u /\ u * u + v * v <= 1 /\ x = t * y + (a - 1) /\ 0 < x).
    { clear q x q'. induction f as [|f IH]; intros q x y q' E; cbn [gamma_pos] in E; [discriminate|]. unfold abind in E.
      destruct (disk (zRandMTN rn) fuel q) as [[u v] q1| |] eqn:Ed; try discriminate. apply (disk_law rn) in Ed as (p & -> & Hp & -> & -> & Hd).
      unfold sdivd in E. change (@seq R _) with Reqb in E. change (@sle R _) with Rleb in E. rs. destruct (Reqb (1 - rn p) 0); [discriminate|].
      match type of E with (if Rleb ?u ?v then _ else _) _ = _ => destruct (Rleb_spec u v) as [H1|H1] end.
      - destruct (IH _ _ _ _ E) as (p' & H2 & H3 & H4). exists p'. split; auto. split; [lia|auto].
      - unfold ret in E. injection E as <- <- <-. exists p. split; auto. split; auto. cbv zeta. repeat split; auto. lra. }
    generalize fuel at 2 as f. intros f. revert q. induction f as [|f IH]; intros q E; cbn [gamma_big] in E; [discriminate|]. unfold abind in E.
    destruct (gamma_pos rn fuel t (a - 1) fuel q) as [[z y] q1| |] eqn:Eg; try discriminate. destruct (G _ _ _ _ _ Eg) as (p & -> & Hp & Hy & Hd & Hzz & Hzp).
    change (@slt R _) with Rltb in E. rs. rewrite Hlog in E by (apply Rdiv_lt_0_compat; lra).
    match type of E with (if Rltb ?u ?v then _ else _) _ = _ => destruct (Rltb_spec u v) as [H1|H1] end.
    { destruct (IH _ E) as (p' & r' & H2 & H3 & H4). exists p', r'. split; auto. split; [lia|auto]. }
    unfold zRandMTN in E.
    match type of E with (if Rltb ?u ?v then _ else _) _ = _ => destruct (Rltb_spec u v) as [H2|H2] end.
    { destruct (IH _ E) as (p' & r' & H3 & H4 & H5). exists p', r'. split; auto. split; [lia|auto]. }
    unfold ret in E. injection E as <- <-. exists p, (S (S p)). split; auto. split; [lia|]. cbv zeta. rewrite <- Hy. repeat split; auto; lra.
  Qed.
  (** Beta and F: a division by 0 needs small parameters. *)
  Theorem C89_beta_partial : forall a b p, 0 < a -> 0 < b -> (zRandBeta rn log exp pow zE fuel a b p = Div0 -> a <= 1 /\ b <= 1) /\
    forall x q, zRandBeta rn log exp pow zE fuel a b p = Val x q -> 0 <= x <= 1.
  Proof. intros a b p Ha Hb. pose proof (g_beta rn Hn log pow zE Hlog Hpow Hpow0 fuel a b p Ha Hb) as G. split; [intros E; rewrite E in G; auto|intros x q E; rewrite E in G; auto]. Qed.
  Theorem C89_f_partial : forall a b p, 0 < a -> 0 < b -> (zRandFD rn log exp pow zE fuel a b p = Div0 -> b <= 2) /\
    forall x q, zRandFD rn log exp pow zE fuel a b p = Val x q -> 0 <= x.
  Proof. intros a b p Ha Hb. pose proof (g_fd rn Hn log pow zE Hlog Hpow Hpow0 fuel a b p Ha Hb) as G. split; [intros E; rewrite E in G; auto|intros x q E; rewrite E in G; auto]. Qed.
  (** The binomial number is the number of the next n draws below p. *)
  Theorem C89_binom : forall n p q, zRandBinom rn n p q = Val (length (filter (fun k => Rltb (rn k) p) (List.seq q (Z.to_nat n)))) (q + Z.to_nat n)%nat.
  Proof. intros. unfold zRandBinom. rewrite binom_ok. reflexivity. Qed.
  (** The pair of correlated numbers lies on an ellipse of the correlation r. *)
  Theorem C89_binom2 : forall r, -1 < r < 1 -> always (zRandBinom2 ru log ztol fuel r) (fun xy => exists s, ztol < s <= 1 /\
    (fst xy + snd xy) * (fst xy + snd xy) / (1 + r) + (fst xy - snd xy) * (fst xy - snd xy) / (1 - r) = - 4 * ln s).
  Proof. intros. apply always_gives. apply g_binom2; auto. Qed.
  (** Poisson: the number of factors that keep the product of exp(lambda) and the draws above 1. *)
  Theorem C89_poisson : forall lambda q, zRandPoisson rf exp fuel lambda q <> Div0 /\ forall k q', zRandPoisson rf exp fuel lambda q = Val k q' ->
    q' = (q + S k)%nat /\ exp lambda * prod rf q (S k) <= 1 /\ forall m, (0 < m <= k)%nat -> 1 < exp lambda * prod rf q m.
  Proof.
    intros lambda q. unfold zRandPoisson, abind, zRandMTF01. rs. pose proof (poisson_ok rf fuel (exp lambda * rf q) 0 (S q)) as P.
    destruct (poisson rf (exp lambda * rf q) 0 fuel (S q)) as [j q'| |]; [|contradiction|split; [discriminate|intros; discriminate]]. split; [discriminate|].
    intros k q2 E. injection E as <- <-. rewrite Nat.sub_0_r in P. destruct P as [_ [A [B C]]]. split; [lia|]. rewrite prod_S. split; [lra|].
    intros [|m] Hm; [lia|]. rewrite prod_S. specialize (C m ltac:(lia)). lra.
  Qed.
  (** The geometric number inverts the distribution function: 1-(1-p)^(k-1) < u <= 1-(1-p)^k. *)
  Theorem C89_geo : forall p q, 0 < p < 1 -> exists k, zRandGeo ru log ceil p q = Val k (S q) /\ (0 <= k)%Z /\
    Rpower (1 - p) (IZR k) <= 1 - ru q < Rpower (1 - p) (IZR k - 1).
  Proof. intros. apply geo_ok; auto. Qed.
  (** Normal: the calls 2i and 2i+1 give the two coordinates of one point, at the distance sqrt(-2 ln(1-u)) in the direction
      2 pi v, with u and v the draws 2i and 2i+1. *)
  Fixpoint calls (n : nat) (last : option R) : act (list R) :=
    match n with O => ret [] | S n => '(x, last) <~ zRandND0 ru log sin cos pix2 last ;; l <~ calls n last ;; ret (x :: l) end.
  Theorem C89_normal : forall n q, exists l, calls (2 * n) None q = Val l (q + 2 * n)%nat /\ length l = (2 * n)%nat /\
    forall i, (i < n)%nat -> let u := ru (q + 2 * i)%nat in let a := pix2 * ru (q + 2 * i + 1)%nat in
      nth (2 * i) l 0 = sqrt (- 2 * ln (1 - u)) * cos a /\ nth (2 * i + 1) l 0 = sqrt (- 2 * ln (1 - u)) * sin a /\
      nth (2 * i) l 0 * nth (2 * i) l 0 + nth (2 * i + 1) l 0 * nth (2 * i + 1) l 0 = - 2 * ln (1 - u).
  Proof.
    induction n; intros q.
    - exists []. cbn [calls Nat.mul]. unfold ret. rewrite Nat.add_0_r. split; auto. split; auto. intros; lia.
    - destruct (IHn (q + 2)%nat) as [l [A [B C]]]. replace (2 * S n)%nat with (S (S (2 * n))) by lia. cbn [calls zRandND0]. unfold abind at 1 2 3, zRandMTNU. cbv zeta. unfold ret at 1. cbn [zRandND0]. unfold abind at 1 2. unfold ret at 1.
      unfold abind. replace (S (S q)) with (q + 2)%nat by lia. rewrite A. unfold ret. eexists. split; [f_equal; lia|]. split; [cbn [length]; lia|].
      intros i Hi. cbv zeta. destruct i as [|i].
      + rewrite !Nat.mul_0_r, !Nat.add_0_r. replace (q + 1)%nat with (S q) by lia. cbn [nth plus]. rs. pose proof (Hu q). rewrite !Hlog by lra. set (a := pix2 * ru (S q)). set (t := sqrt (- (2) * ln (1 - ru q))).
        assert (E2 : - (2) * ln (1 - ru q) = - 2 * ln (1 - ru q)) by lra. unfold t. rewrite E2. split; auto. split; auto. set (d := - 2 * ln (1 - ru q)).
        assert (D : 0 <= d) by (unfold d; pose proof (ln_le0 (1 - ru q) ltac:(lra)); lra). replace (sqrt d * cos a * (sqrt d * cos a) + sqrt d * sin a * (sqrt d * sin a)) with ((sqrt d * sqrt d) * (Rsqr (sin a) + Rsqr (cos a))) by (unfold Rsqr; ring).
        rewrite sqrt_sqrt, sin2_cos2 by auto. lra.
      + specialize (C i ltac:(lia)). cbv zeta in C. replace (2 * S i)%nat with (S (S (2 * i))) by lia. replace (S (S (2 * i)) + 1)%nat with (S (S (2 * i + 1))) by lia. cbn [nth].
        replace (q + S (S (2 * i)))%nat with (q + 2 + 2 * i)%nat by lia. replace (q + S (S (2 * i + 1)))%nat with (q + 2 + 2 * i + 1)%nat by lia. apply C.
  Qed.
End C89.
Print Assumptions C89_gamma.
Print Assumptions C89_exp_law.
Print Assumptions C89_weibull_law.
Print Assumptions C89_power_law.
Print Assumptions C89_log_law.
Print Assumptions C89_tri_law.
Print Assumptions C89_cauchy_law.
Print Assumptions C89_chi_law.
Print Assumptions C89_beta_law.
Print Assumptions C89_f_law.
Print Assumptions C89_nd_law.
Print Assumptions C89_t_law.
Print Assumptions C89_gamma_small_law.
Print Assumptions C89_gamma_big_law.
Print Assumptions C89_chi.
Print Assumptions C89_t.
Print Assumptions C89_exp.
Print Assumptions C89_log.
Print Assumptions C89_power.
Print Assumptions C89_tri.
Print Assumptions C89_cauchy.
Print Assumptions C89_weibull.
Print Assumptions C89_beta_partial.
Print Assumptions C89_f_partial.
Print Assumptions C89_binom.
Print Assumptions C89_binom2.
Print Assumptions C89_poisson.
Print Assumptions C89_geo.
Print Assumptions C89_normal.

(** ** Refutations *)
(** "A beta number is in [0,1]" is false: if all draws are 0, both gamma numbers are 0. *)
Theorem C89_beta_refuted : forall log pow zE fuel, 0 < zE -> (forall y, 0 < y -> pow 0 y = 0) -> (0 < fuel)%nat ->
  zRandBeta (fun _ => 0) log exp pow zE fuel 1 1 0%nat = Div0.
Proof.
  intros log pow zE fuel HE Hp Hf. destruct fuel as [|k]; [lia|].
  assert (G : forall q, zRandGamma (fun _ => 0) log exp pow zE (S k) 1 q = Val 0 (S (S (S q)))).
  { intros q. unfold zRandGamma. change (@slt R _) with Rltb. rs. destruct (Rltb_spec 1 1); [lra|]. cbn [gamma_small]. unfold abind, zRandMTN. change (@slt R _) with Rltb. rs.
    destruct (Rltb_spec 0 (zE / (1 + zE))) as [|H].
    - unfold ret. cbn [fst snd]. rewrite Hp by lra. rewrite Ropp_0, exp_0. change (@sle R _) with Rleb. destruct (Rleb_spec 1 0); [lra|]. reflexivity.
    - exfalso. apply H. apply Rmult_lt_0_compat; [auto|]. apply Rinv_0_lt_compat. lra. }
  unfold zRandBeta, abind. rewrite !G. unfold sdivd. change (@seq R _) with Reqb. rs. rewrite Rplus_0_l. destruct (Reqb_spec 0 0); [auto|lra].
Qed.
Print Assumptions C89_beta_refuted.
(** "A geometric number counts the trials, and is at least 1" is false: the draw 0 gives 0. *)
Theorem C89_geo_refuted : forall log ceil p q, (forall x, 0 < x -> log x = ln x) -> (forall x, x <= IZR (ceil x) < x + 1) -> 0 < p < 1 -> zRandGeo (fun _ => 0) log ceil p q = Val 0%Z (S q).
Proof.
  intros log ceil p q Hlog Hc Hp. unfold zRandGeo, abind, zRandMTNU, sdivd, ret. change (@seq R _) with Reqb. rs. rewrite !Hlog by lra. assert (L : ln (1 - p) < 0) by (rewrite <- ln_1; apply ln_increasing; lra).
  destruct (Reqb_spec (ln (1 - p)) 0); [lra|]. replace (1 - 0) with 1 by lra. rewrite ln_1. replace (0 / ln (1 - p)) with 0 by (field; lra). f_equal. destruct (Hc 0) as [A B].
  apply le_IZR in A. replace (0 + 1) with (IZR 1) in B by lra. apply lt_IZR in B. lia.
Qed.
Print Assumptions C89_geo_refuted.
(** "A Cauchy or gamma number is a number" is false if the number 1 can be drawn. *)
Theorem C89_one_refuted : forall log exp pow zE k, zRandCauchy (fun p => match p with O => 1 | _ => / 2 end) (S k) 0%nat = Div0 /\
  zRandGamma (fun p => match p with O => 1 | _ => / 2 end) log exp pow zE (S k) 2 0%nat = Div0.
Proof.
  intros log ex pow zE k. assert (D : forall r : nat -> R, r 0%nat = 1 -> r 1%nat = / 2 -> disk (fun p => Val (r p) (S p)) (S k) 0%nat = Val (0, 0) 2%nat).
  { intros r E0 E1. cbn [disk]. unfold abind. rewrite E0, E1. change (@slt R _) with Rltb. rs. match goal with |- context [Rltb 1 ?x] => destruct (Rltb_spec 1 x) end; [lra|]. unfold ret. f_equal. f_equal; lra. }
  split.
  - unfold zRandCauchy. unfold abind. change (zRandMTF01 (fun p => match p with O => 1 | _ => / 2 end)) with (fun p => Val ((fun p => match p with O => 1 | S _ => / 2 end) p) (S p)). rewrite D by auto. unfold sdivd. change (@seq R _) with Reqb. rs. destruct (Reqb_spec 0 0); [auto|lra].
  - unfold zRandGamma. change (@slt R _) with Rltb. rs. destruct (Rltb_spec 1 2); [|lra]. cbn [gamma_big gamma_pos]. unfold abind.
    change (zRandMTN (fun p => match p with O => 1 | _ => / 2 end)) with (fun p => Val ((fun p => match p with O => 1 | S _ => / 2 end) p) (S p)). rewrite D by auto. unfold sdivd. change (@seq R _) with Reqb. rs. destruct (Reqb_spec 0 0); [auto|lra].
Qed.
Print Assumptions C89_one_refuted.

(** the hypotheses can be met *)
Example C89_ex_hyps : (forall p : nat, 0 <= (fun _ => / 2) p < 1) /\ (forall x, 0 < x -> ln x = ln x) /\
  (let pow x y := if Req_EM_T x 0 then 0 else Rpower x y in (forall x y, 0 < x -> pow x y = Rpower x y) /\ (forall y, 0 < y -> pow 0 y = 0)) /\
  (let ceil x := (1 - up (- x))%Z in forall x, x <= IZR (ceil x) < x + 1).
Proof.
  split; [intros; lra|]. split; auto. split.
  - cbv zeta. split; intros.
    + destruct (Req_EM_T x 0); [lra|auto].
    + destruct (Req_EM_T 0 0); [auto|lra].
  - cbv beta zeta. intros x. rewrite minus_IZR. destruct (archimed (- x)). lra.
Qed.
(** and the loops do end: an exponential, a triangular and a Cauchy number for the constant stream 1/2 *)
Example C89_ex_run : zRandTri (fun _ => / 2) 0%nat = Val (/ 2 - / 2) 2%nat /\ zRandCauchy (fun _ => / 2) 1 0%nat = Val ((2 * / 2 - 1) / (1 - / 2)) 2%nat.
Proof.
  split; [reflexivity|]. unfold zRandCauchy. cbn [disk]. unfold abind, zRandMTF01. change (@slt R _) with Rltb. rs. match goal with |- context [Rltb 1 ?x] => destruct (Rltb_spec 1 x) end; [lra|].
  unfold ret, sdivd. change (@seq R _) with Reqb. rs. match goal with |- context [Reqb ?x 0] => destruct (Reqb_spec x 0) end; [lra|reflexivity].
Qed.
