(** Lemmas about the random numbers (C89). *)
From Coq Require Import List Arith Lia Reals Lra ZArith Bool.
From Verif Require Import Prelude Scalar RealLib Rand_Model.
Import ListNotations.
Local Open Scope R_scope.

Lemma bind_val {A B} (x : act A) (f : A -> act B) p b q : abind x f p = Val b q -> exists a p1, x p = Val a p1 /\ f a p1 = Val b q.
Proof. unfold abind. destruct (x p) as [a p1| |]; try discriminate. eauto. Qed.
Lemma bind_div {A B} (x : act A) (f : A -> act B) p : abind x f p = Div0 -> x p = Div0 \/ exists a p1, x p = Val a p1 /\ f a p1 = Div0.
Proof. unfold abind. destruct (x p) as [a p1| |]; try discriminate; eauto. Qed.
Lemma divd_val (a b c : R) p q : sdivd a b p = Val c q -> b <> 0 /\ c = a / b /\ q = p.
Proof. unfold sdivd. change (@seq R _) with Reqb. change (@s0 R _) with 0. destruct (Reqb_spec b 0); [discriminate|]. intros H. injection H as <- <-. auto. Qed.
Lemma divd_div (a b : R) p : sdivd a b p = Div0 -> b = 0.
Proof. unfold sdivd. change (@seq R _) with Reqb. change (@s0 R _) with 0. destruct (Reqb_spec b 0); [auto|discriminate]. Qed.

(** an action whose values satisfy P, and which does not divide by 0 *)
Definition gives {A} (x : act A) (P : A -> Prop) : Prop := forall p, match x p with Val a _ => P a | Div0 => False | More => True end.
Lemma g_ret {A} (a : A) (P : A -> Prop) : P a -> gives (ret a) P. Proof. intros H p. exact H. Qed.
Lemma g_more {A} (P : A -> Prop) : gives more P. Proof. intros p. exact I. Qed.
Lemma g_bind {A B} (x : act A) (f : A -> act B) (P : A -> Prop) (Q : B -> Prop) : gives x P -> (forall a, P a -> gives (f a) Q) -> gives (abind x f) Q.
Proof. intros H K p. unfold abind. specialize (H p). destruct (x p) as [a q| |]; auto. apply K; auto. Qed.
Lemma g_weak {A} (x : act A) (P Q : A -> Prop) : gives x P -> (forall a, P a -> Q a) -> gives x Q.
Proof. intros H K p. specialize (H p). destruct (x p); auto. Qed.
Lemma g_div (a b : R) (P : R -> Prop) : b <> 0 -> P (a / b) -> gives (sdivd a b) P.
Proof. intros H K p. unfold sdivd. change (@seq R _) with Reqb. change (@s0 R _) with 0. destruct (Reqb_spec b 0); auto. Qed.

Section Rand.
  Variables (rn ru rf : nat -> R).
  Hypothesis Hn : forall p, 0 <= rn p < 1.
  Hypothesis Hu : forall p, 0 <= ru p < 1.
  Hypothesis Hf : forall p, 0 <= rf p < 1.
  (** libm in exact arithmetic; nothing is assumed outside of the domains *)
  Variables (log : R -> R) (pow : R -> R -> R) (ceil : R -> Z) (zE pix2 ztol : R).
  Hypothesis Hlog : forall x, 0 < x -> log x = ln x.
  Hypothesis Hpow : forall x y, 0 < x -> pow x y = Rpower x y.
  Hypothesis Hpow0 : forall y, 0 < y -> pow 0 y = 0.
  Hypothesis Hceil : forall x, x <= IZR (ceil x) < x + 1.
  Hypothesis HzE : 0 < zE.
  Hypothesis Hz : 0 <= ztol.
  Variable fuel : nat.

  Lemma g_rn : gives (zRandMTN rn) (fun x => 0 <= x < 1). Proof. intros p. apply Hn. Qed.
  Lemma g_ru : gives (zRandMTNU ru) (fun x => 0 <= x < 1). Proof. intros p. apply Hu. Qed.
  Lemma g_rf : gives (zRandMTF01 rf) (fun x => 0 <= x < 1). Proof. intros p. apply Hf. Qed.
  Lemma g_disk : forall r k, gives r (fun x => 0 <= x < 1) -> gives (disk r k) (fun xy => 0 < fst xy <= 1 /\ Rabs (snd xy) <= 1).
  Proof.
    intros r k Hr. induction k; cbn [disk]; [apply g_more|]. eapply g_bind; [exact Hr|]. intros a Ha. eapply g_bind; [exact Hr|]. intros b Hb. cbv zeta.
    destruct (slt _ _); auto. apply g_ret. cbn [fst snd]. rs. split; [lra|]. apply Rabs_le. lra.
  Qed.
  Lemma g_gpos : forall t a k, gives (gamma_pos rn fuel t a k) (fun xy => 0 < fst xy).
  Proof.
    intros t a k. induction k; cbn [gamma_pos]; [apply g_more|]. eapply g_bind; [apply g_disk, g_rn|]. intros [x y] [H1 _]. cbn [fst] in H1.
    eapply g_bind; [apply (g_div y x (fun _ => True)); auto; lra|]. intros z _. cbv zeta. change (@sle R _) with Rleb. rs. destruct (Rleb_spec (t * z + a) 0); auto. apply g_ret. cbn [fst]. lra.
  Qed.
  Lemma g_gbig : forall t a k, gives (gamma_big rn log exp fuel t a k) (fun x => 0 < x).
  Proof.
    intros t a k. induction k; cbn [gamma_big]; [apply g_more|]. eapply g_bind; [apply g_gpos|]. intros [x y] H. cbn [fst] in H. cbv zeta. destruct (slt _ _); auto.
    eapply g_bind; [apply g_rn|]. intros r _. destruct (slt _ _); auto. apply g_ret. auto.
  Qed.
  Lemma ln_le0 : forall x, 0 < x <= 1 -> ln x <= 0.
  Proof. intros x [H1 H2]. destruct H2 as [H2| ->]; [|rewrite ln_1; lra]. left. rewrite <- ln_1. apply ln_increasing; lra. Qed.
  Lemma g_gsmall : forall t a k, 0 < a -> gives (gamma_small rn log exp pow t a k) (fun x => 0 <= x).
  Proof.
    intros t a k Ha. induction k; cbn [gamma_small]; [apply g_more|]. eapply g_bind; [apply g_rn|]. intros r _.
    eapply (g_bind _ _ (fun xy => 0 <= fst xy)).
    - destruct (slt r t).
      + eapply g_bind; [apply g_rn|]. intros s Hs. cbv zeta. apply g_ret. cbn [fst]. rs. destruct (Req_dec s 0) as [->|].
        * rewrite Hpow0; [lra|]. unfold Rdiv. rewrite Rmult_1_l. apply Rinv_0_lt_compat; auto.
        * rewrite Hpow by lra. left. apply exp_pos.
      + eapply g_bind; [apply g_rn|]. intros s Hs. cbv zeta. apply g_ret. cbn [fst]. rs. rewrite Hlog by lra. pose proof (ln_le0 (1 - s) ltac:(lra)). lra.
    - intros xy Hxy. eapply g_bind; [apply g_rn|]. intros r2 _. destruct (sle _ _); auto. apply g_ret. auto.
  Qed.
  Local Notation gam := (zRandGamma rn log exp pow zE fuel).
  Lemma g_gamma : forall a, 0 < a -> gives (gam a) (fun x => 0 <= x /\ (1 < a -> 0 < x)).
  Proof.
    intros a Ha. unfold zRandGamma. change (@slt R _) with Rltb. rs. destruct (Rltb_spec 1 a).
    - eapply g_weak; [apply g_gbig|]. cbn. intros; lra.
    - eapply g_weak; [apply g_gsmall; auto|]. cbn. intros; lra.
  Qed.
  Lemma g_chi : forall nu, 0 < nu -> gives (zRandChiSqr rn log exp pow zE fuel nu) (fun x => 0 <= x /\ (2 < nu -> 0 < x)).
  Proof.
    intros nu Hnu. unfold zRandChiSqr. eapply g_bind; [apply g_gamma; rs; lra|]. intros g Hg. apply g_ret. rs. split; [lra|]. intros. destruct Hg as [_ Hg]. specialize (Hg ltac:(lra)). lra.
  Qed.
  Lemma g_nd : forall last, gives (zRandND0 ru log sin cos pix2 last) (fun _ => True).
  Proof. intros [x|]; cbn [zRandND0]; [apply g_ret; auto|]. eapply g_bind; [apply g_ru|]. intros. eapply g_bind; [apply g_ru|]. intros. apply g_ret. auto. Qed.
  Lemma g_tsmall : forall n k, 0 < n -> gives (t_small rn log exp pow zE ztol fuel n k) (fun a => 0 < a).
  Proof.
    intros n k H0. induction k; cbn [t_small]; [apply g_more|]. eapply g_bind; [apply g_chi; auto|]. intros a [Ha _]. rewrite is_tol_R. destruct (Rleb_spec (Rabs a) ztol); auto. apply g_ret.
    rewrite Rabs_right in * by lra. lra.
  Qed.
  Lemma g_tbig : forall n last k, gives (t_big ru log exp sin cos pix2 n last k) (fun abl => snd (fst abl) < 1).
  Proof.
    intros n last k. revert last. induction k; intros last; cbn [t_big]; [apply g_more|]. eapply g_bind; [apply g_nd|]. intros [a l] _. cbv zeta. eapply g_bind; [apply g_ru|]. intros r _.
    change (@slt R _) with Rltb. match goal with |- context [Rltb ?x ?y] => destruct (Rltb_spec x y) as [|H] end; auto. apply g_ret. cbn [fst snd]. rs.
    match type of H with ~ _ < exp ?e => pose proof (exp_pos e) end. rs. lra.
  Qed.
  Lemma g_t : forall n last, 0 < n -> gives (zRandT rn ru log exp sin cos pow zE pix2 ztol fuel n last) (fun _ => True).
  Proof.
    intros n last H0. unfold zRandT. change (@sle R _) with Rleb. rs. destruct (Rleb_spec n 2).
    - eapply g_bind; [apply g_tsmall; auto|]. intros a Ha. eapply g_bind; [apply g_nd|]. intros [x l] _. eapply (g_bind _ _ (fun _ => True)).
      + apply g_div; auto. rs. apply Rgt_not_eq, sqrt_lt_R0. apply Rmult_lt_0_compat; [auto|]. apply Rinv_0_lt_compat; auto.
      + intros. apply g_ret; auto.
    - eapply g_bind; [apply g_tbig|]. intros [[a b] l] Hb. cbn [fst snd] in Hb. eapply (g_bind _ _ (fun _ => True)).
      + apply g_div; auto. rs. apply Rgt_not_eq, sqrt_lt_R0. apply Rmult_lt_0_compat; [|lra]. assert (2 / n < 1); [|lra].
        apply (Rmult_lt_reg_r n); [lra|]. unfold Rdiv. rewrite Rmult_assoc, Rinv_l by lra. lra.
      + intros. apply g_ret; auto.
  Qed.
  Lemma g_exp : gives (zRandExp ru log) (fun x => 0 <= x).
  Proof. unfold zRandExp. eapply g_bind; [apply g_ru|]. intros r Hr. apply g_ret. rs. rewrite Hlog by lra. pose proof (ln_le0 (1 - r) ltac:(lra)). lra. Qed.
  Lemma g_log : gives (zRandLog ru log ztol fuel) (fun _ => True).
  Proof.
    unfold zRandLog. eapply (g_bind _ _ (fun r => 0 <= r < 1)).
    - induction fuel as [|k IH]; cbn [nottiny]; [apply g_more|]. eapply g_bind; [apply g_ru|]. intros r Hr. destruct (is_tol ztol r); auto. apply g_ret. auto.
    - intros r Hr. eapply (g_bind _ _ (fun _ => True)); [apply g_div; auto; rs; lra|]. intros. apply g_ret. auto.
  Qed.
  Lemma g_power : forall n, -1 < n -> gives (zRandPower ru pow n) (fun x => 0 <= x <= 1).
  Proof.
    intros n H. unfold zRandPower. eapply g_bind; [apply g_ru|]. intros r Hr. eapply (g_bind _ _ (fun e => 0 < e)).
    - apply g_div; rs; [lra|]. unfold Rdiv. rewrite Rmult_1_l. apply Rinv_0_lt_compat. lra.
    - intros e He. apply g_ret. destruct (Req_dec r 0) as [->|]; [rewrite Hpow0 by auto; lra|]. rewrite Hpow by lra. split; [left; apply exp_pos|].
      unfold Rpower. rewrite <- exp_0. assert (e * ln r <= 0). { pose proof (ln_le0 r ltac:(lra)). assert (0 <= e * - ln r) by (apply Rmult_le_pos; lra). lra. }
      destruct H1 as [H1| ->]; [left; apply exp_increasing; auto|lra].
  Qed.
  Lemma g_tri : gives (zRandTri rn) (fun x => -1 < x < 1).
  Proof. unfold zRandTri. eapply g_bind; [apply g_rn|]. intros a Ha. eapply g_bind; [apply g_rn|]. intros b Hb. apply g_ret. rs. lra. Qed.
  Lemma g_cauchy : gives (zRandCauchy rf fuel) (fun _ => True).
  Proof. unfold zRandCauchy. eapply g_bind; [apply g_disk, g_rf|]. intros [x y] [H _]. cbn [fst] in H. apply g_div; auto. lra. Qed.
  Lemma g_weibull : forall al, 0 < al -> gives (zRandWeibull ru log pow al) (fun x => 0 <= x).
  Proof.
    intros al H. unfold zRandWeibull. eapply g_bind; [apply g_ru|]. intros r Hr. eapply (g_bind _ _ (fun e => 0 < e)).
    - apply g_div; rs; [lra|]. unfold Rdiv. rewrite Rmult_1_l. apply Rinv_0_lt_compat. lra.
    - intros e He. apply g_ret. rs. rewrite Hlog by lra. pose proof (ln_le0 (1 - r) ltac:(lra)). destruct (Req_dec (ln (1 - r)) 0) as [->|].
      + rewrite Ropp_0, Hpow0; auto. lra.
      + rewrite Hpow by lra. left. apply exp_pos.
  Qed.
  Lemma g_beta : forall a b p, 0 < a -> 0 < b -> match zRandBeta rn log exp pow zE fuel a b p with
    | Val x _ => 0 <= x <= 1 | More => True
    | Div0 => a <= 1 /\ b <= 1 end.
  Proof.
    intros a b p Ha Hb. unfold zRandBeta. pose proof (g_gamma a Ha p) as G. unfold abind. destruct (gam a p) as [x q| |]; auto; [|contradiction].
    pose proof (g_gamma b Hb q) as G2. destruct (gam b q) as [y q2| |]; auto; [|contradiction]. destruct G as [G G'], G2 as [G2 G2']. unfold sdivd. change (@seq R _) with Reqb. rs. destruct (Reqb_spec (x + y) 0).
    - split; [destruct (Rle_dec a 1); auto; specialize (G' ltac:(lra)); lra|]. destruct (Rle_dec b 1); auto; specialize (G2' ltac:(lra)); lra.
    - split; [apply Rmult_le_pos; [lra|left; apply Rinv_0_lt_compat; lra]|]. apply (Rmult_le_reg_r (x + y)); [lra|]. unfold Rdiv. rewrite Rmult_assoc, Rinv_l by lra. lra.
  Qed.
  Lemma g_fd : forall a b p, 0 < a -> 0 < b -> match zRandFD rn log exp pow zE fuel a b p with
    | Val x _ => 0 <= x | More => True
    | Div0 => b <= 2 end.
  Proof.
    intros a b p Ha Hb. unfold zRandFD. pose proof (g_chi a Ha p) as G. unfold abind. destruct (zRandChiSqr _ _ _ _ _ _ a p) as [x q| |]; auto; [|contradiction].
    pose proof (g_chi b Hb q) as G2. destruct (zRandChiSqr _ _ _ _ _ _ b q) as [y q2| |]; auto; [|contradiction]. destruct G as [G _], G2 as [G2 G2']. unfold sdivd. change (@seq R _) with Reqb. rs. destruct (Reqb_spec (y * a) 0).
    - destruct (Rle_dec b 2); auto. specialize (G2' ltac:(lra)). assert (0 < y * a) by (apply Rmult_lt_0_compat; auto). lra.
    - apply Rmult_le_pos; [apply Rmult_le_pos; lra|]. left. apply Rinv_0_lt_compat. assert (0 <= y * a) by (apply Rmult_le_pos; lra). lra.
  Qed.

  (** exact descriptions *)
  Lemma binom_ok : forall n p r q, binom rn n p r q = Val (r + length (filter (fun k => Rltb (rn k) p) (List.seq q n)))%nat (q + n)%nat.
  Proof.
    clear. induction n; intros p r q; cbn [binom List.seq filter length]. { unfold ret. now rewrite !Nat.add_0_r. }
    unfold abind, zRandMTN. rewrite IHn. change (@slt R _) with Rltb. destruct (Rltb (rn q) p); cbn [length]; f_equal; lia.
  Qed.
  Fixpoint prod (q n : nat) : R := match n with O => 1 | S n => prod q n * rf (q + n)%nat end.
  Lemma prod_S : forall n q, prod q (S n) = rf q * prod (S q) n.
  Proof. clear. induction n; intros q. - cbn [prod]. rewrite Nat.add_0_r. lra. - cbn [prod] in *. rewrite IHn. replace (S q + n)%nat with (q + S n)%nat by lia. lra. Qed.
  Lemma poisson_ok : forall k lam i q, match poisson rf lam i k q with
    | Val j q' => (i <= j)%nat /\ q' = (q + (j - i))%nat /\ lam * prod q (j - i) <= 1 /\ forall m, (m < j - i)%nat -> 1 < lam * prod q m
    | Div0 => False | More => forall m, (m < k)%nat -> 1 < lam * prod q m end.
  Proof.
    clear. induction k; intros lam i q; cbn [poisson]. { unfold more. intros; lia. }
    change (@slt R _) with Rltb. rs. destruct (Rltb_spec 1 lam).
    - unfold abind, zRandMTF01. specialize (IHk (lam * rf q) (S i) (S q)). change (@smul R _) with Rmult. destruct (poisson rf (lam * rf q) (S i) k (S q)) as [j q'| |]; auto.
      + destruct IHk as [A [B [C D]]]. split; [lia|]. split; [lia|]. assert (E : (j - i = S (j - S i))%nat) by lia. rewrite E. split.
        * rewrite prod_S. lra.
        * intros [|m] Hm; [cbn [prod]; lra|]. rewrite prod_S. specialize (D m ltac:(lia)). lra.
      + intros [|m] Hm; [cbn [prod]; lra|]. rewrite prod_S. specialize (IHk m ltac:(lia)). lra.
    - unfold ret. split; [lia|]. replace (i - i)%nat with 0%nat by lia. cbn [prod]. split; [lia|]. split; [lra|]. intros; lia.
  Qed.
  Lemma geo_ok : forall p q, 0 < p < 1 -> exists k, zRandGeo ru log ceil p q = Val k (S q) /\ (0 <= k)%Z /\
    Rpower (1 - p) (IZR k) <= 1 - ru q < Rpower (1 - p) (IZR k - 1).
  Proof.
    intros p q Hp. unfold zRandGeo, abind, zRandMTNU, sdivd, ret. rs. change (@seq R _) with Reqb. pose proof (Hu q) as H1. rewrite !Hlog by lra. set (L := ln (1 - p)). set (l := ln (1 - ru q)).
    assert (HL : L < 0) by (unfold L; rewrite <- ln_1; apply ln_increasing; lra). assert (Hl : l <= 0) by (apply ln_le0; lra).
    destruct (Reqb_spec L 0); [lra|]. eexists. split; [reflexivity|]. set (x := l / L). destruct (Hceil x) as [C1 C2].
    assert (Hx : 0 <= x). { unfold x. replace (l / L) with (- l * / - L) by (field; lra). apply Rmult_le_pos; [lra|]. left. apply Rinv_0_lt_compat. lra. }
    assert (Ex : exp (x * L) = 1 - ru q). { unfold x. replace (l / L * L) with l by (field; lra). apply exp_ln. lra. }
    split; [apply le_IZR; lra|]. unfold Rpower. fold L. rewrite <- Ex. split.
    - destruct (Req_dec (IZR (ceil x)) x) as [->|]; [lra|]. left. apply exp_increasing. assert (0 < (IZR (ceil x) - x) * - L) by (apply Rmult_lt_0_compat; lra). lra.
    - apply exp_increasing. assert (0 < (x - (IZR (ceil x) - 1)) * - L) by (apply Rmult_lt_0_compat; lra). lra.
  Qed.
  Lemma g_ring : forall k, gives (ring ru ztol k) (fun abs => let '(a, b, s) := abs in s = a * a + b * b /\ ztol < s <= 1).
  Proof.
    induction k; cbn [ring]; [apply g_more|]. eapply g_bind; [apply g_ru|]. intros a Ha. eapply g_bind; [apply g_ru|]. intros b Hb. cbv zeta. change (@slt R _) with Rltb. rewrite is_tol_R. rs.
    set (s := (2 * a - 1) * (2 * a - 1) + (2 * b - 1) * (2 * b - 1)). destruct (Rltb_spec 1 s); cbn [orb]; auto. destruct (Rleb_spec (Rabs s) ztol); auto. apply g_ret. split; auto.
    assert (0 <= s). { unfold s. pose proof (Rle_0_sqr (2 * a - 1)). pose proof (Rle_0_sqr (2 * b - 1)). unfold Rsqr in *. lra. } rewrite Rabs_right in * by lra. lra.
  Qed.
  Lemma g_binom2 : forall r, -1 < r < 1 -> gives (zRandBinom2 ru log ztol fuel r) (fun xy => exists s, ztol < s <= 1 /\
    (fst xy + snd xy) * (fst xy + snd xy) / (1 + r) + (fst xy - snd xy) * (fst xy - snd xy) / (1 - r) = - 4 * ln s).
  Proof.
    intros r Hr. unfold zRandBinom2. eapply g_bind; [apply g_ring|]. intros [[a b] s] [Es Hs]. cbv zeta. apply g_ret. cbn [fst snd]. exists s. split; auto. rs. rewrite Hlog by lra.
    assert (Hq : 0 <= - ln s / s). { apply Rmult_le_pos; [pose proof (ln_le0 s ltac:(lra)); lra|]. left. apply Rinv_0_lt_compat. lra. } set (q := - ln s / s) in *.
    set (u := sqrt ((1 + r) * q)). set (v := sqrt ((1 - r) * q)).
    assert (U : u * u = (1 + r) * q) by (apply sqrt_sqrt; apply Rmult_le_pos; lra). assert (V : v * v = (1 - r) * q) by (apply sqrt_sqrt; apply Rmult_le_pos; lra).
    replace ((u * a + v * b + (u * a - v * b)) * (u * a + v * b + (u * a - v * b))) with (4 * (u * u) * (a * a)) by ring.
    replace ((u * a + v * b - (u * a - v * b)) * (u * a + v * b - (u * a - v * b))) with (4 * (v * v) * (b * b)) by ring.
    rewrite U, V. replace (4 * ((1 + r) * q) * (a * a) / (1 + r) + 4 * ((1 - r) * q) * (b * b) / (1 - r)) with (4 * (q * (a * a + b * b))) by (field; lra). rewrite <- Es. unfold q. field. lra.
  Qed.
End Rand.
