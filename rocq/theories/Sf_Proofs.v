(** Taylor series with remainders; the loops of the error function and of the Fresnel integrals. *)
From Coq Require Import Reals Lra Lia List Arith ZArith.
From Verif Require Import Prelude Scalar RealLib Sf_Model.
Local Open Scope R_scope.

Lemma dlext (f g : R -> R) x l : (forall t, f t = g t) -> derivable_pt_lim f x l -> derivable_pt_lim g x l.
Proof. intros E H e He. destruct (H e He) as (d & Hd). exists d. intros h. rewrite <- !E. apply Hd. Qed.
Lemma mono (h h' : R -> R) x : 0 <= x -> (forall c, 0 <= c <= x -> derivable_pt_lim h c (h' c)) -> (forall c, 0 <= c <= x -> 0 <= h' c) -> h 0 <= h x.
Proof.
  intros Hx D P. destruct (Req_dec x 0) as [->|]; [lra|]. destruct (MVT_cor2 h h' 0 x) as (c & E & Hc); [lra|auto|]. specialize (P c ltac:(lra)). nra.
Qed.
Lemma cmp (f f' g g' : R -> R) x : 0 <= x -> f 0 = 0 -> g 0 = 0 -> (forall c, 0 <= c <= x -> derivable_pt_lim f c (f' c)) ->
  (forall c, 0 <= c <= x -> derivable_pt_lim g c (g' c)) -> (forall c, 0 <= c <= x -> Rabs (f' c) <= g' c) -> Rabs (f x) <= g x.
Proof.
  intros Hx f0 g0 Df Dg B. apply Rabs_le. split.
  - assert (g 0 + f 0 <= g x + f x); [|lra]. apply (mono (fun x => g x + f x) (fun x => g' x + f' x)); auto.
    + intros c Hc. apply (derivable_pt_lim_plus g f); auto.
    + intros c Hc. specialize (B c Hc). revert B; unfold Rabs; destruct (Rcase_abs _); lra.
  - assert (g 0 - f 0 <= g x - f x); [|lra]. apply (mono (fun x => g x - f x) (fun x => g' x - f' x)); auto.
    + intros c Hc. apply (derivable_pt_lim_minus g f); auto.
    + intros c Hc. specialize (B c Hc). revert B; unfold Rabs; destruct (Rcase_abs _); lra.
Qed.
Lemma dsum N (f f' : nat -> R -> R) t : (forall k, (k < N)%nat -> derivable_pt_lim (f k) t (f' k t)) -> derivable_pt_lim (fun t => rsum N (fun k => f k t)) t (rsum N (fun k => f' k t)).
Proof. intros H. induction N as [|N IH]; [apply derivable_pt_lim_const|]. cbn [rsum]. apply (derivable_pt_lim_plus (fun t => rsum N (fun k => f k t)) (f N)); auto. Qed.
Lemma factS n : INR (fact (S n)) = INR (S n) * INR (fact n).
Proof. rewrite fact_simpl, mult_INR. reflexivity. Qed.
Lemma fpos n : 0 < INR (fact n). Proof. apply INR_fact_lt_0. Qed.
Lemma dmon n k t : derivable_pt_lim (fun t => k * (t ^ (S n) / INR (fact (S n)))) t (k * (t ^ n / INR (fact n))).
Proof.
  apply (derivable_pt_lim_scal (fun t => t ^ S n / INR (fact (S n)))). apply (dlext (fun t => / INR (fact (S n)) * t ^ S n)); [intros; unfold Rdiv; ring|].
  replace (t ^ n / INR (fact n)) with (/ INR (fact (S n)) * (INR (S n) * t ^ Nat.pred (S n))).
  - apply (derivable_pt_lim_scal (fun t => t ^ S n)). apply derivable_pt_lim_pow.
  - rewrite factS. cbn [Nat.pred]. pose proof (fpos n). pose proof (lt_0_INR (S n) ltac:(lia)). field. split; lra.
Qed.
Lemma dmon1 n t : derivable_pt_lim (fun t => t ^ (S n) / INR (fact (S n))) t (t ^ n / INR (fact n)).
Proof. apply (dlext (fun t => 1 * (t ^ (S n) / INR (fact (S n))))); [intros; ring|]. replace (t ^ n / INR (fact n)) with (1 * (t ^ n / INR (fact n))) by ring. apply dmon. Qed.

(** ** Taylor polynomials *)
Definition Tc q y := rsum q (fun k => (-1) ^ k * (y ^ (2 * k) / INR (fact (2 * k)))).
Definition Ts q y := rsum q (fun k => (-1) ^ k * (y ^ S (2 * k) / INR (fact (S (2 * k))))).
Definition Te q y := rsum q (fun k => (-1) ^ k * (y ^ k / INR (fact k))).
Lemma d_Ts q y : derivable_pt_lim (Ts q) y (Tc q y).
Proof. apply (dsum q (fun k y => (-1) ^ k * (y ^ S (2 * k) / INR (fact (S (2 * k))))) (fun k y => (-1) ^ k * (y ^ (2 * k) / INR (fact (2 * k))))). intros k _. apply dmon. Qed.
Lemma Tc_S q y : Tc (S q) y = 1 - rsum q (fun k => (-1) ^ k * (y ^ S (S (2 * k)) / INR (fact (S (S (2 * k)))))).
Proof.
  induction q as [|q IH]. { unfold Tc. cbn [rsum]. cbn. lra. }
  unfold Tc in *. cbn [rsum] in *. rewrite IH. replace (2 * S q)%nat with (S (S (2 * q))) by lia. cbn [pow]. ring.
Qed.
Lemma d_Tc q y : derivable_pt_lim (Tc (S q)) y (- Ts q y).
Proof.
  apply (dlext (fun y => 1 - rsum q (fun k => (-1) ^ k * (y ^ S (S (2 * k)) / INR (fact (S (S (2 * k)))))))); [intros; symmetry; apply Tc_S|].
  replace (- Ts q y) with (0 - Ts q y) by ring. apply (derivable_pt_lim_minus (fun _ => 1)); [apply derivable_pt_lim_const|].
  apply (dsum q (fun k y => (-1) ^ k * (y ^ S (S (2 * k)) / INR (fact (S (S (2 * k)))))) (fun k y => (-1) ^ k * (y ^ S (2 * k) / INR (fact (S (2 * k)))))). intros k _. apply dmon.
Qed.
Lemma Te_S q y : Te (S q) y = 1 - rsum q (fun k => (-1) ^ k * (y ^ S k / INR (fact (S k)))).
Proof.
  induction q as [|q IH]. { unfold Te. cbn [rsum]. cbn. lra. }
  unfold Te in *. cbn [rsum] in *. rewrite IH. cbn [pow]. ring.
Qed.
Lemma d_Te q y : derivable_pt_lim (Te (S q)) y (- Te q y).
Proof.
  apply (dlext (fun y => 1 - rsum q (fun k => (-1) ^ k * (y ^ S k / INR (fact (S k)))))); [intros; symmetry; apply Te_S|].
  replace (- Te q y) with (0 - Te q y) by ring. apply (derivable_pt_lim_minus (fun _ => 1)); [apply derivable_pt_lim_const|].
  apply (dsum q (fun k y => (-1) ^ k * (y ^ S k / INR (fact (S k)))) (fun k y => (-1) ^ k * (y ^ k / INR (fact k)))). intros k _. apply dmon.
Qed.
Lemma Ts_0 q : Ts q 0 = 0. Proof. apply rsum_0. intros. cbn [pow]. unfold Rdiv. ring. Qed.
Lemma Tc_0 q : Tc (S q) 0 = 1. Proof. rewrite Tc_S, rsum_0; [ring|]. intros. cbn [pow]. unfold Rdiv. ring. Qed.
Lemma Te_0 q : Te (S q) 0 = 1. Proof. rewrite Te_S, rsum_0; [ring|]. intros. cbn [pow]. unfold Rdiv. ring. Qed.
Lemma trig_rem q : (forall y, 0 <= y -> Rabs (cos y - Tc q y) <= y ^ (2 * q) / INR (fact (2 * q))) /\
  (forall y, 0 <= y -> Rabs (sin y - Ts q y) <= y ^ S (2 * q) / INR (fact (S (2 * q)))).
Proof.
  assert (St : forall q, (forall y, 0 <= y -> Rabs (cos y - Tc q y) <= y ^ (2 * q) / INR (fact (2 * q))) -> forall y, 0 <= y -> Rabs (sin y - Ts q y) <= y ^ S (2 * q) / INR (fact (S (2 * q)))).
  { clear q. intros q H y Hy. apply (cmp (fun y => sin y - Ts q y) (fun y => cos y - Tc q y) (fun y => y ^ S (2 * q) / INR (fact (S (2 * q)))) (fun y => y ^ (2 * q) / INR (fact (2 * q)))); auto.
    - rewrite sin_0, Ts_0. ring.
    - cbn [pow]. unfold Rdiv. ring.
    - intros c _. apply (derivable_pt_lim_minus sin); [apply derivable_pt_lim_sin|apply d_Ts].
    - intros c _. apply dmon1.
    - intros c Hc. apply H. lra. }
  induction q as [|q [IHc IHs]].
  - assert (H : forall y, 0 <= y -> Rabs (cos y - Tc 0 y) <= y ^ (2 * 0) / INR (fact (2 * 0))); [|split; auto].
    intros y _. unfold Tc. cbn. pose proof (COS_bound y). apply Rabs_le. lra.
  - assert (H : forall y, 0 <= y -> Rabs (cos y - Tc (S q) y) <= y ^ (2 * S q) / INR (fact (2 * S q))); [|split; [exact H|apply St; exact H]].
    intros y Hy. replace (2 * S q)%nat with (S (S (2 * q))) by lia.
    apply (cmp (fun y => cos y - Tc (S q) y) (fun y => - sin y - - Ts q y) (fun y => y ^ S (S (2 * q)) / INR (fact (S (S (2 * q))))) (fun y => y ^ S (2 * q) / INR (fact (S (2 * q))))); auto.
    + rewrite cos_0, Tc_0. ring.
    + cbn [pow]. unfold Rdiv. ring.
    + intros c _. apply (derivable_pt_lim_minus cos); [apply derivable_pt_lim_cos|apply d_Tc].
    + intros c _. apply dmon1.
    + intros c Hc. replace (- sin c - - Ts q c) with (- (sin c - Ts q c)) by ring. rewrite Rabs_Ropp. apply IHs. lra.
Qed.
Lemma d_expm y : derivable_pt_lim (fun y => exp (- y)) y (- exp (- y)).
Proof.
  replace (- exp (- y)) with (exp (- y) * - 1) by ring. apply (derivable_pt_lim_comp (fun y => - y) exp); [apply (derivable_pt_lim_opp (fun y => y)), derivable_pt_lim_id|apply derivable_pt_lim_exp].
Qed.
Lemma exp_rem q : forall y, 0 <= y -> Rabs (exp (- y) - Te q y) <= y ^ q / INR (fact q).
Proof.
  induction q as [|q IH]; intros y Hy.
  - unfold Te. cbn. assert (0 < exp (- y)) by apply exp_pos. assert (exp (- y) <= 1); [|apply Rabs_le; lra].
    rewrite <- exp_0. destruct (Req_dec y 0) as [->|]; [rewrite Ropp_0; lra|]. left. apply exp_increasing. lra.
  - apply (cmp (fun y => exp (- y) - Te (S q) y) (fun y => - exp (- y) - - Te q y) (fun y => y ^ S q / INR (fact (S q))) (fun y => y ^ q / INR (fact q))); auto.
    + rewrite Ropp_0, exp_0, Te_0. ring.
    + cbn [pow]. unfold Rdiv. ring.
    + intros c _. apply (derivable_pt_lim_minus (fun y => exp (- y))); [apply d_expm|apply d_Te].
    + intros c _. apply dmon1.
    + intros c Hc. replace (- exp (- c) - - Te q c) with (- (exp (- c) - Te q c)) by ring. rewrite Rabs_Ropp. apply IH. lra.
Qed.

(** ** the error function *)
Definition erf_sum n x := rsum n (fun i => (-1) ^ i * x ^ S (2 * i) / (INR (fact i) * INR (S (2 * i)))).
Lemma seq_sum (f : nat -> R) n a : fold_left (fun s i => s + f i) (List.seq 0 n) a = a + rsum n f.
Proof. induction n as [|n IH]; [cbn; lra|]. rewrite seq_S, fold_left_app, IH. cbn. ring. Qed.
Lemma pow2 (x : R) i : (x * x) ^ i = x ^ (2 * i). Proof. rewrite pow_mult. f_equal. ring. Qed.
Lemma inner_pow x2 i : fold_left (fun d j => d * (- x2 / IZR (Z.of_nat j))) (List.seq 1 i) 1 = (-1) ^ i * x2 ^ i / INR (fact i).
Proof.
  induction i as [|i IH]; [cbn; lra|]. rewrite seq_S, fold_left_app, IH. cbn [fold_left]. rewrite <- INR_IZR_INZ, factS. cbn [pow]. replace (1 + i)%nat with (S i) by lia.
  pose proof (fpos i). pose proof (lt_0_INR (S i) ltac:(lia)). field. split; lra.
Qed.
Lemma zErfN_R pi x n : zErfN pi x n = 2 / sqrt pi * erf_sum (Z.to_nat (n + 1)) x.
Proof.
  unfold zErfN. cbn [sadd smul sdiv sopp sofZ ssqrt s0 s1 RealS]. rewrite (seq_sum (fun i => fold_left (fun d j => d * (- (x * x) / IZR (Z.of_nat j))) (List.seq 1 i) 1 * x / IZR (Z.of_nat (2 * i + 1)))).
  rewrite Rplus_0_l. match goal with |- 2 * ?X / ?p = _ => replace (2 * X / p) with (2 / p * X) by (unfold Rdiv; ring) end. f_equal. apply rsum_ext. intros i _.
  rewrite inner_pow, <- INR_IZR_INZ. replace (2 * i + 1)%nat with (S (2 * i)) by lia. rewrite pow2. cbn [pow]. pose proof (fpos i). pose proof (lt_0_INR (S (2 * i)) ltac:(lia)). field. split; lra.
Qed.
Lemma d_xterm (c : R) m i t : 0 < c -> derivable_pt_lim (fun t => m * t ^ S i / (c * INR (S i))) t (m * t ^ i / c).
Proof.
  intros Hc. apply (dlext (fun t => m / (c * INR (S i)) * t ^ S i)); [intros; unfold Rdiv; ring|].
  replace (m * t ^ i / c) with (m / (c * INR (S i)) * (INR (S i) * t ^ Nat.pred (S i))).
  - apply (derivable_pt_lim_scal (fun t => t ^ S i)). apply derivable_pt_lim_pow.
  - cbn [Nat.pred]. pose proof (lt_0_INR (S i) ltac:(lia)). field. split; lra.
Qed.
Lemma d_erf_sum n t : derivable_pt_lim (erf_sum n) t (Te n (t * t)).
Proof.
  unfold Te. rewrite (rsum_ext n _ (fun i => (-1) ^ i * t ^ (2 * i) / INR (fact i))) by (intros; rewrite pow2; unfold Rdiv; ring).
  apply (dsum n (fun i x => (-1) ^ i * x ^ S (2 * i) / (INR (fact i) * INR (S (2 * i)))) (fun i t => (-1) ^ i * t ^ (2 * i) / INR (fact i))).
  intros k _. apply (d_xterm (INR (fact k)) ((-1) ^ k) (2 * k)). apply fpos.
Qed.
Lemma erf_sum_err (E : R -> R) n x : 0 <= x -> E 0 = 0 -> (forall t, 0 <= t -> derivable_pt_lim E t (exp (- (t * t)))) ->
  Rabs (E x - erf_sum n x) <= x ^ S (2 * n) / (INR (fact n) * INR (S (2 * n))).
Proof.
  intros Hx E0 D. apply (cmp (fun x => E x - erf_sum n x) (fun t => exp (- (t * t)) - Te n (t * t)) (fun x => x ^ S (2 * n) / (INR (fact n) * INR (S (2 * n)))) (fun x => (x * x) ^ n / INR (fact n))); auto.
  - rewrite E0. unfold erf_sum. rewrite rsum_0; [ring|]. intros. cbn [pow]. unfold Rdiv. ring.
  - cbn [pow]. unfold Rdiv. ring.
  - intros c Hc. apply (derivable_pt_lim_minus E); [apply D; lra|apply d_erf_sum].
  - intros c _. rewrite pow2. apply (dlext (fun t => 1 * t ^ S (2 * n) / (INR (fact n) * INR (S (2 * n))))); [intros; unfold Rdiv; ring|].
    replace (c ^ (2 * n) / INR (fact n)) with (1 * c ^ (2 * n) / INR (fact n)) by (unfold Rdiv; ring). apply d_xterm, fpos.
  - intros c Hc. apply exp_rem. nra.
Qed.
Lemma erf_sum_odd n x : erf_sum n (- x) = - erf_sum n x.
Proof.
  unfold erf_sum. induction n as [|n IH]; cbn [rsum]; [ring|]. rewrite IH. replace ((- x) ^ S (2 * n)) with (- x ^ S (2 * n)); [unfold Rdiv; ring|].
  cbn [pow]. rewrite <- !(pow2 _ n). replace (- x * - x) with (x * x) by ring. ring.
Qed.

(** ** the series of the Fresnel integrals *)
(** partial sums with q terms *)
Definition Fs q x := rsum q (fun k => (-1) ^ k * (x * (PI / 2 * x * x) ^ S (2 * k)) / (INR (fact (S (2 * k))) * INR (S (2 * S (2 * k))))).
Definition Fc q x := rsum q (fun k => (-1) ^ k * (x * (PI / 2 * x * x) ^ (2 * k)) / (INR (fact (2 * k)) * INR (S (2 * (2 * k))))).
Lemma xpow (x a : R) j : x * (a * x * x) ^ j = a ^ j * x ^ S (2 * j).
Proof. rewrite Rmult_assoc, Rpow_mult_distr, pow2. cbn [pow]. ring. Qed.
Lemma apow (x a : R) j : (a * x * x) ^ j = a ^ j * x ^ (2 * j).
Proof. rewrite Rmult_assoc, Rpow_mult_distr, pow2. ring. Qed.
Lemma d_term (a m : R) j t : derivable_pt_lim (fun x => m * (x * (a * x * x) ^ j) / (INR (fact j) * INR (S (2 * j)))) t (m * ((a * t * t) ^ j / INR (fact j))).
Proof.
  apply (dlext (fun x => m * a ^ j * x ^ S (2 * j) / (INR (fact j) * INR (S (2 * j))))); [intros; rewrite xpow; unfold Rdiv; ring|].
  replace (m * ((a * t * t) ^ j / INR (fact j))) with (m * a ^ j * t ^ (2 * j) / INR (fact j)); [apply d_xterm, fpos|]. rewrite apow. unfold Rdiv. ring.
Qed.
Lemma d_term1 (a : R) j t : derivable_pt_lim (fun x => x * (a * x * x) ^ j / (INR (fact j) * INR (S (2 * j)))) t ((a * t * t) ^ j / INR (fact j)).
Proof. apply (dlext (fun x => 1 * (x * (a * x * x) ^ j) / (INR (fact j) * INR (S (2 * j))))); [intros; unfold Rdiv; ring|]. replace ((a * t * t) ^ j / INR (fact j)) with (1 * ((a * t * t) ^ j / INR (fact j))) by ring. apply d_term. Qed.
Lemma d_Fs q t : derivable_pt_lim (Fs q) t (Ts q (PI / 2 * t * t)).
Proof.
  apply (dsum q (fun k x => (-1) ^ k * (x * (PI / 2 * x * x) ^ S (2 * k)) / (INR (fact (S (2 * k))) * INR (S (2 * S (2 * k))))) (fun k t => (-1) ^ k * ((PI / 2 * t * t) ^ S (2 * k) / INR (fact (S (2 * k)))))).
  intros k _. apply d_term.
Qed.
Lemma d_Fc q t : derivable_pt_lim (Fc q) t (Tc q (PI / 2 * t * t)).
Proof.
  apply (dsum q (fun k x => (-1) ^ k * (x * (PI / 2 * x * x) ^ (2 * k)) / (INR (fact (2 * k)) * INR (S (2 * (2 * k))))) (fun k t => (-1) ^ k * ((PI / 2 * t * t) ^ (2 * k) / INR (fact (2 * k))))).
  intros k _. apply d_term.
Qed.
Section Err.
  Variables (SS CC : R -> R).
  Hypothesis (S0 : SS 0 = 0) (C0 : CC 0 = 0).
  Hypothesis (DS : forall t, derivable_pt_lim SS t (sin (PI / 2 * t * t))) (DC : forall t, derivable_pt_lim CC t (cos (PI / 2 * t * t))).
  Definition bnd j x := x * (PI / 2 * x * x) ^ j / (INR (fact j) * INR (S (2 * j))).
  Lemma Fs_err q x : 0 <= x -> Rabs (SS x - Fs q x) <= bnd (S (2 * q)) x.
  Proof.
    intros Hx. apply (cmp (fun x => SS x - Fs q x) (fun t => sin (PI / 2 * t * t) - Ts q (PI / 2 * t * t)) (bnd (S (2 * q))) (fun t => (PI / 2 * t * t) ^ S (2 * q) / INR (fact (S (2 * q))))); auto.
    - rewrite S0. unfold Fs. rewrite rsum_0; [ring|]. intros. unfold Rdiv. ring.
    - unfold bnd, Rdiv. ring.
    - intros c _. apply (derivable_pt_lim_minus SS); [apply DS|apply d_Fs].
    - intros c _. apply d_term1.
    - intros c Hc. apply trig_rem. pose proof PI_RGT_0. assert (0 <= PI / 2 * c) by (apply Rmult_le_pos; lra). apply Rmult_le_pos; lra.
  Qed.
  Lemma Fc_err q x : 0 <= x -> Rabs (CC x - Fc q x) <= bnd (2 * q) x.
  Proof.
    intros Hx. apply (cmp (fun x => CC x - Fc q x) (fun t => cos (PI / 2 * t * t) - Tc q (PI / 2 * t * t)) (bnd (2 * q)) (fun t => (PI / 2 * t * t) ^ (2 * q) / INR (fact (2 * q)))); auto.
    - rewrite C0. unfold Fc. rewrite rsum_0; [ring|]. intros. unfold Rdiv. ring.
    - unfold bnd, Rdiv. ring.
    - intros c _. apply (derivable_pt_lim_minus CC); [apply DC|apply d_Fc].
    - intros c _. apply d_term1.
    - intros c Hc. apply trig_rem. pose proof PI_RGT_0. assert (0 <= PI / 2 * c) by (apply Rmult_le_pos; lra). apply Rmult_le_pos; lra.
  Qed.
End Err.
