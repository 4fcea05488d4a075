(** C125: the test of X-means by the Bayesian information criterion. *)
From Coq Require Import Reals Lra Lia List PrimFloat.
From Verif Require Import Prelude Prelude_Proofs Scalar RealLib Fmat LE_Model IP_Model Vop Stat_Model Cluster_Model Bic_Model.
Import ListNotations.
Local Open Scope R_scope.

Definition lsum {A} (f : A -> R) (l : list A) : R := fold_right Rplus 0 (map f l).
Section Spec.
  (** the square of the error of a point with respect to a core *)
  Variable E : fvec R -> fvec R -> R.
  Variable pt : nat -> fvec R.
  (** the normal density of the error with the variance of the cluster *)
  Definition normal (c : cluster) (x : fvec R) : R := exp (- E x (core c) / (2 * var c)) / sqrt (2 * PI * var c).
  (** log-likelihoods of the samples: one cluster, the even mixture of two *)
  Definition loglik1 (c : cluster) (l : list nat) : R := lsum (fun p => ln (normal c (pt p))) l.
  Definition loglik2 (c1 c2 : cluster) (l : list nat) : R := lsum (fun p => ln (1/2 * normal c1 (pt p) + 1/2 * normal c2 (pt p))) l.
End Spec.

Lemma lsum_app {A} (f : A -> R) l l' : lsum f (l ++ l') = lsum f l + lsum f l'.
Proof. unfold lsum. induction l; cbn; lra. Qed.
Lemma lsum_ext {A} (f g : A -> R) l : (forall a, In a l -> f a = g a) -> lsum f l = lsum g l.
Proof. intros H. unfold lsum. induction l; cbn; auto. rewrite H, IHl; auto; cbn; auto. intros; apply H; cbn; auto. Qed.
Lemma lsum_lin {A} (f : A -> R) l a b : lsum (fun x => a + b * f x) l = INR (length l) * a + b * lsum f l.
Proof.
  unfold lsum. induction l as [|x l IH]; [cbn; lra|]. change (length (x :: l)) with (S (length l)). rewrite S_INR. cbn [map fold_right] in *. rewrite IH. ring.
Qed.
Lemma Zof n : IZR (Z.of_nat n) = INR n.
Proof. symmetry. apply INR_IZR_INZ. Qed.

Lemma foreach_ok {A St} (f : A -> St -> res St) a l s s' : f a s = Ok s' -> foreach (a :: l) f s = foreach l f s'.
Proof. intros H. unfold foreach. cbn [fold_left bind]. now rewrite H. Qed.

Section Main.
  Variable E : fvec R -> fvec R -> R.
  Variable pt : nat -> fvec R.
  Variable errsq : fvec R -> fvec R -> res R.
  Hypothesis HE : forall x y, errsq x y = Ok (E x y).
  Local Notation normal := (normal E).
  Local Notation pdf c x := (exp (- / 2 * E x (core c) / var c) / sqrt (var c)).

  Lemma two_pi : 0 < 2 * PI. Proof. pose proof PI_RGT_0. lra. Qed.
  Lemma pdf_pos c x : 0 < var c -> 0 < pdf c x.
  Proof. intros V. apply Rdiv_lt_0_compat; [apply exp_pos|now apply sqrt_lt_R0]. Qed.
  Lemma normal_pdf c x : 0 < var c -> normal c x = pdf c x / sqrt (2 * PI).
  Proof.
    intros V. pose proof two_pi. unfold Bic_Props.normal. rewrite sqrt_mult by lra.
    replace (- E x (core c) / (2 * var c)) with (- / 2 * E x (core c) / var c) by (field; lra).
    field. split; apply Rgt_not_eq, sqrt_lt_R0; lra.
  Qed.
  Lemma ln_sqrt x : 0 < x -> ln (sqrt x) = / 2 * ln x.
  Proof.
    intros H. pose proof (sqrt_lt_R0 _ H). rewrite <- (sqrt_sqrt x) at 2 by lra. rewrite ln_mult by auto. lra.
  Qed.
  Lemma logsum_val c1 c2 l : forall ls, logsum exp ln (/ 2) errsq pt c1 c2 l ls = Ok (ls + lsum (fun p => ln (pdf c1 (pt p) + pdf c2 (pt p))) l).
  Proof.
    unfold logsum. induction l as [|p l IH]; intros ls.
    - unfold lsum, foreach. cbn. f_equal. lra.
    - erewrite foreach_ok by (unfold _zVecClusterXMeansPDF; rewrite !HE; reflexivity). rewrite IH. rs. f_equal. unfold lsum. cbn [map fold_right]. lra.
  Qed.
  Lemma loglik1_val c : 0 < var c -> var c = lsum (fun p => E (pt p) (core c)) (sam c) / INR (length (sam c)) -> sam c <> [] ->
    -2 * loglik1 E pt c (sam c) = INR (length (sam c)) * (ln (var c) + 1 + ln (2 * PI)).
  Proof.
    intros V Ev Ne. pose proof two_pi.
    assert (0 < INR (length (sam c))) as Nn by (apply lt_0_INR; destruct (sam c); cbn; [congruence|lia]).
    unfold loglik1. rewrite (lsum_ext _ (fun p => (- / 2 * ln (var c) - / 2 * ln (2 * PI)) + (- / 2 * / var c) * E (pt p) (core c))).
    - rewrite lsum_lin. set (S := lsum _ _) in *. assert (S = var c * INR (length (sam c))) as -> by (rewrite Ev; field; lra). field. lra.
    - intros p _. unfold Bic_Props.normal. unfold Rdiv at 1. rewrite ln_mult; [|apply exp_pos|apply Rinv_0_lt_compat, sqrt_lt_R0; apply Rmult_lt_0_compat; lra].
      rewrite ln_exp, ln_Rinv by (apply sqrt_lt_R0; apply Rmult_lt_0_compat; lra).
      rewrite ln_sqrt by (apply Rmult_lt_0_compat; lra). rewrite ln_mult by lra. field. lra.
  Qed.
  Lemma loglik2_val c1 c2 l : 0 < var c1 -> 0 < var c2 ->
    -2 * loglik2 E pt c1 c2 l = 2 * (INR (length l) * ln 2 - lsum (fun p => ln (pdf c1 (pt p) + pdf c2 (pt p))) l) + INR (length l) * ln (2 * PI).
  Proof.
    intros V1 V2. pose proof two_pi as TP. unfold loglik2.
    rewrite (lsum_ext _ (fun p => (- ln 2 - / 2 * ln (2 * PI)) + 1 * ln (pdf c1 (pt p) + pdf c2 (pt p)))).
    - rewrite lsum_lin. field.
    - intros p _. rewrite !normal_pdf by auto. pose proof (pdf_pos c1 (pt p) V1). pose proof (pdf_pos c2 (pt p) V2).
      pose proof (sqrt_lt_R0 _ TP). set (a := pdf c1 (pt p)) in *. set (b := pdf c2 (pt p)) in *.
      replace (1 / 2 * (a / sqrt (2 * PI)) + 1 / 2 * (b / sqrt (2 * PI))) with ((/ 2 * / sqrt (2 * PI)) * (a + b)) by (field; lra).
      pose proof (Rinv_0_lt_compat _ H1). rewrite ln_mult, ln_mult, !ln_Rinv, ln_sqrt by lra. lra.
  Qed.

  (** The answer is true, and X-means keeps the cluster, exactly if the criterion of the one normal density is less
      than that of the even mixture of two, which counts k parameters more.  The variance of the cluster is the mean
      of the squared errors, as computed; the two parts together have as many samples. *)
  Theorem C125_bic_partial k c c1 c2 : sam c <> [] -> length (sam c) = length (sam c1 ++ sam c2) ->
    0 < var c -> 0 < var c1 -> 0 < var c2 -> var c = lsum (fun p => E (pt p) (core c)) (sam c) / INR (length (sam c)) ->
    exists b, _zVecMultiClusterXMeansCheckBIC exp ln (/ 2) errsq pt k c c1 c2 = Ok b /\
      (b = true <-> -2 * loglik1 E pt c (sam c) < -2 * loglik2 E pt c1 c2 (sam c1 ++ sam c2) + INR k * ln (INR (length (sam c)))).
  Proof.
    intros Ne L V V1 V2 Ev. unfold _zVecMultiClusterXMeansCheckBIC. rewrite !logsum_val. cbn [bind]. rewrite logsum_val. cbn [bind].
    eexists. split; [reflexivity|]. rs. rewrite loglik1_val, loglik2_val, <- L, lsum_app, !Zof by auto.
    match goal with |- Rltb ?a ?b = true <-> _ => destruct (Rltb_spec a b) end; (split; [intros|]); try discriminate; try lra; auto.
  Qed.
  (** the variance of the hypothesis is the one that the clustering computes *)
  Theorem C125_variance c : sam c <> [] -> exists c', _zVecMultiClusterVar errsq pt c = Ok c' /\ sam c' = sam c /\ core c' = core c /\
    var c' = lsum (fun p => E (pt p) (core c)) (sam c) / INR (length (sam c)).
  Proof.
    intros _. unfold _zVecMultiClusterVar.
    assert (forall l v, foreach l (fun p v => d <- errsq (pt p) (core c) ;; Ok (v + d)%S) v = Ok (v + lsum (fun p => E (pt p) (core c)) l)) as G.
    { induction l as [|p l IH]; intros v; [unfold lsum, foreach; cbn; f_equal; lra|]. erewrite foreach_ok by (rewrite HE; reflexivity). rewrite IH. rs. unfold lsum. cbn [map fold_right]. f_equal. lra. }
    rewrite G. cbn [bind]. eexists. split; [reflexivity|]. cbn. rs. rewrite Zof. repeat split; auto. f_equal. ring.
  Qed.
End Main.

(** With clusters of coincident points the densities are 0/0 and the criterion of the division is not a number: the
    answer is false, whatever the criterion of the whole; five points at -1 and five at 1.  The hypotheses hold of
    libm. *)
Definition pile (p : nat) : fvec float := FV 1 (fun _ => if (p <? 5)%nat then (-1)%float else 1%float).
Ltac fx f := repeat match goal with |- context [f ?x] => progress (let y := eval vm_compute in x in change (f x) with (f y)) end.
Theorem C125_nan_refuted (fexp flog : float -> float) : fexp nan = nan -> fexp neg_infinity = 0%float -> flog nan = nan ->
  flog 1%float = 0%float -> flog 2%float = 0x1.62e42fefa39efp-1%float -> flog 10%float = 0x1.26bb1bbb55516p+1%float ->
  let c := Cl [0;1;2;3;4;5;6;7;8;9]%nat (FV 1 (fun _ => 0%float)) 1%float in
  let c1 := Cl [0;1;2;3;4]%nat (FV 1 (fun _ => (-1)%float)) 0%float in
  let c2 := Cl [5;6;7;8;9]%nat (FV 1 (fun _ => 1%float)) 0%float in
  _zVecMultiClusterVar (default_errsq 1) pile c = Ok c /\
  _zVecMultiClusterXMeansCheckBIC fexp flog 0x1p-1%float (default_errsq 1) pile 1 c c1 c2 = Ok false /\
  logsum fexp flog 0x1p-1%float (default_errsq 1) pile c1 c2 (sam c1) 0%float = Ok nan.
Proof.
  intros H1 H2 H3 H4 H5 H6 c c1 c2. vm_compute in H1, H2, H3.
  assert (forall p, (p < 5)%nat -> _zVecClusterXMeansPDF fexp 0x1p-1%float (default_errsq 1) c1 (pile p) = Ok nan /\ _zVecClusterXMeansPDF fexp 0x1p-1%float (default_errsq 1) c2 (pile p) = Ok nan) as A.
  { intros p Hp. assert (pile p = FV 1 (fun _ => (-1)%float)) as -> by (unfold pile; apply Nat.ltb_lt in Hp; now rewrite Hp).
    unfold _zVecClusterXMeansPDF. 
    replace (default_errsq 1 (FV 1 (fun _ => (-1)%float)) (core c1)) with (Ok 0%float) by (vm_compute; reflexivity).
    replace (default_errsq 1 (FV 1 (fun _ => (-1)%float)) (core c2)) with (Ok 4%float) by (vm_compute; reflexivity).
    cbn [bind]. fx fexp. rewrite H1, H2. split; reflexivity. }
  assert (forall p, (5 <= p)%nat -> _zVecClusterXMeansPDF fexp 0x1p-1%float (default_errsq 1) c1 (pile p) = Ok nan /\ _zVecClusterXMeansPDF fexp 0x1p-1%float (default_errsq 1) c2 (pile p) = Ok nan) as B.
  { intros p Hp. assert (pile p = FV 1 (fun _ => 1%float)) as -> by (unfold pile; apply Nat.ltb_ge in Hp; now rewrite Hp).
    unfold _zVecClusterXMeansPDF. 
    replace (default_errsq 1 (FV 1 (fun _ => 1%float)) (core c1)) with (Ok 4%float) by (vm_compute; reflexivity).
    replace (default_errsq 1 (FV 1 (fun _ => 1%float)) (core c2)) with (Ok 0%float) by (vm_compute; reflexivity).
    cbn [bind]. fx fexp. rewrite H1, H2. split; reflexivity. }
  assert (logsum fexp flog 0x1p-1%float (default_errsq 1) pile c1 c2 (sam c1) 0%float = Ok nan) as L1.
  { unfold logsum, foreach. cbn [fold_left sam c1 bind]. 
    rewrite (proj1 (A 0%nat ltac:(lia))), (proj2 (A 0%nat ltac:(lia))); cbn [bind]. rewrite (proj1 (A 1%nat ltac:(lia))), (proj2 (A 1%nat ltac:(lia))); cbn [bind]. rewrite (proj1 (A 2%nat ltac:(lia))), (proj2 (A 2%nat ltac:(lia))); cbn [bind]. rewrite (proj1 (A 3%nat ltac:(lia))), (proj2 (A 3%nat ltac:(lia))); cbn [bind]. rewrite (proj1 (A 4%nat ltac:(lia))), (proj2 (A 4%nat ltac:(lia))); cbn [bind].
    fx flog. rewrite H3. reflexivity. }
  assert (logsum fexp flog 0x1p-1%float (default_errsq 1) pile c1 c2 (sam c2) nan = Ok nan) as L2.
  { unfold logsum, foreach. cbn [fold_left sam c2 bind]. 
    rewrite (proj1 (B 5%nat ltac:(lia))), (proj2 (B 5%nat ltac:(lia))); cbn [bind]. rewrite (proj1 (B 6%nat ltac:(lia))), (proj2 (B 6%nat ltac:(lia))); cbn [bind]. rewrite (proj1 (B 7%nat ltac:(lia))), (proj2 (B 7%nat ltac:(lia))); cbn [bind]. rewrite (proj1 (B 8%nat ltac:(lia))), (proj2 (B 8%nat ltac:(lia))); cbn [bind]. rewrite (proj1 (B 9%nat ltac:(lia))), (proj2 (B 9%nat ltac:(lia))); cbn [bind].
    fx flog. rewrite H3. reflexivity. }
  split; [|split; [|exact L1]].
  - assert (forall r : cluster, r = c -> True) as _ by auto. unfold _zVecMultiClusterVar. 
    match goal with |- context [foreach ?l ?f ?s] => replace (foreach l f s) with (Ok 10%float) by (vm_compute; reflexivity) end.
    cbn [bind]. reflexivity.
  - unfold _zVecMultiClusterXMeansCheckBIC. change (@s0 float _) with 0%float. rewrite L1. cbn [bind]. rewrite L2. cbn [bind].
    fx flog. rewrite H4, H5, H6. reflexivity.
Qed.

(** ** a case that meets the hypotheses: points 0, 1, 4, 5 on a line *)
Definition E_ex (x y : fvec R) : R := (vel x 0 - vel y 0) * (vel x 0 - vel y 0).
Definition pt_ex (p : nat) : fvec R := FV 1 (fun _ => INR (nth p [0;1;4;5]%nat O)).
Example C125_case : let c := Cl [0;1;2;3]%nat (FV 1 (fun _ => 5/2)) (17/4) in
  sam c <> [] /\ length (sam c) = length ([0;1] ++ [2;3])%nat /\ var c = lsum (fun p => E_ex (pt_ex p) (core c)) (sam c) / INR (length (sam c)).
Proof. cbn. split; [discriminate|]. split; [reflexivity|]. unfold lsum, E_ex. cbn. field. Qed.

Print Assumptions C125_bic_partial.
Print Assumptions C125_variance.
Print Assumptions C125_nan_refuted.
