(** C119: the eigenvalues of a symmetric tridiagonal matrix by bisection (zMatSymEigBisec).  Vocabulary in Sturm_Spec.v:
    [exceed n A e c] - exactly c eigenvalues exceed e; [approximates n A w k e] - e is eigenvalue number k up to w. *)
From Coq Require Import Reals Lra QArith.
From Verif Require Import Prelude Prelude_Proofs Scalar RealLib Fmat Fmat_Proofs Sturm_Model Sturm_Spec Sturm_Proofs Sturm2_Proofs.
From Coq Require Import List.
Import ListNotations.
Local Open Scope list_scope.
Local Open Scope R_scope.

(** the count of eigenvalues above e, when no leading minor of e I - A vanishes *)
Theorem C119_count_partial ztol (m : fmat R) e n : (0 < n)%nat -> nr m = n -> nc m = n -> tridiagonal n (el m) -> regular n (el m) e ->
  exists c, sturm ztol m e = Ok c /\ exceed n (el m) e c /\ forall c', exceed n (el m) e c' -> c' = c.
Proof.
  intros Hn E1 E2 T Rg. destruct n as [|n]; [lia|]. exists (cneg (el m) e (S n)).
  assert (exceed (S n) (el m) e (cneg (el m) e (S n))) by now apply sturm_exceed.
  split; [now apply sturm_ok|]. split; auto. intros c' H'. eapply exceed_unique; eauto.
Qed.
(** the count decreases *)
Theorem C119_count_decreases n A e e' c c' : e <= e' -> exceed n A e c -> exceed n A e' c' -> (c' <= c)%nat.
Proof. apply exceed_mono. Qed.
(** all eigenvalues lie in the range, whatever number is read behind the last row *)
Theorem C119_range junk (m : fmat R) n : (0 < n)%nat -> nr m = n -> nc m = n -> tridiagonal n (el m) ->
  exists emin emax, bisec_range_junk junk m = Ok (emin, emax) /\ emin <= emax /\
    (forall x, emin * sqn n x <= quad n (el m) x <= emax * sqn n x) /\
    (forall l, eigenvalue n (el m) l -> emin <= l <= emax).
Proof.
  intros Hn E1 E2 T. destruct n as [|n]; [lia|]. destruct (range_ok junk m n E1 E2 T) as (a & b & E & L & H).
  exists a, b. split; auto. split; auto. split; auto. intros l (v & N & EV).
  assert (quad (S n) (el m) v = l * sqn (S n) v) as Q.
  { unfold quad, sqn. rewrite <- rsum_scal. apply rsum_ext. intros i Hi. rewrite EV by auto. ring. }
  specialize (H v). rewrite Q in H. pose proof (sqn_pos _ _ N). split; nra.
Qed.
(** the eigenvalues: if no leading minor vanishes at the points of the bisection, then all of them are found, in
    descending order, each within the width of the range divided by 2^steps; the recursion ends when no two eigenvalues
    are closer than its last intervals are wide *)
Theorem C119_bisection_partial ztol depth steps junk (m : fmat R) eig n emin emax : (0 < n)%nat -> nr m = n -> nc m = n -> tridiagonal n (el m) ->
  length eig = n -> bisec_range_junk junk m = Ok (emin, emax) -> (forall e, dyadic emin emax e -> regular n (el m) e) ->
  exists r, bisec_eigenvalues ztol (/ 2) (S depth) steps junk m eig = Ok r /\
    (forall eig', r = Some eig' -> length eig' = n /\
       forall k, (k < n)%nat -> approximates n (el m) ((emax - emin) / 2 ^ steps) k (nth k eig' 0)) /\
    ((forall x y cx cy, x <= y -> y - x <= (emax - emin) / 2 ^ depth -> exceed n (el m) x cx -> exceed n (el m) y cy -> (cx <= S cy)%nat) -> r <> None).
Proof.
  intros Hn E1 E2 T EL ER OK. destruct n as [|n]; [lia|]. destruct (range_ok junk m n E1 E2 T) as (a & b & E & L & H).
  rewrite E in ER. injection ER as -> ->. unfold bisec_eigenvalues. rewrite E. cbn [bind].
  assert (regular (S n) (el m) emin) as R1 by (apply OK; constructor). assert (regular (S n) (el m) emax) as R2 by (apply OK; constructor).
  rewrite (sturm_ok ztol m emin n E1 E2 R1), (sturm_ok ztol m emax n E1 E2 R2). cbn [bind].
  assert (cneg (el m) emin (S n) = S n) as C1 by (apply lower_n; auto; intros; apply H).
  assert (cneg (el m) emax (S n) = 0)%nat as C2 by (apply upper_0; auto; intros; apply H).
  rewrite C1, C2. change 0%Z with (Z.of_nat 0).
  destruct (rec_ok ztol m n E1 E2 T (S depth) steps emin emax (S n) 0 eig 0) as (r & Er & Hr & HD); auto; [lia|].
  exists r. split; auto. split.
  - intros eig' HE. destruct (Hr eig' HE) as (Q1 & Q2 & _). split; [congruence|]. intros k Hk. apply (Q2 k). lia.
  - intros HX. apply (HD depth); auto. intros x y Hx Hy Lxy Wxy. apply (HX x y); auto; apply sturm_exceed; auto.
Qed.

Ltac ltb1 := match goal with |- context [Rltb ?a ?b] => lazymatch constr:((a, b)) with context [Rltb _ _] => fail | _ => destruct (Rltb_spec a b); try lra end end.
(** ** a case: diag(1/3, 2/3), the number behind the last row being 1/3 *)
Definition thirds : fmat R := FM 2 2 (fun i j => if (i =? j)%nat then (if (i =? 0)%nat then 1/3 else 2/3) else 0).
Lemma thirds_tri : tridiagonal 2 (el thirds).
Proof.
  split.
  - intros i j _ _. cbn. destruct (Nat.eqb_spec i j), (Nat.eqb_spec j i); subst; auto; lia.
  - intros i j _ _ H. cbn. destruct (Nat.eqb_spec i j); [lia|auto].
Qed.
Lemma dyadic_int lo hi (a b : Z) : lo = IZR a -> hi = IZR b -> forall e, dyadic lo hi e -> exists (j : Z) k, e * 2 ^ k = IZR j.
Proof.
  intros -> -> e H. induction H as [| |x y H1 (j1 & k1 & E1) H2 (j2 & k2 & E2)].
  - exists a, 0%nat. cbn. ring.
  - exists b, 0%nat. cbn. ring.
  - exists (j1 * 2 ^ Z.of_nat k2 + j2 * 2 ^ Z.of_nat k1)%Z, (k1 + k2 + 1)%nat.
    rewrite plus_IZR, !mult_IZR, <- !pow_IZR, <- E1, <- E2, !pow_add, pow_1. field.
Qed.
Lemma pow2_3 k : (2 ^ Z.of_nat k mod 3 <> 0)%Z.
Proof.
  intros H. induction k as [|k IH]; [cbn in H; discriminate|].
  rewrite Nat2Z.inj_succ, Z.pow_succ_r in H by lia. apply IH.
  pose proof (Z.mod_pos_bound (2 ^ Z.of_nat k) 3 ltac:(lia)). rewrite Z.mul_mod in H by lia. change (2 mod 3)%Z with 2%Z in H.
  assert (2 ^ Z.of_nat k mod 3 = 0 \/ 2 ^ Z.of_nat k mod 3 = 1 \/ 2 ^ Z.of_nat k mod 3 = 2)%Z as [Q|[Q|Q]] by lia; auto; rewrite Q in H; discriminate.
Qed.
Lemma no_third e : dyadic 0 1 e -> e <> 1/3 /\ e <> 2/3.
Proof.
  intros D. destruct (dyadic_int 0 1 0 1 eq_refl eq_refl e D) as (j & k & E). split; intros ->; apply (pow2_3 k).
  - assert (2 ^ Z.of_nat k = j * 3)%Z as ->; [|apply Z.mod_mul; lia]. apply eq_IZR. rewrite mult_IZR, <- pow_IZR. lra.
  - assert (2 * 2 ^ Z.of_nat k = j * 3)%Z as Q. { apply eq_IZR. rewrite !mult_IZR, <- pow_IZR. lra. }
    assert ((2 * 2 ^ Z.of_nat k) mod 3 = 0)%Z as Q' by (rewrite Q; apply Z.mod_mul; lia).
    rewrite <- Z.pow_succ_r, <- Nat2Z.inj_succ in Q' by lia. exfalso. now apply (pow2_3 (S k)).
Qed.
Lemma thirds_regular e : dyadic 0 1 e -> regular 2 (el thirds) e.
Proof.
  intros D. destruct (no_third e D) as (N1 & N2). intros k Hk.
  destruct k as [|[|[|k]]]; [cbn; lra|cbn; lra| |lia]. cbn [minor el thirds Nat.eqb]. intros Z.
  assert ((e - 2/3) * (e - 1/3) = 0) as Q by lra. apply Rmult_integral in Q. lra.
Qed.
Lemma thirds_range : bisec_range_junk (1/3) thirds = Ok (0, 1).
Proof.
  unfold bisec_range_junk, for_, mget. cbn. rs. rewrite Rabs_R0. rewrite (Rabs_pos_eq (1/3)) by lra.
  repeat ltb1; apply f_equal, f_equal2; lra.
Qed.
Example C119_case : let A := el thirds in (forall e, dyadic 0 1 e -> regular 2 A e) /\
  (forall x y cx cy, x <= y -> y - x <= (1 - 0) / 2 ^ 2 -> exceed 2 A x cx -> exceed 2 A y cy -> (cx <= S cy)%nat) /\
  exists r, bisec_eigenvalues 0 (/ 2) 3 20 (1/3) thirds [7; 7] = Ok (Some r) /\ approximates 2 A ((1 - 0) / 2 ^ 20) 0 (nth 0 r 0).
Proof.
  cbv zeta. assert (forall x y cx cy, x <= y -> y - x <= (1 - 0) / 2 ^ 2 -> exceed 2 (el thirds) x cx -> exceed 2 (el thirds) y cy -> (cx <= S cy)%nat) as GAP.
  { intros x y cx cy L W (_ & (L1 & EL1 & H1)) ((L2 & EL2 & H2) & _). destruct (Nat.le_gt_cases cx (S cy)) as [|G]; auto. exfalso.
    destruct L1 as [|? ?]; [|cbn [length] in EL1; lia]. destruct L2 as [|? ?]; [|cbn [length] in EL1, EL2; lia].
    specialize (H1 (fun i => if (i =? 0)%nat then 1 else 0)). specialize (H2 (fun i => if (i =? 0)%nat then 0 else 1)).
    assert (x * 1 < 1/3) as X1.
    { assert (x * sqn 2 (fun i => if (i =? 0)%nat then 1 else 0) < quad 2 (el thirds) (fun i => if (i =? 0)%nat then 1 else 0)) as Q.
      { apply H1; [intros ? []|]. exists 0%nat. cbn. split; [lia|lra]. }
      unfold sqn, quad, mulv in Q. cbn in Q. lra. }
    assert (2/3 <= y * 1) as X2.
    { assert (quad 2 (el thirds) (fun i => if (i =? 0)%nat then 0 else 1) <= y * sqn 2 (fun i => if (i =? 0)%nat then 0 else 1)) as Q by (apply H2; intros ? []).
      unfold sqn, quad, mulv in Q. cbn in Q. lra. }
    cbn [pow] in W. lra. }
  split; [exact thirds_regular|]. split; [exact GAP|].
  destruct (C119_bisection_partial 0 2 20 (1/3) thirds [7; 7] 2 0 1) as (r & E & Hr & HN); auto.
  - exact thirds_tri.
  - exact thirds_range.
  - exact thirds_regular.
  - specialize (HN GAP). destruct r as [r|]; [|congruence]. exists r. split; auto. apply (Hr r eq_refl). lia.
Qed.

(** ** what the code does not do *)
(** a vanishing first pivot is counted twice: of the eigenvalues 1 and -1 only one exceeds 0 *)
Theorem C119_zero_pivot_refuted ztol : 0 < ztol -> exists m : fmat R, nr m = 2%nat /\ nc m = 2%nat /\ tridiagonal 2 (el m) /\
  sturm ztol m 0 = Ok 2%nat /\ exceed 2 (el m) 0 1.
Proof.
  intros Ht. exists (FM 2 2 (fun i j => if (i =? j)%nat then 0 else 1)). split; auto. split; auto. split; [|split].
  - split; cbn; intros i j Hi Hj.
    + destruct (Nat.eqb_spec i j), (Nat.eqb_spec j i); subst; auto; lia.
    + intros; lia.
  - unfold sturm, for_, mget. cbn. rs. destruct (Rleb_spec (0 - 0) 0); [|lra]. destruct (Reqb_spec (0 - 0) 0); [|lra].
    destruct (Rltb_spec (0 - 0 - 1 * 1 / ztol) 0); auto. exfalso. pose proof (Rinv_0_lt_compat ztol Ht). lra.
  - split.
    + exists [fun _ => 1]. split; auto. intros x K. specialize (K _ (or_introl eq_refl)). unfold quad, mulv, sqn. cbn in *.
      assert (x 1%nat = - x 0%nat) as -> by lra. nra.
    + exists [fun i => if (i =? 0)%nat then 1 else -1]. split; auto. intros x K (j & Hj & N). specialize (K _ (or_introl eq_refl)). unfold quad, mulv, sqn. cbn in *.
      assert (x 1%nat = x 0%nat) as EQ by lra. rewrite EQ. assert (x 0%nat <> 0) by (destruct j as [|[|j]]; [auto|congruence|lia]).
      assert (0 < x 0%nat * x 0%nat) by nra. lra.
Qed.
(** an eigenvalue at the end of the range is lost: nothing is computed for the matrix (5), and one of the two for the
    identity (the number behind the last row being 0) *)
Theorem C119_lost_refuted : 
  bisec_eigenvalues (1#1000)%Q (1#2)%Q 5 5 0%Q (FM 1 1 (fun _ _ => 5%Q)) [77%Q] = Ok (Some [77%Q]) /\
  match bisec_eigenvalues (1#1000)%Q (1#2)%Q 5 5 0%Q (FM 2 2 (fun i j => if (i =? j)%nat then 1%Q else 0%Q)) [77%Q; 77%Q] with
  | Ok (Some [_; e]) => Qeq_bool e 77 | _ => false end = true.
Proof. split; vm_compute; reflexivity. Qed.
(** for a multiple eigenvalue inside of the range the recursion does not end: diag(1/3, 1/3, 1) *)
Definition twice : fmat R := FM 3 3 (fun i j => if (i =? j)%nat then (if (i =? 2)%nat then 1 else 1/3) else 0).
Lemma twice_low ztol e : e < 1/3 -> sturm ztol twice e = Ok 3%nat.
Proof.
  intros H. unfold sturm, for_, mget. cbn. rs. destruct (Rleb_spec (e - 1/3) 0); [|lra].
  destruct (Reqb_spec (e - 1/3) 0); [lra|]. replace (e - 1/3 - 0 * 0 / (e - 1/3)) with (e - 1/3) by (field; lra).
  destruct (Reqb_spec (e - 1/3) 0); [lra|]. destruct (Rltb_spec (e - 1/3) 0); [|lra].
  replace (e - 1 - 0 * 0 / (e - 1/3)) with (e - 1) by (field; lra). destruct (Rltb_spec (e - 1) 0); [auto|lra].
Qed.
Lemma twice_mid ztol e : 1/3 < e < 1 -> sturm ztol twice e = Ok 1%nat.
Proof.
  intros H. unfold sturm, for_, mget. cbn. rs. destruct (Rleb_spec (e - 1/3) 0); [lra|].
  destruct (Reqb_spec (e - 1/3) 0); [lra|]. replace (e - 1/3 - 0 * 0 / (e - 1/3)) with (e - 1/3) by (field; lra).
  destruct (Reqb_spec (e - 1/3) 0); [lra|]. destruct (Rltb_spec (e - 1/3) 0); [lra|].
  replace (e - 1 - 0 * 0 / (e - 1/3)) with (e - 1) by (field; lra). destruct (Rltb_spec (e - 1) 0); [auto|lra].
Qed.
Lemma twice_top ztol : sturm ztol twice 1 = Ok 0%nat.
Proof.
  unfold sturm, for_, mget. cbn. rs. destruct (Rleb_spec (1 - 1/3) 0); [lra|].
  destruct (Reqb_spec (1 - 1/3) 0); [lra|]. replace (1 - 1/3 - 0 * 0 / (1 - 1/3)) with (1 - 1/3) by (field; lra).
  destruct (Reqb_spec (1 - 1/3) 0); [lra|]. destruct (Rltb_spec (1 - 1/3) 0); [lra|].
  replace (1 - 1 - 0 * 0 / (1 - 1/3)) with 0 by (field; lra). destruct (Rltb_spec 0 0); [lra|auto].
Qed.
Lemma twice_rec ztol depth steps : forall lo hi eig off, dyadic 0 1 lo -> dyadic 0 1 hi -> 0 <= lo < 1/3 -> 1/3 < hi < 1 ->
  bisec_rec ztol (/ 2) depth steps twice lo 3 hi 1 eig off = Ok None.
Proof.
  induction depth as [|depth IH]; intros lo hi eig off D1 D2 H1 H2; auto. cbn [bisec_rec]. change (Z.of_nat 3 - Z.of_nat 1 =? 1)%Z with false. cbv iota zeta. rs.
  assert (dyadic 0 1 (/ 2 * (hi + lo))) as DM. { replace (/ 2 * (hi + lo)) with ((hi + lo) / 2) by field. now apply dy_mid. }
  destruct (no_third _ DM) as (N & _). set (e := / 2 * (hi + lo)) in *. assert (lo < e < hi) by (unfold e; lra).
  destruct (Rlt_le_dec e (1/3)) as [L|L].
  - rewrite twice_low by auto. cbn [bind Nat.ltb Nat.leb]. rewrite IH by (auto; lra). reflexivity.
  - rewrite twice_mid by lra. cbn [bind Nat.ltb Nat.leb]. rewrite IH by (auto; lra). reflexivity.
Qed.
Theorem C119_endless_refuted ztol depth steps eig : bisec_eigenvalues ztol (/ 2) depth (S steps) 0 twice eig = Ok None \/
  bisec_eigenvalues ztol (/ 2) depth (S steps) 0 twice eig = UB /\ eig = [].
Proof.
  unfold bisec_eigenvalues. assert (bisec_range_junk 0 twice = Ok (0, 1)) as ->.
  { unfold bisec_range_junk, for_, mget. cbn. rs. rewrite Rabs_R0.
    repeat ltb1; apply f_equal, f_equal2; lra. }
  cbn [bind]. rewrite twice_low by lra. cbn [bind]. rewrite twice_top. cbn [bind].
  destruct depth as [|depth]; [left; reflexivity|]. cbn [bisec_rec]. change (Z.of_nat 3 - Z.of_nat 0 =? 1)%Z with false. cbv iota zeta. rs.
  replace (/ 2 * (1 + 0)) with (1/2) by field. rewrite twice_mid by lra. cbn [bind Nat.ltb Nat.leb].
  assert (dyadic 0 1 (1/2)) as DH. { replace (1/2) with ((0 + 1) / 2) by field. apply dy_mid; constructor. }
  assert (forall x, exists e, bisec_one ztol (/ 2) x twice (1/2) 1 1 None = Ok e) as ONE.
  { assert (forall x lo hi d, 1/2 <= lo < hi -> hi <= 1 -> exists e, bisec_one ztol (/ 2) x twice lo 1 hi d = Ok e) as G.
    { induction x as [|x IH]; intros lo hi d B1 B2; cbn [bisec_one]; [eexists; reflexivity|]. rs.
      match goal with |- context [if ?t then _ else _] => destruct t; [eexists; reflexivity|] end.
      rewrite twice_mid by lra. cbn [bind Nat.eqb]. apply IH; lra. }
    intros x. apply G; lra. }
  destruct depth as [|depth]; [left; reflexivity|]. cbn [bisec_rec]. change (Z.of_nat 1 - Z.of_nat 0 =? 1)%Z with true. cbv iota zeta.
  destruct (ONE (S steps)) as (e & ->). cbn [bind]. change (0 <=? 0)%Z with true. cbv iota.
  destruct eig as [|x eig]; [right; auto|]. left. cbn [Z.to_nat]. rewrite set_ok by (cbn; lia). cbn [rmap bind].
  change (Z.of_nat 3 - Z.of_nat 1 =? 1)%Z with false. cbv iota zeta.
  change ((if (1 <? 3)%nat then ?a else ?b)) with a. apply (twice_rec ztol (S depth)); auto; try lra. constructor.
Qed.

Print Assumptions C119_count_partial.
Print Assumptions C119_count_decreases.
Print Assumptions C119_range.
Print Assumptions C119_bisection_partial.
Print Assumptions C119_endless_refuted.
