(** Proofs about Chebyshev interpolation. *)
From Coq Require Import Reals Lra Lia List Arith.
From Coquelicot Require Import Coquelicot.
From Verif Require Import Prelude Prelude_Proofs Scalar RealLib Fmat Fmat_Proofs LE_Model LE_Spec LE_Props IP_Model IP_Spec IP_Proofs Cheb_Model Cheb_Spec.
Import ListNotations.
Local Open Scope R_scope.
Local Notation points := (list (R * fvec R)).

(** ** polynomials as lists of coefficients *)
Fixpoint ev (l : list R) (x : R) : R := match l with nil => 0 | a :: l => a + x * ev l x end.
Lemma ev_last l y x : ev (l ++ y :: nil) x = ev l x + y * x ^ length l.
Proof. induction l as [|a l IH]; cbn; [ring|]. rewrite IH. ring. Qed.
Lemma ev_divide z : forall l a, exists q, length q = length l /\ (forall x, ev (a :: l) x = (x - z) * ev q x + ev (a :: l) z) /\ ((forall y, In y q -> y = 0) -> forall y, In y l -> y = 0).
Proof.
  induction l as [|b l IH]; intros a.
  - exists nil. repeat split; auto. intros x. cbn. ring.
  - destruct (IH b) as (q & L & E & Z). exists (ev (b :: l) z :: q). split; [cbn; auto|]. split.
    + intros x. change (ev (a :: b :: l) x) with (a + x * ev (b :: l) x). rewrite E. cbn [ev]. ring.
    + intros H y [<-|Hy].
      * assert (Hl : forall y, In y l -> y = 0) by (apply Z; intros; apply H; now right).
        pose proof (H _ (or_introl eq_refl)) as H0. cbn [ev] in H0. assert (ev l z = 0) as E0.
        { clear - Hl. induction l as [|c l IH]; cbn; auto. rewrite IH by (intros; apply Hl; now right). rewrite (Hl c) by now left. ring. }
        rewrite E0 in H0. lra.
      * apply Z; auto. intros; apply H; now right.
Qed.
Lemma ev_zeros : forall zs l, length l = length zs -> NoDup zs -> (forall z, In z zs -> ev l z = 0) -> forall y, In y l -> y = 0.
Proof.
  induction zs as [|z zs IH]; intros l L N H y Hy; [destruct l; [contradiction|discriminate]|].
  destruct l as [|a l]; [discriminate|]. apply NoDup_cons_iff in N as (Nz & N). destruct (ev_divide z l a) as (q & Lq & E & Z).
  assert (Hq : forall y, In y q -> y = 0).
  { apply IH; [cbn in L; lia|auto|]. intros w Hw. pose proof (E w) as Ew. rewrite (H w), (H z) in Ew by (cbn; auto).
    assert (w <> z) by (intros ->; contradiction). apply Rmult_eq_reg_l with (w - z); [|lra]. lra. }
  specialize (Z Hq). destruct Hy as [<-|Hy]; auto. pose proof (H z (or_introl eq_refl)) as H0. cbn [ev] in H0.
  assert (ev l z = 0) as E0. { clear - Z. induction l as [|c l IH]; cbn; auto. rewrite IH by (intros; apply Z; now right). rewrite (Z c) by now left. ring. }
  rewrite E0 in H0. lra.
Qed.

(** functions that are polynomials with n coefficients *)
Definition low (n : nat) (f : R -> R) : Prop := exists l, length l = n /\ forall x, f x = ev l x.
Lemma low_ext n f g : (forall x, f x = g x) -> low n f -> low n g.
Proof. intros E (l & L & H). exists l. split; auto. intros. now rewrite <- E. Qed.
Lemma low_S n f : low n f -> low (S n) f.
Proof. intros (l & L & H). exists (l ++ 0 :: nil). split; [rewrite app_length; cbn; lia|]. intros. rewrite ev_last, H. ring. Qed.
Lemma low_0 n : low n (fun _ => 0).
Proof. induction n; [exists nil; auto|now apply low_S]. Qed.
Lemma low_add n : forall f g, low n f -> low n g -> low n (fun x => f x + g x).
Proof.
  assert (K : forall l m, length l = length m -> exists k, length k = length l /\ forall x, ev k x = ev l x + ev m x).
  { induction l as [|a l IH]; intros [|b m] L; try discriminate; [exists nil; split; auto; intros; cbn; ring|].
    destruct (IH m) as (k & Lk & E); [cbn in L; lia|]. exists (a + b :: k). split; [cbn; auto|]. intros. cbn. rewrite E. ring. }
  intros f g (l & L & H) (m & M & G). destruct (K l m) as (k & Lk & E); [lia|]. exists k. split; [lia|]. intros. rewrite E, H, G. reflexivity.
Qed.
Lemma low_scal n c f : low n f -> low n (fun x => c * f x).
Proof.
  intros (l & L & H). exists (map (Rmult c) l). split; [rewrite map_length; auto|]. intros x. rewrite H. clear. induction l as [|a l IH]; cbn; [ring|]. rewrite <- IH. ring.
Qed.
Lemma low_x n f : low n f -> low (S n) (fun x => x * f x).
Proof. intros (l & L & H). exists (0 :: l). split; [cbn; auto|]. intros. cbn. rewrite H. ring. Qed.
Lemma low_pow n c : low (S n) (fun x => c * x ^ n).
Proof. induction n; [exists (c :: nil); split; auto; intros; cbn; ring|]. apply (low_ext _ (fun x => x * (c * x ^ n))); [intros; cbn; ring|]. now apply low_x. Qed.
Lemma low_mono n k f : (n <= k)%nat -> low n f -> low k f.
Proof. induction 1; auto. intros. apply low_S. auto. Qed.
Lemma low_rsum n k (f : nat -> R -> R) : (forall i, (i < k)%nat -> low n (f i)) -> low n (fun x => rsum k (fun i => f i x)).
Proof.
  induction k as [|k IH]; intros H; [apply (low_ext _ (fun _ => 0)); [reflexivity|apply low_0]|].
  apply (low_ext _ (fun x => rsum k (fun i => f i x) + f k x)); [intros; reflexivity|]. apply low_add; auto.
Qed.
(** a polynomial with n coefficients vanishing at n points vanishes *)
Lemma low_zero n f (x : nat -> R) : low n f -> (forall i j, (i < j < n)%nat -> x i <> x j) -> (forall i, (i < n)%nat -> f (x i) = 0) -> forall t, f t = 0.
Proof.
  intros (l & L & H) D Z t. assert (A : forall y, In y l -> y = 0).
  { apply ev_zeros with (zs := map x (List.seq 0 n)).
    - rewrite map_length, seq_length. auto.
    - clear - D. assert (K : forall k, (k <= n)%nat -> NoDup (map x (List.seq 0 k))).
      { induction k as [|k IH]; intros Hk; [constructor|]. rewrite seq_S, map_app. cbn. apply NoDup_rev in IH; [|lia].
        rewrite <- (rev_involutive (map x (List.seq 0 k) ++ x k :: nil)). apply NoDup_rev. rewrite rev_app_distr. cbn. constructor; auto.
        intros I. apply in_rev in I. apply in_map_iff in I as (i & E & I). apply in_seq in I. apply (D i k); auto. lia. }
      apply K. lia.
    - intros z Hz. apply in_map_iff in Hz as (i & <- & I). apply in_seq in I. rewrite <- H. apply Z. lia. }
  rewrite H. clear - A. induction l as [|c l IH]; cbn; auto. rewrite IH by (intros; apply A; now right). rewrite (A c) by now left. ring.
Qed.
(** its leading coefficient is 0, too *)
Lemma low_lead n f c (x : nat -> R) : low n f -> (forall i j, (i < j < S n)%nat -> x i <> x j) -> (forall i, (i < S n)%nat -> f (x i) + c * x i ^ n = 0) -> c = 0.
Proof.
  intros (l & L & H) D Z.
  assert (Z' : forall t, ev (l ++ c :: nil) t = 0).
  { apply (low_zero (S n) _ x); auto.
    - exists (l ++ c :: nil). split; [rewrite app_length; cbn; lia|auto].
    - intros i Hi. rewrite ev_last, L, <- H. auto. }
  set (g := fun i => INR i). apply (ev_zeros (map g (List.seq 0 (S n))) (l ++ c :: nil)).
  - rewrite app_length, map_length, seq_length. cbn. lia.
  - apply FinFun.Injective_map_NoDup; [intros a b E; apply INR_eq; exact E|apply seq_NoDup].
  - intros; apply Z'.
  - apply in_or_app. right. now left.
Qed.

(** ** Chebyshev polynomials *)
Lemma cheb_SS n x : cheb (S (S n)) x = 2 * x * cheb (S n) x - cheb n x.
Proof. unfold cheb. cbn. destruct (chebs n x). reflexivity. Qed.
Lemma chebs_eq n x : chebs n x = (cheb n x, cheb (S n) x).
Proof. unfold cheb. cbn. destruct (chebs n x). reflexivity. Qed.
Lemma cheb_ind (P : nat -> Prop) : P 0%nat -> P 1%nat -> (forall n, P n -> P (S n) -> P (S (S n))) -> forall n, P n.
Proof. intros H0 H1 HS. assert (forall n, P n /\ P (S n)) as K by (induction n as [|n [A B]]; auto). intros; apply K. Qed.
Lemma cheb_lead n : exists a f, a <> 0 /\ low n f /\ forall x, cheb n x = f x + a * x ^ n.
Proof.
  destruct n as [|n].
  { exists 1, (fun _ => 0). split; [lra|]. split; [apply low_0|]. intros. unfold cheb. cbn. ring. }
  assert (K : forall n, (exists a f, low n f /\ forall x, cheb n x = f x + a * x ^ n) /\ exists a f, a <> 0 /\ low (S n) f /\ forall x, cheb (S n) x = f x + a * x ^ (S n)).
  { clear n. induction n as [|k [(a & f & Lf & Ef) (b & g & Hb & Lg & Eg)]].
    - split; [exists 1, (fun _ => 0); split; [apply low_0|intros x; unfold cheb; cbn; ring]|].
      exists 1, (fun _ => 0). split; [lra|]. split; [apply low_0|]. intros; unfold cheb; cbn; ring.
    - split; [exists b, g; auto|]. exists (2 * b), (fun x => 2 * (x * g x) + (-1 * f x + - a * x ^ k)). split; [lra|]. split.
      + apply low_add; [apply low_scal; now apply low_x|]. apply low_add; [apply low_scal; do 2 apply low_S; auto|apply low_S, low_pow].
      + intros x. rewrite cheb_SS, Ef, Eg. cbn. ring. }
  apply K.
Qed.
Lemma cheb_low n : low (S n) (cheb n).
Proof. destruct (cheb_lead n) as (a & f & _ & Lf & E). apply (low_ext _ (fun x => f x + a * x ^ n)); [intros; now rewrite E|]. apply low_add; [now apply low_S|apply low_pow]. Qed.
(** the matrix T_j(x_i) is nonsingular *)
Lemma cheb_indep : forall n c (x : nat -> R), (forall i j, (i < j < n)%nat -> x i <> x j) -> (forall i, (i < n)%nat -> rsum n (fun j => c j * cheb j (x i)) = 0) -> forall j, (j < n)%nat -> c j = 0.
Proof.
  induction n as [|n IH]; intros c x D Z j Hj; [lia|].
  destruct (cheb_lead n) as (a & f & Ha & Lf & E).
  assert (C : c n = 0).
  { assert (c n * a = 0); [|apply Rmult_integral in H as [|]; auto; contradiction].
    apply (low_lead n (fun t => rsum n (fun j => c j * cheb j t) + c n * f t) (c n * a) x); auto.
    - apply low_add; [|now apply low_scal]. apply low_rsum. intros i Hi. apply low_scal. apply (low_mono (S i)); [lia|apply cheb_low].
    - intros i Hi. rewrite <- (Z i Hi). cbn [rsum]. rewrite E. ring. }
  destruct (Nat.eq_dec j n) as [->|Nj]; auto.
  apply (IH c x); [intros; apply D; lia| |lia]. intros i Hi. specialize (Z i ltac:(lia)). cbn [rsum] in Z. rewrite C in Z. lra.
Qed.
(** derivatives *)
Fixpoint chebd (n : nat) (x : R) : (R * R) * (R * R) * (R * R) :=
  match n with
  | O => ((1, x), (0, 1), (0, 0))
  | S n => let '((a, b), (a', b'), (a'', b'')) := chebd n x in
           ((b, 2 * x * b - a), (b', 2 * (b + x * b') - a'), (b'', 2 * (2 * b' + x * b'') - a''))
  end.
Definition cheb1 n x := fst (snd (fst (chebd n x))).
Definition cheb2 n x := fst (snd (chebd n x)).
Lemma chebd_eq n x : chebd n x = ((cheb n x, cheb (S n) x), (cheb1 n x, cheb1 (S n) x), (cheb2 n x, cheb2 (S n) x)).
Proof.
  assert (E : fst (fst (chebd n x)) = chebs n x).
  { induction n as [|n IH]; auto. cbn [chebd chebs]. rewrite <- IH. destruct (chebd n x) as [[[a b] [a' b']] [a'' b'']]. reflexivity. }
  rewrite chebs_eq in E. unfold cheb1, cheb2. cbn [chebd]. destruct (chebd n x) as [[[a b] [a' b']] [a'' b'']]. cbn in *. congruence.
Qed.
Lemma cheb1_SS n x : cheb1 (S (S n)) x = 2 * (cheb (S n) x + x * cheb1 (S n) x) - cheb1 n x.
Proof. unfold cheb1 at 1. cbn [chebd]. rewrite chebd_eq. cbn. reflexivity. Qed.
Lemma cheb2_SS n x : cheb2 (S (S n)) x = 2 * (2 * cheb1 (S n) x + x * cheb2 (S n) x) - cheb2 n x.
Proof. unfold cheb2 at 1. cbn [chebd]. rewrite chebd_eq. cbn. reflexivity. Qed.
Lemma dlim_ext (f g : R -> R) x l : (forall t, f t = g t) -> derivable_pt_lim f x l -> derivable_pt_lim g x l.
Proof. intros E H e He. destruct (H e He) as (d & Hd). exists d. intros h. rewrite <- !E. apply Hd. Qed.
Lemma cheb1_ok n : forall x, derivable_pt_lim (cheb n) x (cheb1 n x).
Proof.
  induction n as [| |n IH0 IH1] using cheb_ind; intros x.
  - apply (dlim_ext (fun _ => 1)); [reflexivity|]. apply derivable_pt_lim_const.
  - apply (dlim_ext (fun x => x)); [reflexivity|]. apply derivable_pt_lim_id.
  - apply (dlim_ext (fun x => 2 * x * cheb (S n) x - cheb n x)); [intros; now rewrite cheb_SS|]. rewrite cheb1_SS.
    replace (2 * (cheb (S n) x + x * cheb1 (S n) x) - cheb1 n x) with (((2 * 1) * cheb (S n) x + 2 * x * cheb1 (S n) x) - cheb1 n x) by ring.
    apply (derivable_pt_lim_minus (fun x => 2 * x * cheb (S n) x)); auto. apply (derivable_pt_lim_mult (fun x => 2 * x)); auto.
    apply (derivable_pt_lim_scal (fun x => x)). apply derivable_pt_lim_id.
Qed.
Lemma cheb2_ok n : forall x, derivable_pt_lim (cheb1 n) x (cheb2 n x).
Proof.
  induction n as [| |n IH0 IH1] using cheb_ind; intros x.
  - apply (dlim_ext (fun _ => 0)); [reflexivity|]. apply derivable_pt_lim_const.
  - apply (dlim_ext (fun x => 1)); [reflexivity|]. apply derivable_pt_lim_const.
  - apply (dlim_ext (fun x => 2 * (cheb (S n) x + x * cheb1 (S n) x) - cheb1 n x)); [intros; now rewrite cheb1_SS|]. rewrite cheb2_SS.
    replace (2 * (2 * cheb1 (S n) x + x * cheb2 (S n) x) - cheb2 n x) with (2 * (cheb1 (S n) x + (1 * cheb1 (S n) x + x * cheb2 (S n) x)) - cheb2 n x) by ring.
    apply (derivable_pt_lim_minus (fun x => 2 * (cheb (S n) x + x * cheb1 (S n) x))); auto. apply (derivable_pt_lim_scal (fun x => cheb (S n) x + x * cheb1 (S n) x)).
    apply (derivable_pt_lim_plus (cheb (S n))); [apply cheb1_ok|]. apply (derivable_pt_lim_mult (fun x => x)); auto. apply derivable_pt_lim_id.
Qed.
(** on [-1,1] they are cos(n acos x): the recurrence is that of the cosines *)
Lemma cheb_cos n t : cheb n (cos t) = cos (INR n * t).
Proof.
  induction n as [| |n IH0 IH1] using cheb_ind.
  - cbn. rewrite Rmult_0_l, cos_0. reflexivity.
  - cbn. rewrite Rmult_1_l. reflexivity.
  - rewrite cheb_SS, IH0, IH1. rewrite !S_INR.
    replace ((INR n + 1 + 1) * t) with ((INR n + 1) * t + t) by ring. replace (INR n * t) with ((INR n + 1) * t - t) by ring.
    rewrite cos_plus, cos_minus. ring.
Qed.
