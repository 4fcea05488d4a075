(** The double QR method and the bisection method outside their matrix; singular values over the reals. *)
From Coq Require Import Reals Lra Lia Psatz.
From Verif Require Import Prelude Prelude_Proofs Scalar RealLib Fmat Fmat_Proofs LE_Model IP_Model IP_Proofs Vop Qp_Spec Qp_Proofs
  Eig_Model Eig_Spec Eig4_Proofs Hess_Model Hess_Spec Hess2_Proofs LE_Spec Stab_Proofs LE_Props.
From Verif Require Complex_Model Complex_Proofs.

Section Any.
  Context {T : Type} {ST : Scalar T}.
  Local Notation mat := (fmat T).
  (** a result of the size of a, if there is one *)
  Definition keeps (a : mat) (r : res mat) : Prop := forall b, r = Ok b -> nr b = nr a /\ nc b = nc a.
  Lemma keeps_set a b i j x : nr a = nr b -> nc a = nc b -> keeps b (mset a i j x).
  Proof. intros E1 E2 c. unfold mset. destruct (_ && _)%bool; [|discriminate]. intros Q. inversion Q; subst c. cbn. auto. Qed.
  Lemma keeps_bind a (r : res mat) f : keeps a r -> (forall b, nr b = nr a -> nc b = nc a -> keeps a (f b)) -> keeps a (bind r f).
  Proof. intros H1 H2 c. destruct r as [b|]; cbn [bind]; [|discriminate]. destruct (H1 b eq_refl). apply H2; auto. Qed.
  Lemma keeps_get {X} a (r : res X) f : (forall x, keeps a (f x)) -> keeps a (bind r f).
  Proof. intros H c. destruct r as [b|]; cbn [bind]; [|discriminate]. apply H. Qed.
  Lemma keeps_loop a (f : nat -> mat -> res mat) : (forall i b, nr b = nr a -> nc b = nc a -> keeps a (f i b)) ->
    forall n i b, nr b = nr a -> nc b = nc a -> keeps a (loop n i f b).
  Proof.
    intros H. induction n as [|n IH]; intros i b E1 E2; cbn [loop].
    - intros c Q. inversion Q; subst c. auto.
    - apply keeps_bind; [apply H; auto|]. intros c C1 C2. apply IH; auto.
  Qed.
  Lemma keeps_for a (f : nat -> mat -> res mat) lo hi b : (forall i b, nr b = nr a -> nc b = nc a -> keeps a (f i b)) ->
    nr b = nr a -> nc b = nc a -> keeps a (for_ lo hi f b).
  Proof. intros. apply keeps_loop; auto. Qed.
  Ltac kp := repeat first [match goal with |- keeps _ (bind (mget _ _ _) _) => apply keeps_get; intros ? | |- keeps _ (for_ _ _ _ _) => apply keeps_for; [intros|congruence|congruence] end | apply keeps_bind; [|intros] | apply keeps_set; congruence | apply keeps_for; [intros|congruence|congruence] ].
  Lemma keeps_house a b r c g1 g2 g3 : nr b = nr a -> nc b = nc a -> keeps a (dqr_house b r c g1 g2 g3).
  Proof. intros E1 E2. unfold dqr_house. cbv zeta. kp. Qed.
  Lemma get_row_out (a : mat) i j : nr a <= i -> mget a i j = UB.
  Proof. intros H. unfold mget. replace (i <? nr a) with false by (symmetry; apply Nat.ltb_ge; auto). reflexivity. Qed.
  (** the reflection of the last two rows goes through the row after the last *)
  Lemma house_out (a : mat) r g1 g2 g3 : nr a = S r -> 1 <= r -> dqr_house a r (Nat.max 1 (r - 1)) g1 g2 g3 = UB.
  Proof.
    intros E Hr. unfold dqr_house. cbv zeta. set (c := Nat.max 1 (r - 1)).
    unfold for_ at 1. replace (S r - (c - 1)) with (S (r - (c - 1))) by lia. cbn [loop].
    destruct (mget a c (c - 1)); cbn [bind]; auto. destruct (mget a (c + 1) (c - 1)); cbn [bind]; auto.
    rewrite (get_row_out a (c + 2)) by lia. reflexivity.
  Qed.
  Lemma step_out (a : mat) r b c : nr a = S r -> 1 <= r -> dqr_step a r b c = UB.
  Proof.
    intros E Hr. unfold dqr_step. cbv zeta.
    do 5 (match goal with |- bind ?x _ = UB => destruct x; cbn [bind]; [|reflexivity] end).
    match goal with |- bind ?x _ = UB => destruct x as [aa|] eqn:E1; cbn [bind]; [|reflexivity] end.
    destruct (keeps_house a a _ _ _ _ _ eq_refl eq_refl aa E1) as [N1 C1]. clear E1.
    match goal with |- bind ?x _ = UB => destruct x as [ab|] eqn:E2; cbn [bind]; [|reflexivity] end.
    assert (K : keeps a (Ok ab)).
    { rewrite <- E2. apply keeps_for; auto. intros i b0 B1 B2. do 3 (apply keeps_get; intros ?). now apply keeps_house. }
    destruct (K ab eq_refl) as [N2 _].
    do 2 (match goal with |- bind ?x _ = UB => destruct x; cbn [bind]; [|reflexivity] end).
    apply house_out; lia.
  Qed.
  Lemma inner_out ztol iter (a : mat) r e : nr a = S r -> nc a = S r -> 2 <= r ->
    is_tol ztol (el a r (r - 1)) = false -> is_tol ztol (el a (r - 1) (r - 1 - 1)) = false -> dqr_inner ztol (S iter) a r e = UB.
  Proof.
    intros E1 E2 Hr X Y. cbn [dqr_inner]. cbv zeta. rewrite !mget_ok by lia. cbn [bind]. rewrite X. cbn [bind].
    replace (r - 1 =? 0) with false by (symmetry; apply Nat.eqb_neq; lia). cbn [bind]. rewrite Y. cbn [bind]. rewrite step_out by lia. reflexivity.
  Qed.
  Lemma hess_size ztol fuel (m : mat) h p : zMatToHessenberg ztol fuel m None None = Hess h p -> nr h = nr m /\ nc h = nc m.
  Proof.
    unfold zMatToHessenberg. destruct (negb _); [discriminate|]. cbn [option_map].
    assert (C : forall fuel c h u h' p' u', hess_col ztol fuel c h None u = Some (h', p', u') -> nr h' = nr h /\ nc h' = nc h /\ p' = None).
    { clear. induction fuel as [|fuel IH]; intros c h u h' p' u'; cbn [hess_col]; [discriminate|].
      unfold house. cbv zeta. cbn [option_map nr].
      destruct (forallb _ _); intros Q; [inversion Q; cbn; auto|]. apply IH in Q. exact Q. }
    assert (D : forall cnt c h u h' p', hess_cols ztol fuel cnt c h None u = Some (h', p') -> nr h' = nr h /\ nc h' = nc h).
    { induction cnt as [|cnt IH]; intros c h1 u h' p'; cbn [hess_cols]; [intros Q; inversion Q; auto|].
      destruct (hess_col ztol fuel c h1 None u) as [[[h2 p2] u2]|] eqn:Q; [|discriminate]. apply C in Q. destruct Q as (Q1 & Q2 & ->).
      intros Q. apply IH in Q. lia. }
    destruct (hess_cols ztol fuel (nr m - 2) 0 m None (fun _ => s0)) as [[h1 p1]|] eqn:Q; [|discriminate].
    intros Q2. inversion Q2; subst. now apply D in Q.
  Qed.
  Lemma dqr_out_of_matrix ztol fuel total iter (m a : mat) p : nr m = nc m -> 3 <= nr m ->
    zMatToHessenberg ztol fuel m None None = Hess a p ->
    is_tol ztol (el a (nr m - 1) (nr m - 2)) = false -> is_tol ztol (el a (nr m - 2) (nr m - 3)) = false ->
    zMatEigDQR ztol fuel (S total) (S iter) m (nr m) = UB.
  Proof.
    intros E Hn Hh X Y. destruct (hess_size _ _ _ _ _ Hh) as [N1 N2].
    unfold zMatEigDQR. rewrite E, !Nat.eqb_refl. cbn [negb]. rewrite Hh.
    replace (nr a =? 0) with false by (symmetry; apply Nat.eqb_neq; lia).
    cbn [dqr_outer]. replace (nr a - 1 =? 0) with false by (symmetry; apply Nat.eqb_neq; lia).
    rewrite inner_out; [reflexivity|lia..| |].
    - replace (nr a - 1 - 1) with (nr m - 2) by lia. now rewrite N1.
    - replace (nr a - 1 - 1 - 1) with (nr m - 3) by lia. replace (nr a - 1 - 1) with (nr m - 2) by lia. exact Y.
  Qed.

  Lemma range_loop_out (m : mat) (f : nat -> T * T * T -> res (T * T * T)) : forall n i s, 0 < n ->
    (forall s, f (i + n - 1) s = UB) -> loop n i f s = UB.
  Proof.
    induction n as [|n IH]; intros i s Hn H; [lia|]. cbn [loop]. destruct n as [|n].
    - replace (i + 1 - 1) with i in H by lia. now rewrite H.
    - destruct (f i s); cbn [bind]; auto. apply IH; [lia|]. intros s'. replace (S i + S n - 1) with (i + S (S n) - 1) by lia. apply H.
  Qed.
  Lemma bisec_range_out (m : mat) : nr m = nc m -> 0 < nr m -> bisec_range m = UB.
  Proof.
    intros E Hn. unfold bisec_range, for_. rewrite (range_loop_out m); [reflexivity|lia|].
    intros [[emin emax] ml]. replace (0 + (nr m - 0) - 1) with (nr m - 1) by lia.
    replace (nr m - 1 <? nr m) with true by (symmetry; apply Nat.ltb_lt; lia).
    unfold mget at 1. replace (nr m - 1 + 1 <? nc m) with false by (symmetry; apply Nat.ltb_ge; lia). rewrite andb_false_r. reflexivity.
  Qed.
  Lemma bisec_out {X} ztol fuel (k : mat -> T -> T -> res X) (m : mat) ev eb h p :
    nr m = nc m -> 0 < nr m -> nr eb = nr m -> nc eb = nc m -> vlen ev = nr m -> zMatToHessenberg ztol fuel m None None = Hess h p ->
    zMatSymEigBisec ztol fuel k m ev eb = UB.
  Proof.
    intros E Hn B1 B2 L Hh. destruct (hess_size _ _ _ _ _ Hh) as [N1 N2].
    unfold zMatSymEigBisec. rewrite B1, B2, L, E, !Nat.eqb_refl. cbn [negb andb]. rewrite Hh.
    rewrite bisec_range_out by lia. reflexivity.
  Qed.
End Any.

Local Open Scope R_scope.
(** * the matrix of the singular values *)
Lemma gram_size (m : fmat R) : nr (singular_mat m) = smaller (nr m) (nc m) /\ nc (singular_mat m) = smaller (nr m) (nc m).
Proof. unfold singular_mat, smaller. destruct (nc m <? nr m)%nat; auto. Qed.
Lemma gram_form p q (A : nat -> nat -> R) x :
  dot p x (mulv p (fun i j => rsum q (fun k => A i k * A j k)) x) = rsum q (fun k => rsum p (fun i => A i k * x i) ^ 2).
Proof.
  unfold dot, mulv.
  rewrite (rsum_ext q _ (fun k => rsum p (fun i => rsum p (fun j => x i * (A i k * A j k * x j))))).
  2:{ intros k _. cbn [pow]. rewrite Rmult_1_r, <- rsum_scal_r. apply rsum_ext. intros i _. rewrite <- rsum_scal. apply rsum_ext. intros; ring. }
  rewrite rsum_swap. apply rsum_ext. intros i _. rewrite rsum_swap, <- rsum_scal. apply rsum_ext. intros j _.
  rewrite <- rsum_scal_r, <- rsum_scal. apply rsum_ext. intros; ring.
Qed.
Lemma gram_quad (m : fmat R) x : let n := smaller (nr m) (nc m) in
  dot n x (mulv n (el (singular_mat m)) x) = image2 (nr m) (nc m) (el m) x.
Proof.
  cbv zeta. unfold singular_mat, image2, smaller. destruct (nc m <? nr m)%nat.
  - rewrite <- (gram_form (nc m) (nr m) (fun i k => el m k i) x). apply dot_ext; auto. intros i _. apply rsum_ext. intros j _.
    unfold mul_matT_mat. cbn [el]. now rewrite ksum_R.
  - rewrite <- (gram_form (nr m) (nc m) (fun i k => el m i k) x). apply dot_ext; auto. intros i _. apply rsum_ext. intros j _.
    unfold mul_mat_matT. cbn [el]. now rewrite ksum_R.
Qed.

Lemma cs_unit n v w : unit_vec n v -> dot n v w ^ 2 <= dot n w w.
Proof.
  intros U. assert (P : 0 <= dot n (fun i => w i - dot n v w * v i) (fun i => w i - dot n v w * v i)) by apply dot_nonneg.
  set (c := dot n v w) in *.
  assert (Q : dot n (fun i => w i - c * v i) (fun i => w i - c * v i) = dot n w w - 2 * c * dot n v w + c * c * dot n v v).
  { unfold dot. rewrite <- !rsum_scal, <- rsum_sub, <- rsum_add. apply rsum_ext. intros; ring. }
  rewrite Q, U in P. fold c in P. nra.
Qed.
Lemma inv_rayleigh n (G X : nat -> nat -> R) v s : 0 < s -> unit_vec n v ->
  (forall r j, (r < n)%nat -> (j < n)%nat -> mm n G X r j = if (r =? j)%nat then 1 else 0) ->
  (forall x, s * dot n x x <= dot n x (mulv n G x)) ->
  0 < dot n v (mulv n X v) /\ s * dot n v (mulv n X v) <= 1.
Proof.
  intros Hs U I B. set (w := mulv n X v).
  assert (GW : forall i, (i < n)%nat -> mulv n G w i = v i).
  { intros i Hi. unfold w, mulv. rewrite (rsum_ext n _ (fun k => rsum n (fun j => v j * (G i k * X k j)))) by (intros; rewrite <- rsum_scal; apply rsum_ext; intros; ring).
    rewrite rsum_swap. rewrite (rsum_ext n _ (fun j => v j * delta i j)); [now apply delta_sum|].
    intros j Hj. rewrite rsum_scal. f_equal. apply (I i j Hi Hj). }
  assert (E : dot n w (mulv n G w) = dot n v w) by (rewrite (dot_ext n w w _ v); auto; apply rsum_ext; intros; ring).
  specialize (B w). rewrite E in B. pose proof (cs_unit n v w U) as C. pose proof (dot_nonneg n w) as N.
  assert (W : 0 < dot n w w).
  { destruct N as [N|N]; auto. exfalso. assert (Z : forall i, (i < n)%nat -> w i = 0).
    { intros i Hi. assert (Q : w i * w i = 0) by (apply (rsum_nonneg_0 n (fun i => w i * w i)); auto; intros; nra). nra. }
    unfold unit_vec in U. assert (1 = 0); [|lra]. rewrite <- U. apply rsum_0. intros i Hi. rewrite <- (GW i Hi).
    unfold mulv. rewrite rsum_0; [ring|]. intros k Hk. rewrite Z by auto. ring. }
  split; [nra|]. assert (s * dot n v w ^ 2 <= dot n v w) by nra. assert (0 < dot n v w) by nra.
  apply Rmult_le_reg_r with (dot n v w); auto. nra.
Qed.
Lemma pos_nonsingular n G s : 0 < s -> (forall x, s * dot n x x <= dot n x (mulv n G x)) -> nonsingular n G.
Proof.
  intros Hs B x S i Hi. specialize (B x).
  assert (Z : dot n x (mulv n G x) = 0). { apply rsum_0. intros k Hk. pose proof (S k Hk) as Q. unfold mv in Q. unfold mulv. rewrite Q. ring. }
  rewrite Z in B. pose proof (dot_nonneg n x). assert (D : dot n x x = 0) by nra.
  assert (Q : x i * x i = 0) by (apply (rsum_nonneg_0 n (fun i => x i * x i)); auto; intros; nra). nra.
Qed.
Lemma eig_power_ok tol n (m : fmat R) rnd k : 0 <= tol -> nr m = n -> nc m = n -> vlen rnd = n -> tol < norm n (vel rnd) ->
  exists v e lam ok, zMatEigPower tol (S k) m rnd = Ok (lam, e, ok) /\ unit_vec n v /\ vlen e = n /\ lam = dot n v (mulv n (el m) v) /\
    (forall i, (i < n)%nat -> vel e i = if is_tol tol lam then mulv n (el m) v i else mulv n (el m) v i / lam) /\
    (ok = true -> forall i, (i < n)%nat -> Rabs (mulv n (el m) v i - lam * v i) <= tol).
Proof.
  intros Ht E1 E2 L Hn.
  destruct (power_rayleigh tol n m k rnd (vzero (vlen rnd)) 1 Ht E1 E2 L L (or_introl Hn)) as (v & e & lam & ok & A & U & Le & Ev & El & C).
  unfold zMatEigPower. change (@s1 R RealS) with 1. rewrite A. cbn [bind]. unfold zVecDivDRC.
  destruct (is_tol tol lam) eqn:Tl.
  - cbn [bind]. exists v, e, lam, ok. split; [reflexivity|]. split; [auto|]. split; [auto|]. split; [auto|]. split; [|auto]. rewrite Tl. auto.
  - unfold zVecDivNC, vop1. rewrite Nat.leb_refl. cbn [bind]. eexists v, _, lam, ok. split; [reflexivity|]. split; [auto|]. split; [auto|]. split; [auto|]. split; [|auto]. intros i Hi.
    cbn [vel]. rewrite Tl. rewrite Ev by auto. rs. unfold Rdiv. ring.
Qed.
