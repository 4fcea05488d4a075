(** The iteration of Penrose and the equation of Lyapunov. *)
From Coq Require Import Reals Lra Lia Psatz.
From Verif Require Import Prelude Prelude_Proofs Scalar RealLib Fmat Fmat_Proofs LE_Model LE_Spec LE_Props IP_Model IP_Proofs Vop Qp_Proofs
  Eig_Model Eig_Spec Eig_Proofs Eig6_Proofs Gen_Model Gen_Spec Gen_Proofs Gen2_Proofs Gen3_Proofs Gen4_Proofs.
Local Open Scope R_scope.

Lemma forallb_exists_false {A} (f : A -> bool) l : forallb f l = false -> exists x, In x l /\ f x = false.
Proof.
  induction l as [|x l IH]; intros H; [discriminate H|]. cbn in H. destruct (f x) eqn:E; [destruct (IH H) as (y & I & F); exists y; split; [right; auto|auto]|exists x; split; [left; auto|auto]].
Qed.
Lemma mtiny_0 p (m : fmat R) : nr m = p -> nc m = p ->
  (mtiny 0 m = true -> forall i j, (i < p)%nat -> (j < p)%nat -> el m i j = 0) /\
  (mtiny 0 m = false -> exists i j, (i < p)%nat /\ (j < p)%nat /\ el m i j <> 0).
Proof.
  intros M1 M2. unfold mtiny. rewrite M1, M2.
  assert (K : forall x : R, is_tol 0 x = true <-> x = 0).
  { apply is_tol_0. }
  split.
  - intros H i j Hi Hj. rewrite forallb_forall in H. specialize (H i ltac:(apply in_seq; lia)). rewrite forallb_forall in H. specialize (H j ltac:(apply in_seq; lia)). apply K. exact H.
  - intros H. destruct (forallb_exists_false _ _ H) as (i & Hi & H1). destruct (forallb_exists_false _ _ H1) as (j & Hj & H2).
    apply in_seq in Hi. apply in_seq in Hj. exists i, j. conjs; try lia. intros Z. rewrite (proj2 (K _) Z) in H2. discriminate H2.
Qed.

Section Penrose.
  Variables (n p : nat) (M : nat -> nat -> R).
  Let B : nat -> nat -> R := mmul n (tr M) M.
  Definition meq (A C : nat -> nat -> R) : Prop := forall i j, (i < p)%nat -> (j < p)%nat -> A i j = C i j.
  Definition msym (A : nat -> nat -> R) : Prop := forall i j, (i < p)%nat -> (j < p)%nat -> A i j = A j i.
  Lemma meq_mul A A' C C' : meq A A' -> meq C C' -> meq (mmul p A C) (mmul p A' C').
  Proof. intros H1 H2 i j Hi Hj. apply mmul_ext; auto. Qed.
  Lemma B_sym : msym B.
  Proof. intros i j Hi Hj. unfold B, mmul, tr. apply rsum_ext. intros; ring. Qed.
  Lemma sym_mul A C : msym A -> msym C -> meq (mmul p A C) (mmul p C A) -> msym (mmul p A C).
  Proof.
    intros H1 H2 H3 i j Hi Hj. rewrite H3 by auto. change (mmul p C A i j = tr (mmul p A C) i j). rewrite mmul_tr. apply mmul_ext; intros l Hl; unfold tr; auto.
  Qed.
  Lemma sym_sq A : msym A -> (forall i j, (i < p)%nat -> (j < p)%nat -> mmul p A A i j = 0) -> meq A (fun _ _ => 0).
  Proof.
    intros S H i j Hi Hj. rewrite <- (mmul_delta_r p A i j Hj). apply (gram_kernel p p A (fun l => delta l j)); auto.
    intros k Hk. rewrite <- (H k j Hk Hj). unfold mmul at 1. apply rsum_ext. intros l Hl. rewrite (S l k) by auto. f_equal. change (mmul p A delta l j = A l j). apply mmul_delta_r; auto.
  Qed.
  (** the exit *)
  Lemma penrose_exit C t k : (0 < k)%nat -> msym C -> meq (mmul p C B) (mmul p B C) -> t = rsum p (fun i => mmul p C B i i) -> ~ meq (mmul p C B) (fun _ _ => 0) ->
    meq (fun i j => t / INR k * B i j) (mmul p (mmul p C B) B) ->
    mp_inverse n p M (fun i j => rsum p (fun l => C i l * (INR k / t) * M j l)) /\
    INR k = rsum p (fun i => mmul n (fun i j => rsum p (fun l => C i l * (INR k / t) * M j l)) M i i).
  Proof.
    intros Hk SC CB Et N Ex. assert (Hk' : INR k <> 0) by (apply not_0_INR; lia).
    pose proof (sym_mul C B SC B_sym CB) as SCB.
    assert (T0 : t <> 0).
    { intros Z. apply N. apply sym_sq; auto. intros i j Hi Hj.
      transitivity (mmul p C (mmul p (mmul p C B) B) i j).
      - rewrite (mmul_assoc p p C B (mmul p C B)). apply mmul_ext; auto. intros l Hl. rewrite <- (mmul_assoc p p B C B). apply mmul_ext; auto. intros; symmetry; auto.
      - unfold mmul at 1. apply rsum_0. intros l Hl. rewrite <- Ex by auto. rewrite Z. unfold Rdiv. ring. }
    set (s := INR k / t). assert (Hs : s * (t / INR k) = 1) by (unfold s; field; auto).
    assert (SB : meq (fun i j => s * mmul p (mmul p C B) B i j) B).
    { intros i j Hi Hj. cbv beta. rewrite <- Ex by auto. rewrite <- Rmult_assoc, Hs. ring. }
    set (X := fun i j => rsum p (fun l => C i l * s * M j l)).
    assert (EX : forall i j, X i j = mmul p (fun i j => s * C i j) (tr M) i j) by (intros; unfold X, mmul, tr; apply rsum_ext; intros; ring).
    set (P := fun i j => s * mmul p C B i j).
    assert (XM : forall i j, mmul n X M i j = P i j).
    { intros i j. rewrite (mmul_ext n X (mmul p (fun i j => s * C i j) (tr M)) M M) by auto. rewrite mmul_assoc. apply mmul_scal_l. }
    assert (SP : msym P) by (intros i j Hi Hj; unfold P; rewrite SCB by auto; reflexivity).
    assert (MP : forall i j, (i < n)%nat -> (j < p)%nat -> mmul p M P i j = M i j).
    { intros i j Hi Hj. assert (Q : mv p M (fun l => P l j - delta l j) i = 0).
      - apply (gram_kernel n p M (fun l => P l j - delta l j)); auto. intros k' Hk1.
        rewrite (rsum_ext n _ (fun i => tr M k' i * mmul p M P i j - tr M k' i * M i j)).
        + rewrite rsum_sub. change (mmul n (tr M) (mmul p M P) k' j - B k' j = 0). rewrite <- mmul_assoc. change (mmul p B P k' j - B k' j = 0).
          unfold P. rewrite mmul_scal_r. rewrite <- (SB k' j Hk1 Hj). rewrite <- mmul_assoc.
          rewrite (mmul_ext p (mmul p B C) (mmul p C B) B B) by (auto; intros; symmetry; auto). ring.
        + intros i' Hi'. rewrite (mv_sub p M (fun l => P l j) (fun l => delta l j)). change (mv p M (fun l => delta l j) i') with (mmul p M delta i' j). rewrite mmul_delta_r by auto. unfold tr, mmul, mv. ring.
      - rewrite (mv_sub p M (fun l => P l j) (fun l => delta l j)) in Q. change (mv p M (fun l => delta l j) i) with (mmul p M delta i j) in Q. rewrite mmul_delta_r in Q by auto. unfold mmul, mv in *. lra. }
    split; [split; [|split; [|split]]|].
    - intros i j Hi Hj. rewrite mmul_assoc. rewrite <- (MP i j) at 1 by auto. apply mmul_ext; auto.
    - intros i j Hi Hj. rewrite (mmul_ext p (mmul n X M) P X (mmul p (fun i j => s * C i j) (tr M))) by auto. rewrite EX. rewrite <- mmul_assoc.
      transitivity (mmul p (mmul p (fun i j => s * C i j) P) (tr M) i j).
      + apply mmul_ext; auto. intros l Hl. rewrite mmul_scal_l, mmul_scal_r. f_equal. unfold P.
        rewrite mmul_scal_l, mmul_scal_r. f_equal. rewrite mmul_assoc. apply mmul_ext; auto. intros; symmetry; auto.
      + rewrite mmul_assoc. apply mmul_ext; auto. intros l Hl. unfold tr at 2. rewrite <- (MP j l) by auto. unfold mmul, tr. apply rsum_ext. intros q Hq. rewrite (SP l q) by auto. ring.
    - assert (K : forall i j, (i < n)%nat -> (j < n)%nat -> mmul p M X i j = s * rsum p (fun l => rsum p (fun q => M i l * C l q * M j q))).
      { intros i j Hi Hj. unfold mmul, X. rewrite <- rsum_scal. apply rsum_ext. intros l Hl. rewrite <- !rsum_scal. apply rsum_ext. intros; ring. }
      intros i j Hi Hj. rewrite !K by auto. f_equal. rewrite rsum_swap. apply rsum_ext. intros l Hl. apply rsum_ext. intros q Hq. rewrite (SC q l) by auto. ring.
    - intros i j Hi Hj. rewrite !XM. auto.
    - fold X. rewrite (rsum_ext p _ (fun i => s * mmul p C B i i)) by (intros; apply XM). rewrite rsum_scal, <- Et. unfold s. field. auto.
  Qed.

  Definition inv (k : nat) (c c2 cb : fmat R) (t : R) : Prop :=
    nr c2 = p /\ nc c2 = p /\ nr cb = p /\ nc cb = p /\ (0 < k)%nat /\ msym (el c2) /\ meq (mmul p (el c2) B) (mmul p B (el c2)) /\ meq (el cb) (mmul p (el c2) B) /\
    (k = 1%nat /\ meq (el cb) B \/ (2 <= k)%nat /\ msym (el c) /\ meq (mmul p (el c) B) (mmul p B (el c)) /\ t = rsum p (fun i => mmul p (el c) B i i) /\ ~ meq (mmul p (el c) B) (fun _ _ => 0) /\
       meq (el c2) (fun i j => t / INR (k - 1) * delta i j - mmul p (el c) B i j)).
  Lemma penrose_inv fuel : forall k (b c c2 cb : fmat R) t c' t' k', nc b = p -> (forall i j, el b i j = B i j) -> inv k c c2 cb t ->
    penrose_loop 0 fuel k b c c2 cb t = Some (c', t', k') -> exists c2' cb', inv k' c' c2' cb' t' /\ mtiny 0 cb' = true.
  Proof.
    induction fuel as [|fuel IH]; intros k b c c2 cb t c' t' k' Nb HB I H; cbn [penrose_loop] in H; destruct (mtiny 0 cb) eqn:Tn; try discriminate H.
    1,2: injection H as <- <- <-; exists c2, cb; auto.
    pose proof I as (I1 & I2 & I3 & I4 & I5 & I6 & I7 & I8 & _).
    assert (Hk : INR k <> 0) by (apply not_0_INR; lia).
    assert (SZ : sofZ (Z.of_nat k) = INR k) by (cbn [sofZ RealS]; symmetry; apply INR_IZR_INZ).
    assert (TE : mtrace cb = rsum p (fun i => mmul p (el c2) B i i)).
    { unfold mtrace. rewrite ksum_R, I3. apply rsum_ext. intros i Hi. apply I8; auto. }
    refine (IH _ _ _ _ _ _ _ _ _ Nb HB _ H).
    set (t1 := mtrace cb) in *.
    assert (E2 : meq (fun i j => ((if (i =? j)%nat then s1 else s0) * (t1 / sofZ (Z.of_nat k)) - el cb i j)%S) (fun i j => t1 / INR k * delta i j - mmul p (el c2) B i j)).
    { intros i j Hi Hj. cbv beta. rewrite SZ, I8 by auto. unfold delta. destruct (i =? j)%nat; rs; ring. }
    assert (SCB : msym (mmul p (el c2) B)) by (apply sym_mul; auto using B_sym).
    unfold inv. cbn [nr nc el mulmm]. conjs; auto.
    - intros i j Hi Hj. rewrite !E2 by auto. rewrite (SCB i j) by auto. unfold delta. rewrite (Nat.eqb_sym i j). reflexivity.
    - intros i j Hi Hj. rewrite (mmul_ext p _ (fun i j => t1 / INR k * delta i j - mmul p (el c2) B i j) B B) by (auto; intros; apply E2; auto).
      rewrite (mmul_ext p B B _ (fun i j => t1 / INR k * delta i j - mmul p (el c2) B i j)) by (auto; intros; apply E2; auto).
      rewrite mmul_sub_l, mmul_sub_r, mmul_scal_l, mmul_scal_r, mmul_delta_l, mmul_delta_r by auto. f_equal.
      transitivity (mmul p (mmul p B (el c2)) B i j); [apply mmul_ext; auto|apply mmul_assoc].
    - intros i j Hi Hj. rewrite ksum_R. rewrite I2. unfold mmul at 1. apply rsum_ext. intros l Hl. rewrite HB. reflexivity.
    - right. replace (S k - 1)%nat with k by lia. conjs; auto; try lia. intros Z. destruct (proj2 (mtiny_0 p cb I3 I4) Tn) as (i & j & Hi & Hj & Nz). apply Nz. rewrite I8, Z by auto. reflexivity.
  Qed.
End Penrose.

Lemma mp_tr n p M X : mp_inverse p n (tr M) X -> mp_inverse n p M (tr X).
Proof.
  intros (H1 & H2 & H3 & H4).
  assert (E1 : forall i j, mmul p M (tr X) i j = mmul p X (tr M) j i) by (intros; unfold mmul, tr; apply rsum_ext; intros; ring).
  assert (E2 : forall i j, mmul n (tr X) M i j = mmul n (tr M) X j i) by (intros; unfold mmul, tr; apply rsum_ext; intros; ring).
  split; [|split; [|split]].
  - intros i k Hi Hk. transitivity (tr M k i); [|reflexivity]. rewrite <- H1 by auto. rewrite mmul_assoc. unfold mmul at 1 3. apply rsum_ext. intros l Hl. rewrite E2. unfold tr. ring.
  - intros k i Hk Hi. transitivity (X i k); [|reflexivity]. rewrite <- (H2 i k) by auto. rewrite mmul_assoc. unfold mmul at 1 3. apply rsum_ext. intros l Hl. rewrite E1. unfold tr. ring.
  - intros i j Hi Hj. rewrite !E1. auto.
  - intros i j Hi Hj. rewrite !E2. auto.
Qed.
Lemma penrose_ok n p (m mp : fmat R) fuel r X : nr m = n -> nc m = p -> nr mp = p -> nc mp = n -> (exists i k, (i < n)%nat /\ (k < p)%nat /\ el m i k <> 0) ->
  _zMatMPInvPenrose 0 fuel m mp = Ok (Some (r, X)) -> nr X = p /\ nc X = n /\ mp_inverse n p (el m) (el X) /\ INR r = rsum p (fun k => mmul n (el X) (el m) k k).
Proof.
  intros R1 C1 M1 M2 NZ H. unfold _zMatMPInvPenrose in H. rewrite C1 in H.
  set (b := mul_matT_mat m m) in *.
  assert (HB : forall i j, el b i j = mmul n (tr (el m)) (el m) i j) by (intros; unfold b, mul_matT_mat; cbn [el]; rewrite ksum_R, R1; reflexivity).
  destruct (penrose_loop _ _ _ _ _ _ _ _) as [[[c t] k]|] eqn:E; [|discriminate H].
  assert (I0 : inv n p (el m) 1 (zmat p p) (FM p p (fun i j => if (i =? j)%nat then s1 else s0)) b 0).
  { unfold inv. cbn [nr nc el]. conjs; auto.
    - intros i j Hi Hj. rewrite (Nat.eqb_sym i j). reflexivity.
    - intros i j Hi Hj. change (mmul p delta (mmul n (tr (el m)) (el m)) i j = mmul p (mmul n (tr (el m)) (el m)) delta i j). rewrite mmul_delta_l, mmul_delta_r by auto. reflexivity.
    - intros i j Hi Hj. rewrite HB. symmetry. apply (mmul_delta_l p); auto.
    - left. split; auto. intros i j Hi Hj. apply HB. }
  destruct (penrose_inv n p (el m) fuel 1 b (zmat p p) _ b 0 c t k C1 HB I0 E) as (c2 & cb & I & Tn).
  destruct I as (I1 & I2 & I3 & I4 & I5 & I6 & I7 & I8 & I9).
  pose proof (proj1 (mtiny_0 p cb I3 I4) Tn) as Z.
  destruct I9 as [(-> & ZB)|(Hk & S & CB & Et & N & E2)].
  - exfalso. destruct NZ as (i & j & Hi & Hj & Nz). apply Nz.
    rewrite <- (mmul_delta_r p (el m) i j Hj). apply (gram_kernel n p (el m) (fun l => delta l j)); auto. intros k Hk.
    rewrite <- (Z k j Hk Hj), ZB by auto. unfold mmul, tr. apply rsum_ext. intros q Hq. f_equal. change (mmul p (el m) delta q j = el m q j). apply mmul_delta_r; auto.
  - destruct (penrose_exit n p (el m) (el c) t (k - 1)) as (P1 & P2); auto; try lia.
    { intros i j Hi Hj. pose proof (I8 i j Hi Hj) as Q. rewrite Z in Q by auto.
      rewrite (mmul_ext p (el c2) _ _ (mmul n (tr (el m)) (el m)) i j (fun l Hl => E2 i l Hi Hl) (fun l Hl => eq_refl)) in Q.
      rewrite mmul_sub_l, mmul_scal_l, mmul_delta_l in Q by auto. lra. }
    unfold zMulMatMatTNC in H. rewrite M1, M2 in H. cbn [nr nc el] in H. rewrite R1, C1, !Nat.leb_refl in H. cbn [andb bind] in H. injection H as <- <-. cbn [nr nc el]. conjs; auto.
    + apply (mp_inverse_ext n p (el m) _ _ P1). intros i j. rewrite ksum_R. apply rsum_ext. intros l Hl. cbn [sofZ RealS]. rewrite <- INR_IZR_INZ. reflexivity.
    + rewrite P2 at 1. apply rsum_ext. intros i Hi. apply mmul_ext; auto. intros l Hl. rewrite ksum_R. apply rsum_ext. intros q Hq. cbn [sofZ RealS]. rewrite <- INR_IZR_INZ. reflexivity.
Qed.
Lemma penrose_all n p (m mp : fmat R) fuel r X : nr m = n -> nc m = p -> nr mp = p -> nc mp = n -> (exists i k, (i < n)%nat /\ (k < p)%nat /\ el m i k <> 0) ->
  zMatMPInvPenrose 0 fuel m mp = Ok (Some (r, X)) -> nr X = p /\ nc X = n /\ mp_inverse n p (el m) (el X) /\ INR r = rsum p (fun k => mmul n (el X) (el m) k k).
Proof.
  intros R1 C1 M1 M2 NZ H. unfold zMatMPInvPenrose in H. destruct (nr m <? nc m)%nat; [|apply (penrose_ok n p m mp fuel); auto].
  destruct (_zMatMPInvPenrose 0 fuel (transpose m) (transpose mp)) as [o|] eqn:E; [|discriminate H]. cbn [bind] in H. destruct o as [[r' Y]|]; [|discriminate H].
  cbn [option_map fst snd] in H. injection H as <- <-.
  destruct (penrose_ok p n (transpose m) (transpose mp) fuel r' Y) as (Y1 & Y2 & Y3 & Y4); auto.
  { destruct NZ as (i & k & Hi & Hk & N). exists k, i. auto. }
  cbn [transpose nr nc el] in *. conjs; auto.
  - exact (mp_tr n p (el m) (el Y) Y3).
  - rewrite Y4. unfold mmul. rewrite rsum_swap. apply rsum_ext. intros k Hk. apply rsum_ext. intros; ring.
Qed.

(** ** the equation of Lyapunov *)
Lemma not_nonsingular N W : ~ nonsingular N W -> exists z q, solves N N W z (fun _ => 0) /\ (q < N)%nat /\ z q <> 0.
Proof.
  intros H. destruct (Classical_Prop.classic (exists z q, solves N N W z (fun _ => 0) /\ (q < N)%nat /\ z q <> 0)) as [|X]; auto.
  exfalso. apply H. intros z Hz q Hq. destruct (Req_dec (z q) 0); auto. exfalso. apply X. exists z, q. auto.
Qed.
Section Lyap.
  Variables (n : nat) (a : fmat R).
  Hypothesis Hn : (0 < n)%nat.
  Hypothesis R1 : nr a = n.
  Hypothesis C1 : nc a = n.
  Definition term (x : nat -> R) (r i j k : nat) : R :=
    (if (r =? n * i + k)%nat then el a j i * x (n * k + j)%nat else 0) + (if (r =? n * k + i)%nat then el a j i * x (n * j + k)%nat else 0).
  Lemma mv_upd N (A A' : nat -> nat -> R) r0 c0 v x r : (c0 < N)%nat ->
    (forall i j, A' i j = if ((i =? r0) && (j =? c0))%nat then A i j + v else A i j) -> mv N A' x r = mv N A x r + (if (r =? r0)%nat then v * x c0 else 0).
  Proof.
    intros Hc H. unfold mv. rewrite (rsum_ext N _ (fun c => A r c * x c + (if ((r =? r0) && (c =? c0))%nat then v * x c else 0))).
    - rewrite rsum_add. f_equal. destruct (r =? r0)%nat; cbn [andb]; [|apply rsum_0; auto].
      rewrite (rsum_delta N c0 (fun c => if (c =? c0)%nat then v * x c else 0)); auto; [rewrite Nat.eqb_refl; reflexivity|]. intros i Hi Ni. rewrite (proj2 (Nat.eqb_neq i c0)) by auto. reflexivity.
    - intros c Hc'. rewrite H. destruct (_ && _); ring.
  Qed.
  Definition part (w : fmat R) (f : (nat -> R) -> nat -> R) : Prop := nr w = (n * n)%nat /\ nc w = (n * n)%nat /\ forall x r, (r < n * n)%nat -> mv (n * n) (el w) x r = f x r.
  Lemma lyap_mat_ok : exists w, lyap_mat n a = Ok w /\ part w (fun x r => rsum n (fun i => rsum n (fun j => rsum n (fun k => term x r i j k)))).
  Proof.
    unfold lyap_mat.
    match goal with |- context [for_ 0 n ?f ?s] => destruct (for_inv (fun i w => part w (fun x r => rsum i (fun i => rsum n (fun j => rsum n (fun k => term x r i j k))))) 0 n f s) as (w & E & H) end; [lia| | |exists w; auto].
    { split; auto. split; auto. intros x r Hr. cbn [rsum]. unfold mv. apply rsum_0. intros. cbn. ring. }
    intros i w Hi H1.
    match goal with |- context [for_ 0 n ?f ?s] => destruct (for_inv (fun j w => part w (fun x r => rsum i (fun i => rsum n (fun j => rsum n (fun k => term x r i j k))) + rsum j (fun j => rsum n (fun k => term x r i j k)))) 0 n f s) as (w' & E & H) end;
      [lia| | |exists w'; split; [exact E|exact H]].
    { destruct H1 as (A1 & A2 & A3). split; auto. split; auto. intros x r Hr. rewrite A3 by auto. cbn [rsum]. ring. }
    intros j w1 Hj H2.
    match goal with |- context [for_ 0 n ?f ?s] => destruct (for_inv (fun k w => part w (fun x r => rsum i (fun i => rsum n (fun j => rsum n (fun k => term x r i j k))) + (rsum j (fun j => rsum n (fun k => term x r i j k)) + rsum k (fun k => term x r i j k)))) 0 n f s) as (w' & E & H) end;
      [lia| | |exists w'; split; [exact E|exact H]].
    { destruct H2 as (A1 & A2 & A3). split; auto. split; auto. intros x r Hr. rewrite A3 by auto. cbn [rsum]. ring. }
    intros k w2 Hk (A1 & A2 & A3).
    rewrite mget_ok by lia. cbn [bind]. rewrite mmod_ok, mset_ok by nia. cbn [bind]. rewrite mmod_ok, mset_ok by (cbn [nr nc]; nia). eexists. split; [reflexivity|].
    split; auto. split; auto. intros x r Hr. cbn [nr nc el].
    match goal with |- mv ?N ?A2' ?x ?r = _ => set (B2 := A2') end.
    set (B1 := fun i' j' => if ((i' =? n * i + k) && (j' =? n * k + j))%nat then el w2 i' j' + el a j i else el w2 i' j').
    rewrite (mv_upd (n * n) B1 B2 (n * k + i) (n * j + k) (el a j i) x r); [|nia|].
    - rewrite (mv_upd (n * n) (el w2) B1 (n * i + k) (n * k + j) (el a j i) x r); [|nia|].
      + rewrite A3 by auto. cbn [rsum]. replace (term x r i j k) with ((if (r =? n * i + k)%nat then el a j i * x (n * k + j)%nat else 0) + (if (r =? n * k + i)%nat then el a j i * x (n * j + k)%nat else 0)) by reflexivity. ring.
      + intros i' j'. unfold B1. reflexivity.
    - intros i' j'. unfold B2, B1. destruct (Nat.eqb_spec i' (n * k + i)) as [->|]; cbn [andb]; [destruct (Nat.eqb_spec j' (n * j + k)) as [->|]; cbn [andb]|].
      all: repeat match goal with |- context [(?x =? ?y)%nat] => let Q := fresh in destruct (Nat.eqb_spec x y) as [Q|Q]; cbn [andb]; try rewrite Q end; rs; try reflexivity; try contradiction.
  Qed.
  Lemma pair_eq i k r s : (k < n)%nat -> (s < n)%nat -> (n * r + s = n * i + k)%nat -> i = r /\ k = s.
  Proof. intros. assert (i = r) by nia. nia. Qed.
  (** element (s,r) of X A + A^T X, X being stored row by row *)
  Lemma lyap_row x r s : (r < n)%nat -> (s < n)%nat -> rsum n (fun i => rsum n (fun j => rsum n (fun k => term x (n * r + s) i j k))) =
    rsum n (fun j => x (n * s + j)%nat * el a j r) + rsum n (fun j => el a j s * x (n * j + r)%nat).
  Proof.
    intros Hr Hs. unfold term.
    rewrite (rsum_ext n _ (fun i => rsum n (fun j => if (i =? r)%nat then x (n * s + j)%nat * el a j r else 0) + rsum n (fun j => if (i =? s)%nat then el a j s * x (n * j + r)%nat else 0))).
    - rewrite rsum_add. f_equal.
      + rewrite (rsum_delta n r); auto; [rewrite Nat.eqb_refl; reflexivity|]. intros i Hi Ni. rewrite (proj2 (Nat.eqb_neq i r)) by auto. apply rsum_0. auto.
      + rewrite (rsum_delta n s); auto; [rewrite Nat.eqb_refl; reflexivity|]. intros i Hi Ni. rewrite (proj2 (Nat.eqb_neq i s)) by auto. apply rsum_0. auto.
    - intros i Hi. rewrite <- rsum_add. apply rsum_ext. intros j Hj. rewrite rsum_add. f_equal.
      + rewrite (rsum_delta n s); auto.
        * destruct (Nat.eqb_spec i r) as [->|]; [rewrite Nat.eqb_refl; ring|]. rewrite (proj2 (Nat.eqb_neq _ _)); auto. intros Q. destruct (pair_eq i s r s Hs Hs Q). lia.
        * intros k Hk Nk. rewrite (proj2 (Nat.eqb_neq _ _)); auto. intros Q. destruct (pair_eq i k r s Hk Hs Q). lia.
      + rewrite (rsum_delta n r); auto.
        * destruct (Nat.eqb_spec i s) as [->|]; [rewrite Nat.eqb_refl; ring|]. rewrite (proj2 (Nat.eqb_neq _ _)); auto. lia.
        * intros k Hk Nk. rewrite (proj2 (Nat.eqb_neq _ _)); auto. intros Q. destruct (pair_eq k i r s Hi Hs Q). lia.
  Qed.
  (** X A + A^T X *)
  Definition lyap (X : nat -> nat -> R) (i j : nat) : R := mmul n X (el a) i j + mmul n (tr (el a)) X i j.
  Lemma div_mod_at r s : (s < n)%nat -> ((n * r + s) / n = r /\ (n * r + s) mod n = s)%nat.
  Proof.
    intros Hs. split.
    - rewrite Nat.mul_comm, Nat.div_add_l by lia. rewrite (Nat.div_small s n) by auto. lia.
    - rewrite Nat.add_comm, Nat.mul_comm, Nat.mod_add by lia. apply Nat.mod_small. auto.
  Qed.
  Lemma at_div_mod q : (q < n * n)%nat -> exists r s, (r < n)%nat /\ (s < n)%nat /\ q = (n * r + s)%nat.
  Proof.
    intros Hq. exists (q / n)%nat, (q mod n)%nat. conjs.
    - apply Nat.div_lt_upper_bound; lia.
    - apply Nat.mod_upper_bound. lia.
    - apply Nat.div_mod. lia.
  Qed.
  Lemma lyap_vec w x : part w (fun x r => rsum n (fun i => rsum n (fun j => rsum n (fun k => term x r i j k)))) ->
    forall r s, (r < n)%nat -> (s < n)%nat -> mv (n * n) (el w) x (n * r + s) = lyap (fun i j => x (n * i + j)%nat) s r.
  Proof. intros (W1 & W2 & W3) r s Hr Hs. rewrite W3 by nia. rewrite lyap_row by auto. reflexivity. Qed.
  Lemma lyapnov_ok (b ans : fmat R) : nr b = n -> nc b = n -> nr ans = n -> nc ans = n ->
    exists o, zLELyapnovSolve 0 a b ans = Ok o /\
     match o with
     | Some X => nr X = n /\ nc X = n /\ (forall i j, (i < n)%nat -> (j < n)%nat -> lyap (el X) i j = el b i j) /\
                 (forall Y, (forall i j, (i < n)%nat -> (j < n)%nat -> lyap Y i j = el b i j) -> forall i j, (i < n)%nat -> (j < n)%nat -> Y i j = el X i j)
     | None => exists Z i j, (forall i j, (i < n)%nat -> (j < n)%nat -> lyap Z i j = 0) /\ (i < n)%nat /\ (j < n)%nat /\ Z i j <> 0
     end.
  Proof.
    intros B1 B2 X1 X2. unfold zLELyapnovSolve, issqr. rewrite R1, C1, B1, B2, X1, X2, !Nat.eqb_refl. cbn [negb orb].
    destruct lyap_mat_ok as (w & E & W). rewrite E. cbn [bind]. pose proof W as (W1 & W2 & W3).
    set (bv := FV (n * n) (fun p => el b (p mod n) (p / n))). set (xv := FV (n * n) _).
    destruct (C23_gauss_exact (n * n) w bv xv) as (o & Eo & H); auto; try nia.
    unfold zLESolveGauss in Eo. rewrite W1, W2 in Eo. cbn [vlen bv xv] in Eo. rewrite !Nat.eqb_refl in Eo. cbn [negb orb] in Eo. fold bv xv in Eo. rewrite Eo. cbn [bind].
    eexists. split; [reflexivity|].
    assert (BV : forall r s, (r < n)%nat -> (s < n)%nat -> vel bv (n * r + s) = el b s r).
    { intros r s Hr Hs. unfold bv. cbn [vel]. destruct (div_mod_at r s Hs) as (-> & ->). reflexivity. }
    assert (LV : forall Y r s, (r < n)%nat -> (s < n)%nat -> mv (n * n) (el w) (fun q => Y (q / n)%nat (q mod n)%nat) (n * r + s) = lyap Y s r).
    { intros Y r s Hr Hs. rewrite (lyap_vec w _ W r s Hr Hs). unfold lyap. f_equal; unfold mmul; apply rsum_ext; intros j Hj.
      - destruct (div_mod_at s j Hj) as (-> & ->). reflexivity.
      - destruct (div_mod_at j r Hr) as (-> & ->). reflexivity. }
    destruct o as [x|]; cbn [option_map].
    - destruct H as (V & S & NS). cbn [nr nc el]. conjs; auto.
      + intros i j Hi Hj. rewrite <- (lyap_vec w (vel x) W j i) by auto. rewrite S by nia. apply BV; auto.
      + intros Y HY i j Hi Hj. 
        assert (Q : Y ((n * i + j) / n)%nat ((n * i + j) mod n)%nat - vel x (n * i + j)%nat = 0).
        * apply (NS (fun q => Y (q / n)%nat (q mod n)%nat - vel x q)); [|nia]. intros q Hq. destruct (at_div_mod q Hq) as (r & s & Hr & Hs & ->).
          rewrite (mv_sub (n * n) (el w) (fun q => Y (q / n)%nat (q mod n)%nat) (vel x)). rewrite LV, S, BV, HY by (auto; nia). ring.
        * destruct (div_mod_at i j Hj) as (E1 & E2). rewrite E1, E2 in Q. lra.
    - destruct (not_nonsingular (n * n) (el w) H) as (z & q & Hz & Hq & Nz). destruct (at_div_mod q Hq) as (r & s & Hr & Hs & ->).
      exists (fun i j => z (n * i + j)%nat), r, s. conjs; auto. intros i j Hi Hj. rewrite <- (lyap_vec w z W j i) by auto. apply Hz. nia.
  Qed.
End Lyap.
