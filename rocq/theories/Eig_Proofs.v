(** Jacobi's rotation, sweeps and iteration. *)
From Coq Require Import Reals Lra Lia Psatz.
From Verif Require Import Prelude Prelude_Proofs Scalar RealLib Fmat Fmat_Proofs LE_Model IP_Model Vop Qp_Spec Qp_Proofs Stat_Model Eig_Model.
Local Open Scope R_scope.

(** two sums that differ at two places only *)
Lemma rsum_two n i j (f g : nat -> R) : (i < n)%nat -> (j < n)%nat -> i <> j ->
  (forall k, (k < n)%nat -> k <> i -> k <> j -> f k = g k) -> rsum n f - rsum n g = (f i - g i) + (f j - g j).
Proof.
  intros Hi Hj N H. rewrite <- rsum_sub.
  rewrite (rsum_ext n _ (fun k => (if (k =? i)%nat then f i - g i else 0) + (if (k =? j)%nat then f j - g j else 0))).
  - rewrite rsum_add, (rsum_delta n i), (rsum_delta n j), !Nat.eqb_refl; auto; intros k _ K; apply Nat.eqb_neq in K; rewrite K; auto.
  - intros k Hk. destruct (Nat.eqb_spec k i), (Nat.eqb_spec k j); subst; try lia; try lra. rewrite H by auto. lra.
Qed.
Lemma rsum_two_eq n i j (f g : nat -> R) : (i < n)%nat -> (j < n)%nat -> i <> j ->
  (forall k, (k < n)%nat -> k <> i -> k <> j -> f k = g k) -> f i + f j = g i + g j -> rsum n f = rsum n g.
Proof. intros Hi Hj N H E. pose proof (rsum_two n i j f g Hi Hj N H). lra. Qed.

(** *** the angle of the rotation *)
Section Angle.
  Variables a b x : R.                    (* m_ii, m_jj, m_ij *)
  Hypothesis X : x <> 0.
  Let as_ := 1 / 2 * (a + b).
  Let ad := 1 / 2 * (a - b).
  Let t0 := R_sqrt.sqrt (ad * ad + x * x).
  Let ti := if Rltb ad 0 then - t0 else t0.
  Let c := R_sqrt.sqrt (1 / 2 + 1 / 2 * ad / ti).
  Let s := 1 / 2 * x / (ti * c).
  Lemma ang_t0 : 0 < t0 /\ t0 * t0 = ad * ad + x * x /\ Rabs ad < t0.
  Proof.
    assert (P : 0 < ad * ad + x * x). { assert (0 < x * x) by nra. nra. }
    split; [apply sqrt_lt_R0; auto|]. split; [apply sqrt_sqrt; lra|].
    unfold t0. rewrite <- sqrt_Rsqr_abs. apply sqrt_lt_1_alt. unfold Rsqr. nra.
  Qed.
  Lemma ang_ti : ti <> 0 /\ ti * ti = ad * ad + x * x /\ 0 <= ad / ti <= 1.
  Proof.
    destruct ang_t0 as (P & E & B). unfold ti. destruct (Rltb_spec ad 0) as [N|N].
    - rewrite Rabs_left in B by auto. split; [lra|]. split; [nra|].
      replace (ad / - t0) with ((- ad) / t0) by (field; lra).
      split; [apply Rmult_le_pos; [lra|left; apply Rinv_0_lt_compat; auto]|].
      apply Rmult_le_reg_r with t0; auto. unfold Rdiv. rewrite Rmult_assoc, Rinv_l by lra. lra.
    - rewrite Rabs_right in B by lra. split; [lra|]. split; [nra|].
      split; [apply Rmult_le_pos; [lra|left; apply Rinv_0_lt_compat; auto]|].
      apply Rmult_le_reg_r with t0; auto. unfold Rdiv. rewrite Rmult_assoc, Rinv_l by lra. lra.
  Qed.
  Lemma ang_c : 0 < c /\ c * c = (ti + ad) / (2 * ti).
  Proof.
    destruct ang_ti as (P & E & B). unfold c.
    replace (1 / 2 * ad / ti) with (1 / 2 * (ad / ti)) by (field; auto).
    split; [apply sqrt_lt_R0; lra|]. rewrite sqrt_sqrt by lra. field. auto.
  Qed.
  Lemma ang_cs : c * c + s * s = 1 /\
    c * a + s * x = c * (as_ + ti) /\ c * x + s * b = s * (as_ + ti) /\
    - s * a + c * x = - s * (as_ - ti) /\ - s * x + c * b = c * (as_ - ti).
  Proof.
    destruct ang_ti as (P & E & B). destruct ang_c as (C & CC).
    assert (CS : c * s * (2 * ti) = x) by (unfold s; field; split; lra).
    assert (C2 : c * c * (2 * ti) = ti + ad) by (rewrite CC; field; auto).
    assert (SX : s * x = c * (ti - ad)).
    { apply Rmult_eq_reg_l with (c * (2 * ti)); [|intros Z; apply Rmult_integral in Z; lra].
      replace (c * (2 * ti) * (s * x)) with (c * s * (2 * ti) * x) by ring. rewrite CS.
      replace (c * (2 * ti) * (c * (ti - ad))) with (c * c * (2 * ti) * (ti - ad)) by ring. rewrite C2. nra. }
    assert (ST : s * (ti + ad) = c * x).
    { rewrite <- C2. rewrite <- CS at 1. ring. }
    assert (EA : a = as_ + ad) by (unfold as_, ad; lra).
    assert (EB : b = as_ - ad) by (unfold as_, ad; lra).
    split.
    { apply Rmult_eq_reg_l with (2 * ti * c); [|intros Z; apply Rmult_integral in Z; lra].
      replace (2 * ti * c * (c * c + s * s)) with (c * c * (2 * ti) * c + c * s * (2 * ti) * s) by ring. rewrite C2, CS. nra. }
    rewrite EA, EB. repeat split; nra.
  Qed.
End Angle.

(** *** the rotation *)
Definition rotm (n i j : nat) (c s aii ajj : R) (M : nat -> nat -> R) (p q : nat) : R :=
  if (p =? i)%nat then (if (q =? i)%nat then aii else if (q =? j)%nat then 0 else c * M i q + s * M j q)
  else if (p =? j)%nat then (if (q =? i)%nat then 0 else if (q =? j)%nat then ajj else - s * M i q + c * M j q)
  else (if (q =? i)%nat then c * M i p + s * M j p else if (q =? j)%nat then - s * M i p + c * M j p else M p q).
Definition rotv (i j : nat) (c s : R) (V : nat -> nat -> R) (p q : nat) : R :=
  if (q =? i)%nat then c * V p i + s * V p j else if (q =? j)%nat then - s * V p i + c * V p j else V p q.

Lemma rot_run n (m v : fmat R) i j : nr m = n -> nc m = n -> nr v = n -> nc v = n -> (i < n)%nat -> (j < n)%nat -> i <> j ->
  let as_ := 1 / 2 * (el m i i + el m j j) in let ad := 1 / 2 * (el m i i - el m j j) in
  let t0 := R_sqrt.sqrt (ad * ad + el m i j * el m i j) in let ti := if Rltb ad 0 then - t0 else t0 in
  let c := R_sqrt.sqrt (1 / 2 + 1 / 2 * ad / ti) in let s := 1 / 2 * el m i j / (ti * c) in
  exists m' v', _zMatSymEigJacobiRot m v i j = Ok (m', v') /\ nr m' = n /\ nc m' = n /\ nr v' = n /\ nc v' = n /\
    (forall p q, (p < n)%nat -> (q < n)%nat -> el m' p q = rotm n i j c s (as_ + ti) (as_ - ti) (el m) p q) /\
    (forall p q, (p < n)%nat -> (q < n)%nat -> el v' p q = rotv i j c s (el v) p q).
Proof.
  intros R1 C1 R2 C2 Hi Hj N as_ ad t0 ti c s. unfold _zMatSymEigJacobiRot.
  rewrite !mget_ok by lia. cbn [bind].
  rs.
  change (1 / 2 * (el m i i + el m j j)) with as_. change (1 / 2 * (el m i i - el m j j)) with ad.
  change (R_sqrt.sqrt (ad * ad + el m i j * el m i j)) with t0.
  change (if Rltb ad 0 then - t0 else t0) with ti. change (R_sqrt.sqrt (1 / 2 + 1 / 2 * ad / ti)) with c.
  change (1 / 2 * el m i j / (ti * c)) with s. clearbody s c ti.
  do 4 (rewrite mset_ok by (cbn [nr nc]; lia); cbn [bind nr nc]).
  match goal with |- context [for_ 0 (nr m) ?g ?s0] =>
   destruct (for_inv (fun k (st : fmat R * fmat R) => nr (fst st) = n /\ nc (fst st) = n /\ nr (snd st) = n /\ nc (snd st) = n /\
     (forall p q, (p < n)%nat -> (q < n)%nat -> el (fst st) p q =
        if ((p =? i) || (p =? j)) && ((q =? i) || (q =? j)) then rotm n i j c s (as_ + ti) (as_ - ti) (el m) p q
        else if ((p =? i) || (p =? j)) && (k <=? q) then el m p q
        else if ((q =? i) || (q =? j)) && (k <=? p) then el m p q
        else rotm n i j c s (as_ + ti) (as_ - ti) (el m) p q)%nat /\
     (forall p q, (p < n)%nat -> (q < n)%nat -> el (snd st) p q = if (k <=? p)%nat then el v p q else rotv i j c s (el v) p q)) 0 (nr m) g s0)
     as ((m' & v') & E & H) end.
  - lia.
  - cbn [fst snd nr nc]. conjs; auto. intros p q Hp Hq. cbn [el]. unfold rotm. nbp.
  - intros k (m1 & v1) Hk (A1 & A2 & A3 & A4 & HM & HV). cbn [fst snd] in *.
    rewrite !mget_ok by lia. cbn [bind]. do 2 (rewrite mset_ok by (cbn [nr nc]; lia); cbn [bind nr nc]).
    destruct ((k =? i) || (k =? j))%nat eqn:KE.
    + eexists. split; [reflexivity|]. cbn [fst snd nr nc]. conjs; auto.
      * intros p q Hp Hq. rewrite HM by auto. unfold rotm. nbp.
      * intros p q Hp Hq. cbn [el]. rewrite !HV by lia. unfold rotv. rs. nbp.
    + apply orb_false_elim in KE. destruct KE as (K1 & K2). apply Nat.eqb_neq in K1, K2.
      
      rewrite mset_ok by (cbn [nr nc]; lia). cbn [bind]. rewrite mset_ok by (cbn [nr nc]; lia). cbn [bind].
      rewrite mget_ok by (cbn [nr nc]; lia). cbn [bind]. rewrite mset_ok by (cbn [nr nc]; lia). cbn [bind].
      rewrite mget_ok by (cbn [nr nc]; lia). cbn [bind]. rewrite mset_ok by (cbn [nr nc]; lia). cbn [bind].
      eexists. split; [reflexivity|]. cbn [fst snd nr nc el]. conjs; auto.
      * intros p q Hp Hq. rewrite !HM by lia. unfold rotm. rs. nbp.
      * intros p q Hp Hq. cbn [el]. rewrite !HV by lia. unfold rotv. rs. nbp.
  - rewrite E. exists m', v'. cbn [fst snd] in H. destruct H as (A1 & A2 & A3 & A4 & HM & HV). split; [reflexivity|]. conjs; auto.
    + intros p q Hp Hq. rewrite HM by auto. nbp.
    + intros p q Hp Hq. rewrite HV by auto. nbp.
Qed.
