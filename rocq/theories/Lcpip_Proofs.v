(** Lemmas for C102. *)
From Coq Require Import Reals Lra Lia List Psatz.
From Verif Require Import Prelude Prelude_Proofs Scalar RealLib Fmat Fmat_Proofs Safe LE_Model LE_Spec LE2_Proofs LE3_Proofs LE9_Proofs LE_Props IP_Model IP_Proofs Vop Root_Model Qp_Model Qp_Spec Qp_Proofs Asm_Model Asm_Proofs Lcpip_Model Lcpip_Spec.
Import ListNotations.
Local Open Scope R_scope.

Lemma gauss_idx_safe {T} {ST : Scalar T} gtol n (a : fmat T) b ans idx s : (0 < n)%nat -> msz n n a -> vlen b = n -> perm n idx -> vlen s = n ->
  safe (fun o => match o with Some (x, idx2) => vlen x = n /\ perm n idx2 | None => True end) (gauss_idx gtol a b ans idx s).
Proof.
  intros Hn A B P Hs. unfold gauss_idx.
  assert (msz n 1 (col_of b)) as MB by (split; auto).
  eapply safe_bind with (P := fun o => msz n n (fst (fst o)) /\ msz n 1 (snd (fst o))).
  { unfold zMatMatBalancingDST. eapply safe_bind with (P := fun o => msz n n (fst o)).
    - eapply safe_rmap; [apply (s_colbal a s n n); auto; lia|]. cbn. intros p [H1 H2]. auto.
    - intros [a' s'] A'. cbn [fst snd] in *. eapply safe_bind; [apply (s_rowbal a' (col_of b) n n 1); auto|]. intros [a2 b2] [A2 B2]. apply safe_ret. auto. }
  intros [[a' b'] s'] (A' & B'). cbn [fst snd] in *. rewrite B. eapply safe_bind; [apply (s_forward gtol n 1); eauto|].
  intros [[[a2 b2] idx2]|[]]; [|intros; now apply safe_ret]. intros (A2 & B2 & P2).
  unfold zLESolveGaussDST. eapply safe_bind with (P := fun o => match o with Some x => vlen x = n | None => True end).
  { eapply safe_rmap; [apply (s_mul_inv gtol n 1); auto; try lia; split; cbn; auto|]. intros [X|]; cbn; auto. intros [X1 _]. exact X1. }
  intros [x|] Hx; apply safe_ret; cbn; auto.
Qed.
Lemma gauss_idx_solves n (a : fmat R) b ans idx s x idx2 : (0 < n)%nat -> nr a = n -> nc a = n -> vlen b = n -> perm n idx -> vlen s = n ->
  gauss_idx 0 a b ans idx s = Ok (Some (x, idx2)) -> forall i, (i < n)%nat -> rsum n (fun j => el a i j * vel x j) = vel b i.
Proof.
  intros Hn A1 A2 B P Hs H. unfold gauss_idx in H. destruct (zMatMatBalancingDST a (col_of b) (Some s)) as [[[a2 b2] s2]|]; [|discriminate]. cbn [bind] in H.
  destruct (gauss_forward 0 (vlen b) a2 b2 idx) as [[[[a3 b3] i3]|]|]; try discriminate. cbn [bind] in H. unfold zLESolveGaussDST in H. rewrite B in H.
  destruct (mul_inv_ok 0 n 1 a (col_of b) (col_of (FV n (vel ans))) idx s) as (o & E & HO); auto; try lia; try lra. rewrite E in H. cbn [rmap bind option_map] in H.
  destruct o as [X|]; [|discriminate]. cbn [option_map] in H. injection H as <- _. destruct HO as (X1 & X2 & E' & SM & ST & _).
  pose proof (negligible_0 _ _ _ SM) as Z. intros i Hi. specialize (ST O ltac:(lia) i Hi). cbn in ST. rewrite <- ST. apply rsum_ext. intros j Hj. cbn. rewrite Z by auto. ring.
Qed.

(** ** sizes, for any scalar type *)
Section Safe.
  Context {T : Type} {ST : Scalar T} (ztol gtol : T) (n : nat) (m : fmat T) (q : fvec T).
  Hypothesis Hn : (0 < n)%nat.
  Hypothesis M : msz n n m.
  Hypothesis Q : vlen q = n.
  Lemma vlen_store (v : fvec T) : vlen (store v) = vlen v.
  Proof. unfold store, vec_of, to_list. cbn [vlen]. now rewrite map_length, seq_length. Qed.
  Lemma s_vop1 f (v1 v : fvec T) : vlen v1 = n -> vlen v = n -> safe (fun r => vlen r = n) (vop1 f v1 v).
  Proof. intros E F. unfold vop1. rewrite E, F, Nat.leb_refl. now apply safe_ret. Qed.
  Lemma s_vop2 f (v1 v2 v : fvec T) : vlen v1 = n -> vlen v2 = n -> vlen v = n -> safe (fun r => vlen r = n) (vop2 f v1 v2 v).
  Proof. intros E F G. unfold vop2. rewrite E, F, G, Nat.leb_refl. now apply safe_ret. Qed.
  Lemma s_mul (x v : fvec T) : vlen x = n -> vlen v = n -> safe (fun r => vlen r = n) (zMulMatVecNC m x v).
  Proof. intros E F. unfold zMulMatVecNC. destruct M as [-> ->]. rewrite E, F, Nat.leb_refl. now apply safe_ret. Qed.
  Lemma s_err w z : vlen w = n -> vlen z = n -> safe (fun o => vlen (fst o) = n) (zLCPIP_PCErr n m q w z).
  Proof.
    intros W Z. unfold zLCPIP_PCErr. eapply safe_bind; [apply s_mul; auto|]. intros r1 R1. eapply safe_bind; [apply s_vop2; auto|]. intros r2 R2.
    eapply safe_bind; [apply s_vop2; auto|]. intros r3 R3. apply safe_ret. cbn [fst]. now rewrite vlen_store.
  Qed.
  Lemma s_grad w z b idx : vlen w = n -> vlen z = n -> vlen b = n -> perm n idx ->
    safe (fun o => match o with Some (x, idx2) => vlen x = n /\ perm n idx2 | None => True end) (zLCPIP_PCGrad gtol m w z b idx).
  Proof.
    intros W Z B P. unfold zLCPIP_PCGrad. rewrite W, B. eapply safe_bind with (P := msz n n).
    - apply safe_for; [split; reflexivity|]. intros i g Hi G. eapply safe_bind; [apply (safe_vget n); auto; lia|]. intros zi _.
      eapply safe_bind. { apply (safe_for (msz n n)); auto. intros j g' Hj G'. pose proof M as [M1 M2]. eapply safe_bind; [eapply safe_mget; [exact M|lia|lia]|]. intros x _. apply safe_mset; auto; lia. }
      intros g' G'. eapply safe_bind; [apply (safe_vget n); auto; lia|]. intros wi _. apply safe_mmod; auto; lia.
    - intros g G. apply gauss_idx_safe; auto.
  Qed.
  Let dirs (o : option (fvec T * fvec T * list nat)) : Prop := match o with Some (dz, dw, idx) => vlen dz = n /\ vlen dw = n /\ perm n idx | None => True end.
  Lemma s_pred w z r idx : vlen w = n -> vlen z = n -> vlen r = n -> perm n idx -> safe dirs (zLCPIP_PCPred gtol n m w z r idx).
  Proof.
    intros W Z Hr P. unfold zLCPIP_PCPred, zVecAmpNC, zVecRevDRC, zVecAddNC. eapply safe_bind; [apply s_vop2; auto|]. intros b1 B1. eapply safe_bind; [apply s_vop2; auto|]. intros b2 B2.
    eapply safe_bind; [apply s_vop1; auto|]. intros b3 B3. eapply safe_bind; [apply s_grad; auto; now rewrite vlen_store|]. intros [[dz idx2]|]; [|intros; now apply safe_ret].
    intros (D & P2). eapply safe_bind; [apply s_mul; auto|]. intros d1 D1. eapply safe_bind; [apply s_vop2; auto|]. intros d2 D2. apply safe_ret. unfold dirs. rewrite vlen_store. auto.
  Qed.
  Lemma s_corr w z t idx : vlen w = n -> vlen z = n -> perm n idx -> safe dirs (zLCPIP_PCCorr gtol n m w z t idx).
  Proof.
    intros W Z P. unfold zLCPIP_PCCorr, zVecAmpNC. eapply safe_bind; [apply s_vop2; auto|]. intros b1 B1.
    eapply safe_bind; [apply s_grad; auto; now rewrite vlen_store|]. intros [[dz idx2]|]; [|intros; now apply safe_ret].
    intros (D & P2). eapply safe_bind; [apply s_mul; auto|]. intros d1 D1. apply safe_ret. unfold dirs. rewrite vlen_store. auto.
  Qed.
  Lemma s_step w z dw dz t : vlen w = n -> vlen z = n -> vlen dw = n -> vlen dz = n -> safe (fun _ => True) (zLCPIP_PCStep n w z dw dz t).
  Proof.
    intros W Z DW DZ. unfold zLCPIP_PCStep, zVecAmpNC. eapply safe_bind; [apply s_vop2; auto|]. intros b1 B1. eapply safe_bind; [apply s_vop2; auto|]. intros c C.
    cbv zeta. match goal with |- context [if ?b then _ else _] => destruct b end; now apply safe_ret.
  Qed.
  Lemma s_loop k : forall w z t idx st, vlen w = n -> vlen z = n -> perm n idx ->
    safe (fun o => match o with Some l => vlen (lw l) = n /\ vlen (lz l) = n | None => True end) (lcpip_loop ztol gtol k n m q w z t idx st).
  Proof.
    induction k as [|k IH]; intros w z t idx st W Z P; cbn [lcpip_loop]; [apply safe_ret; auto|].
    eapply safe_bind; [apply s_err; auto|]. intros [r e] Hr. cbn [fst] in Hr. destruct (_ && _); [apply safe_ret; auto|].
    eapply safe_bind; [apply s_pred; auto|]. intros [[[dz dw] idx2]|]; [|intros; now apply safe_ret]. intros (DZ & DW & P2).
    eapply safe_bind; [apply s_step; auto|]. intros [[a t']|] _; [|now apply safe_ret].
    unfold zVecCatNC, zVecAddNC. eapply safe_bind; [apply s_vop2; auto|]. intros w2 W2. eapply safe_bind; [apply s_vop2; auto|]. intros z2 Z2.
    eapply safe_bind; [apply s_corr; auto; now rewrite vlen_store|]. intros [[[dz2 dw2] idx3]|]; [|intros; now apply safe_ret]. intros (DZ2 & DW2 & P3).
    eapply safe_bind; [apply s_vop2; rewrite ?vlen_store; auto|]. intros w3 W3. eapply safe_bind; [apply s_vop2; rewrite ?vlen_store; auto|]. intros z3 Z3.
    apply IH; rewrite ?vlen_store; auto.
  Qed.
End Safe.

(** ** values *)
Section Values.
  Context (n : nat) (m : fmat R) (q : fvec R).
  Hypothesis Hn : (0 < n)%nat.
  Hypothesis M1 : nr m = n.
  Hypothesis M2 : nc m = n.
  Hypothesis Q : vlen q = n.
  Local Notation mz z := (mulv n (el m) (vel z)).
  Lemma err_ok w z : vlen w = n -> vlen z = n -> exists r, zLCPIP_PCErr n m q w z = Ok (r, dot n (vel w) (vel z)) /\ vlen r = n /\
    forall i, (i < n)%nat -> vel r i = residual n (el m) (vel q) (vel w) (vel z) i.
  Proof.
    intros W Z. unfold zLCPIP_PCErr. destruct (mulmv_R m z (vzero n)) as (r1 & E1 & L1 & R1); try (cbn; congruence). rewrite E1. cbn [bind vzero vlen] in *.
    unfold zVecAddNC, zVecSubNC. rewrite vop2_ok by congruence. cbn [bind]. rewrite vop2_ok by (cbn; congruence). cbn [bind vlen vel].
    match goal with |- context [store ?v] => destruct (store_ok v) as (S1 & S2); remember (store v) as rr eqn:Er end. clear Er. cbn [vlen vel] in S1, S2.
    exists rr. split. { rewrite inner_R by congruence. now rewrite W. } split; [congruence|]. intros i Hi. rewrite S2 by lia. rewrite R1 by auto. rewrite Z. reflexivity.
  Qed.
  Lemma grad_R w z b idx dz idx2 : vlen w = n -> vlen z = n -> vlen b = n -> perm n idx -> zLCPIP_PCGrad 0 m w z b idx = Ok (Some (dz, idx2)) ->
    vlen dz = n -> forall i, (i < n)%nat -> vel z i * mz dz i + vel w i * vel dz i = vel b i.
  Proof.
    intros W Z B P H D i Hi. unfold zLCPIP_PCGrad in H. rewrite W, B in H.
    match type of H with context [for_ 0 n ?f ?s] =>
      destruct (for_inv (fun k g => nr g = n /\ nc g = n /\ forall r c, (r < n)%nat -> (c < n)%nat ->
         el g r c = if (r <? k)%nat then vel z r * el m r c + (if (r =? c)%nat then vel w r else 0) else 0) 0 n f s) as (g & EG & G1 & G2 & GE) end.
    - lia.
    - cbn. conjs; auto.
    - intros k g Hk (G1 & G2 & GE). rewrite vget_ok by lia. cbn [bind].
      destruct (row_loop g k 0 (nc m) (fun (j : nat) (g0 : fmat R) => bind (mget m k j) (fun x => mset g0 k j (smul x (vel z k)))) (fun j => el m k j * vel z k)) as (g' & E' & N1 & N2 & NE); try lia.
      { intros j m' Hj _ _ _. rewrite mget_ok by lia. reflexivity. }
      rewrite E'. cbn [bind]. rewrite vget_ok by lia. cbn [bind]. rewrite mmod_ok, mset_ok by lia. eexists. split; [reflexivity|]. cbn [nr nc el]. conjs; try congruence.
      intros r c Hr Hc. rewrite (NE r c), (NE k k). rewrite Nat.eqb_refl. 
      destruct (Nat.eqb_spec r k) as [->|Nr]; cbn [andb].
      + rewrite (proj2 (Nat.ltb_lt k (S k))) by lia. replace (0 <=? c)%nat with true by (symmetry; apply Nat.leb_le; lia). replace (c <? nc m)%nat with true by (symmetry; apply Nat.ltb_lt; lia).
        replace (0 <=? k)%nat with true by (symmetry; apply Nat.leb_le; lia). replace (k <? nc m)%nat with true by (symmetry; apply Nat.ltb_lt; lia). cbn [andb].
        rewrite (Nat.eqb_sym k c). destruct (Nat.eqb_spec c k) as [->|]; cbn; ring.
      + rewrite GE by auto. destruct (Nat.ltb_spec r k), (Nat.ltb_spec r (S k)); try lia; reflexivity.
    - rewrite EG in H. cbn [bind] in H. destruct (mstore_ok g) as (S1 & S2 & S3).
      rewrite <- (gauss_idx_solves n (mstore g) b (zvec n) idx (zvec n) dz idx2 Hn) by (auto; congruence).
      rewrite (rsum_ext n (fun j => el (mstore g) i j * vel dz j) (fun j => vel z i * (el m i j * vel dz j) + (if (j =? i)%nat then vel w j * vel dz j else 0))).
      2:{ intros j Hj. rewrite S3, GE by lia. rewrite (proj2 (Nat.ltb_lt i n)) by lia. rewrite (Nat.eqb_sym i j). destruct (Nat.eqb_spec j i) as [->|]; ring. }
      rewrite rsum_add, rsum_scal, (rsum_delta n i (fun j => if (j =? i)%nat then vel w j * vel dz j else 0)); auto. { now rewrite Nat.eqb_refl. } intros j _ Nj. now rewrite (proj2 (Nat.eqb_neq j i) Nj).
  Qed.
  Lemma pred_R gtol w z r idx dz dw idx2 : vlen w = n -> vlen z = n -> vlen r = n -> perm n idx -> zLCPIP_PCPred gtol n m w z r idx = Ok (Some (dz, dw, idx2)) ->
    (forall i, (i < n)%nat -> vel dw i = mz dz i + vel r i) /\
    (gtol = 0 -> forall i, (i < n)%nat -> vel z i * vel dw i + vel w i * vel dz i = - (vel w i * vel z i)).
  Proof.
    intros W Z HR P H. unfold zLCPIP_PCPred, zVecAddNC, zVecAmpNC, zVecRevDRC in H. rewrite vop2_ok in H by (cbn; congruence). cbn [bind vzero vlen vel] in H.
    rewrite vop2_ok in H by (cbn; congruence). cbn [bind vlen vel] in H. rewrite vop1_ok in H by reflexivity. cbn [bind vlen vel] in H.
    match type of H with context [store ?v] => destruct (store_ok v) as (S1 & S2); remember (store v) as b eqn:Eb end. clear Eb. cbn [vlen vel] in S1, S2.
    destruct (s_grad gtol n m q Hn (conj M1 M2) Q w z b idx W Z S1 P) as (o & E & HO). rewrite E in H. cbn [bind] in H. destruct o as [[dz' idx']|]; [|discriminate]. destruct HO as (D & P2).
    destruct (mulmv_R m dz' (vzero n)) as (d1 & E1 & L1 & R1); try (cbn; congruence). rewrite E1 in H. cbn [bind vzero vlen] in *. rewrite vop2_ok in H by congruence. cbn [bind] in H.
    match type of H with context [store ?v] => destruct (store_ok v) as (T1 & T2); remember (store v) as dd eqn:Ed end. clear Ed. cbn [vlen vel] in T1, T2.
    injection H as <- <- <-. rewrite D in R1.
    assert (G : forall i, (i < n)%nat -> vel dd i = mz dz' i + vel r i) by (intros i Hi; rewrite T2 by lia; rewrite R1 by auto; reflexivity).
    split; [exact G|]. intros -> i Hi. rewrite G by auto. pose proof (grad_R w z b idx dz' idx' W Z S1 P E D i Hi) as K. rewrite S2 in K by auto. cbn in K. lra.
  Qed.
  Lemma corr_R gtol w z t idx dz dw idx2 : vlen w = n -> vlen z = n -> perm n idx -> zLCPIP_PCCorr gtol n m w z t idx = Ok (Some (dz, dw, idx2)) ->
    (forall i, (i < n)%nat -> vel dw i = mz dz i) /\
    (gtol = 0 -> forall i, (i < n)%nat -> vel z i * vel dw i + vel w i * vel dz i = t - vel w i * vel z i).
  Proof.
    intros W Z P H. unfold zLCPIP_PCCorr, zVecAmpNC in H. rewrite vop2_ok in H by (cbn; congruence). cbn [bind vzero vlen vel] in H.
    match type of H with context [store ?v] => destruct (store_ok v) as (S1 & S2); remember (store v) as b eqn:Eb end. clear Eb. cbn [vlen vel] in S1, S2.
    destruct (s_grad gtol n m q Hn (conj M1 M2) Q w z b idx W Z S1 P) as (o & E & HO). rewrite E in H. cbn [bind] in H. destruct o as [[dz' idx']|]; [|discriminate]. destruct HO as (D & P2).
    destruct (mulmv_R m dz' (vzero n)) as (d1 & E1 & L1 & R1); try (cbn; congruence). rewrite E1 in H. cbn [bind vzero vlen] in *.
    destruct (store_ok d1) as (T1 & T2). remember (store d1) as dd eqn:Ed. clear Ed. injection H as <- <- <-. rewrite D in R1.
    assert (G : forall i, (i < n)%nat -> vel dd i = mz dz' i) by (intros i Hi; rewrite T2 by lia; rewrite R1 by auto; reflexivity).
    split; [exact G|]. intros -> i Hi. rewrite G by auto. pose proof (grad_R w z b idx dz' idx' W Z S1 P E D i Hi) as K. rewrite S2 in K by auto. cbn in K. lra.
  Qed.
  Lemma step_R w z dw dz t a t' : vlen w = n -> vlen z = n -> vlen dw = n -> vlen dz = n -> zLCPIP_PCStep n w z dw dz t = Ok (Some (a, t')) ->
    t' = t * (1 - a) /\
    let b := fun i => vel w i * vel z i - t in let c := fun i => vel dw i * vel dz i in
    let k2 := dot n b c in let k1 := (1 / 2 * t * (1 / 2 * t) - dot n b b) / k2 in
    let x := k1 / (1 + sqrt (1 + k1 / k2 * dot n c c)) in
    ~ (-4 < x < 0) /\ a = 2 / (1 + sqrt (1 + 4 / x)).
  Proof.
    intros W Z DW DZ H. unfold zLCPIP_PCStep, zVecAmpNC in H. rewrite vop2_ok in H by (cbn; congruence). cbn [bind vzero vlen vel] in H.
    rewrite vop2_ok in H by (cbn; congruence). cbn [bind vlen vel] in H. rewrite inner_R in H by reflexivity. unfold zVecSqrNorm, PC_B in H. rewrite !ksum_R in H. cbn [vlen vel vzero] in H.
    cbn [sadd ssub smul sdiv sopp ssqrt slt s0 s1 RealS] in H. cbv zeta in H |- *.
    set (b := fun i => vel w i * vel z i - t) in *. set (c := fun i => vel dw i * vel dz i) in *.
    change (rsum n (fun i => (vel w i * vel z i - t) * (vel w i * vel z i - t))) with (dot n b b) in H. change (rsum n (fun i => vel dw i * vel dz i * (vel dw i * vel dz i))) with (dot n c c) in H.
    repeat change (@sofZ R RealS 1) with 1 in H. repeat change (@sofZ R RealS 2) with 2 in H. repeat change (@sofZ R RealS 4) with 4 in H.
    set (x := (1 / 2 * t * (1 / 2 * t) - dot n b b) / dot n b c / _) in *.
    destruct (Rltb_spec x 0) as [L|L]; destruct (Rltb_spec (- (4)) x) as [L2|L2]; cbn [andb] in H; try discriminate; injection H as <- <-; split; auto; split; auto; lra.
  Qed.
End Values.
