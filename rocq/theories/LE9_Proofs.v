(** No function of the linear-equation family leaves its objects, whatever the values
    of the elements (any scalar type: also NaN and infinities). *)
From Verif Require Import Prelude Prelude_Proofs Scalar Fmat Fmat_Proofs Safe LE_Model LE_Proofs.

Section S.
Context {T : Type} {ST : Scalar T}.
Variable tol : T.
Local Notation mat := (fmat T).
Implicit Types (a b m l u : mat) (idx : list nat).

Ltac tt := try (unfold msz, vsz in *; cbn in *; intuition (auto; lia)).
Lemma s_swap n idx i j : perm n idx -> i < n -> j < n -> safe (perm n) (swap_idx idx i j).
Proof. intros P Hi Hj. destruct (swap_idx_ok n idx i j) as (idx' & -> & P' & _); auto. now apply safe_ret. Qed.
Lemma s_piv m n c idx r k : msz n c m -> perm n idx -> r < n -> k < c -> safe (perm n) (zMatPivoting m idx r k).
Proof. intros [M1 M2] P Hr Hk. destruct (zMatPivoting_perm m n idx r k) as (idx' & pi & -> & P' & _); auto; try lia. now apply safe_ret. Qed.
Lemma s_pivd m n idx r : msz n n m -> perm n idx -> r < n -> safe (perm n) (zMatPivotingDiag m idx r).
Proof. intros [M1 M2] P Hr. destruct (zMatPivotingDiag_perm m n idx r) as (idx' & pi & -> & P' & _); auto; try lia. now apply safe_ret. Qed.

Lemma s_colabs m r c i : msz r c m -> 0 < r -> i < c -> safe (fun _ => True) (col_absmax m i).
Proof. intros M Hr Hi. pose proof M as [M1 M2]. unfold col_absmax. repeat sstep; auto. apply (safe_for (fun _ => True)); auto. intros k s Hk _. repeat sstep; auto. Qed.
Lemma s_rowabs m r c i : msz r c m -> 0 < c -> i < r -> safe (fun _ => True) (row_absmax m i).
Proof. intros M Hr Hi. pose proof M as [M1 M2]. unfold row_absmax. repeat sstep; auto. apply (safe_for (fun _ => True)); auto. intros k s Hk _. repeat sstep; auto. Qed.
Lemma s_colbal m s r c : msz r c m -> 0 < r -> c <= vlen s -> safe (fun p => msz r c (fst p) /\ vsz (vlen s) (snd p)) (zMatColBalancingDST m s).
Proof.
  intros M Hr Hs. pose proof M as [M1 M2]. unfold zMatColBalancingDST. apply (safe_for (fun p => msz r c (fst p) /\ vsz (vlen s) (snd p))). { cbn. split; auto. reflexivity. }
  intros k [m' s'] Hk [A B]. cbn [fst snd] in *. pose proof A as [A1 A2]. eapply safe_bind; [eapply s_colabs; eauto; lia|]. intros mx _.
  eapply safe_bind. { eapply safe_vset; eauto. lia. } intros s1 S1. sstep. { apply safe_ret. auto. }
  eapply safe_bind. { eapply safe_vset; eauto. lia. } intros s2 S2. eapply safe_bind. { eapply safe_vget; eauto. lia. } intros x _.
  eapply safe_bind. { apply (safe_for (msz r c)); auto. intros j m2 Hj A'. eapply safe_mmod; eauto; lia. } intros m2 A'. apply safe_ret. auto.
Qed.
Lemma s_rowbal a b r c q : msz r c a -> msz r q b -> 0 < c -> safe (fun p => msz r c (fst p) /\ msz r q (snd p)) (zMatMatRowBalancingDST a b).
Proof.
  intros A B Hc. pose proof A as [A1 A2]. pose proof B as [B1 B2]. unfold zMatMatRowBalancingDST. apply (safe_for (fun p => msz r c (fst p) /\ msz r q (snd p))). { cbn. split; auto. }
  intros k [m' s'] Hk [A' B']. cbn [fst snd] in *. eapply safe_bind; [eapply s_rowabs; eauto; lia|]. intros mx _. sstep. { apply safe_ret. auto. }
  eapply safe_bind. { apply (safe_for (msz r c)); auto. intros j m2 Hj A2'. eapply safe_mmod; eauto; lia. } intros m2 A2'.
  eapply safe_bind. { apply (safe_for (msz r q)); auto. intros j m3 Hj A3'. eapply safe_mmod; eauto; lia. } intros m3 A3'. apply safe_ret. auto.
Qed.
Lemma s_elim n q a b p r i h : msz n n a -> msz n q b -> p < n -> r < n -> i < n -> safe (fun o => msz n n (fst o) /\ msz n q (snd o)) (elim_row n p r i h a b).
Proof.
  intros A B Hp Hr Hi. unfold elim_row. pose proof B as [B1 B2].
  eapply safe_bind. { apply (safe_for (msz n n)); auto. intros k a' Hk A'. repeat sstep. } intros a' A'.
  eapply safe_bind. { apply (safe_for (msz n q)); auto. intros k b' Hk B'. repeat sstep. } intros b' B'. apply safe_ret. auto.
Qed.
Lemma s_forward n q a b idx : msz n n a -> msz n q b -> perm n idx ->
  safe (fun o => match o with inl (a', b', idx') => msz n n a' /\ msz n q b' /\ perm n idx' | inr _ => True end) (gauss_forward tol n a b idx).
Proof.
  intros A B P. unfold gauss_forward.
  eapply safe_weaken. { apply (safe_forb (fun st => let '(a', b', idx') := st in msz n n a' /\ msz n q b' /\ perm n idx') (fun _ => True)); auto; try lia.
  intros i [[a' b'] idx'] Hi (A' & B' & P'). eapply safe_bind; [eapply s_piv; eauto; lia|]. intros idx2 P2. eapply safe_bind; [eapply safe_idx; eauto; lia|]. intros p Hp. cbn beta in Hp.
  eapply safe_bind; [eapply safe_mget; eauto; lia|]. intros h _. sstep; [now apply safe_ret|]. cbn zeta.
  eapply safe_bind; [eapply safe_mset; eauto; lia|]. intros a2 A2. pose proof B' as [B1 B2].
  eapply safe_bind. { apply (safe_for (msz n n)); auto. intros k a3 Hk A3. sstep. } intros a3 A3.
  eapply safe_bind. { apply (safe_for (msz n q)); auto. intros k b3 Hk B3. sstep. } intros b3 B3.
  eapply safe_bind. { apply (safe_for (fun o => msz n n (fst o) /\ msz n q (snd o))); auto. intros k [a4 b4] Hk [A4 B4]. cbn [fst snd] in *.
    eapply safe_bind; [eapply safe_idx; eauto; lia|]. intros r Hr. cbn beta in *. eapply safe_bind; [eapply safe_mget; eauto; lia|]. intros h2 _.
    eapply safe_bind with (P := fun o => msz n n (fst o) /\ msz n q (snd o)). { sstep. { apply safe_ret. exact (conj A4 B4). } apply (s_elim n q); auto; lia. } intros [a5 b5] [A5 B5]. cbn [fst snd] in *.
    eapply safe_bind; [eapply safe_mset; eauto; lia|]. intros a6 A6. apply safe_ret. auto. }
  intros [a4 b4] [A4 B4]. apply safe_ret. auto. }
  intros [[[a' b'] idx']|[]]; auto.
Qed.
Lemma s_backward n q a b idx x : msz n n a -> msz n q b -> perm n idx -> msz n q x -> safe (msz n q) (gauss_backward n a b idx x).
Proof.
  intros A B P X. unfold gauss_backward. pose proof B as [B1 B2]. apply safe_for_down; auto. intros i x' Hi X'.
  eapply safe_bind; [eapply safe_idx; eauto; lia|]. intros p Hp. cbn beta in Hp. apply safe_for; auto. intros j x2 Hj X2. eapply safe_bind; [eapply safe_mget; eauto; lia|]. intros y _.
  eapply safe_bind. { apply (safe_for_downto (fun _ => True)); auto. intros k z Hk _. repeat sstep; auto. } intros z _. sstep.
Qed.
Theorem s_mul_inv n q a b x idx (s : option (fvec T)) : 0 < n -> msz n n a -> msz n q b -> msz n q x -> perm n idx -> match s with Some v => n <= vlen v | None => True end ->
  safe (fun o => match o with Some x' => msz n q x' | None => True end) (mul_inv_mat tol a b x idx s).
Proof.
  intros Hn A B X P S. unfold mul_inv_mat. pose proof X as [X1 X2]. rewrite X1.
  eapply safe_bind with (P := fun o => msz n n (fst (fst o)) /\ msz n q (snd (fst o)) /\ match snd o with Some v => n <= vlen v | None => True end).
  { unfold zMatMatBalancingDST. eapply safe_bind with (P := fun o => msz n n (fst o) /\ match snd o with Some v => n <= vlen v | None => True end).
    - destruct s as [v|]; [|now apply safe_ret]. eapply safe_rmap; [apply (s_colbal a v n n); auto|]. cbn. intros p [H1 H2]. split; auto. unfold vsz in H2. lia.
    - intros [a' s'] [A' S']. cbn [fst snd] in *. eapply safe_bind; [apply (s_rowbal a' b n n q); auto|]. intros [a2 b2] [A2 B2]. apply safe_ret. auto. }
  intros [[a' b'] s'] (A' & B' & S'). cbn [fst snd] in *. eapply safe_bind; [apply (s_forward n q); eauto|].
  intros [[[a2 b2] idx2]|[]]; [|intros; now apply safe_ret]. intros (A2 & B2 & P2). eapply safe_bind; [apply (s_backward n q); eauto|]. intros x2 Y2.
  destruct s' as [v|]; [|now apply safe_ret]. eapply safe_rmap with (P := msz n q); auto. unfold rescale. apply safe_for; auto. intros i x3 Hi Y3.
  eapply safe_bind; [apply (safe_vget (vlen v)); try reflexivity; lia|]. intros k _. apply safe_for; auto. intros j x4 Hj Y4. pose proof Y3 as [Z1 Z2]. eapply safe_mmod; eauto; lia.
Qed.

Theorem s_lu n q m l u idx : msz n q m -> msz n n l -> msz n q u -> perm n idx -> q <= n ->
  safe (fun o => let '(l', u', idx', r) := o in msz n n l' /\ msz n q u' /\ perm n idx' /\ r <= q) (zMatDecompLUDST tol m l u idx).
Proof.
  intros M L U P Hq. unfold zMatDecompLUDST. pose proof M as [-> ->]. pose proof L as [-> ->]. pose proof U as [-> ->].
  eapply safe_bind with (P := fun st => let '(m', l', u', idx', r) := st in msz n q m' /\ msz n n l' /\ msz n q u' /\ perm n idx' /\ r <= q).
  2:{ intros [[[[m' l'] u'] idx'] r] (M' & L' & U' & P' & Hr). apply safe_ret. auto. }
  match goal with |- safe _ (for_ ?lo ?hi ?f ?s) => destruct (for_inv (fun k st => let '(m', l', u', idx', r) := st in msz n q m' /\ msz n n l' /\ msz n q u' /\ perm n idx' /\ r <= k) lo hi f s) as (st & E & H) end.
  - lia.
  - repeat split; auto; try apply P; try apply M.
  - intros c [[[[m' l'] u'] idx'] r] Hc (M' & L' & U' & P' & Hr).
    cut (safe (fun st => let '(m', l', u', idx', r) := st in msz n q m' /\ msz n n l' /\ msz n q u' /\ perm n idx' /\ r <= S c) (lu_step tol n q c (m', l', u', idx', r))).
    { intros (st & E & H). exists st. auto. }
    unfold lu_step. destruct (Nat.ltb_spec r n) as [Hrn|]; cbn [negb]; [|apply safe_ret; auto 10].
    eapply safe_bind; [eapply s_piv; eauto; lia|]. intros idx2 P2. eapply safe_bind; [eapply safe_idx; eauto; lia|]. intros p Hp. cbn beta in Hp.
    eapply safe_bind; [eapply safe_mget; eauto; lia|]. intros h _. sstep; [apply safe_ret; auto 10|].
    eapply safe_bind; [eapply safe_mset; eauto; lia|]. intros l2 L2. eapply safe_bind; [eapply safe_mset; eauto; lia|]. intros u2 U2. pose proof L2 as [L3 L4]. pose proof U2 as [U3 U4].
    eapply safe_bind. { apply (safe_for (msz n n)); auto. intros i l3 Hi L3'. eapply safe_bind; [eapply safe_idx; eauto; lia|]. intros p2 Hp2. cbn beta in Hp2. repeat sstep. } intros l3 L5.
    eapply safe_bind. { apply (safe_for (msz n q)); auto. intros i l4 Hi L3'. repeat sstep. } intros u3 U5.
    eapply safe_bind. { apply (safe_for (msz n q)); auto. intros i m3 Hi M3. apply safe_for; auto. intros j m4 Hj M4. eapply safe_bind; [eapply safe_idx; eauto; lia|]. intros p2 Hp2. cbn beta in Hp2. repeat sstep. } intros m3 M3.
    apply safe_ret. repeat split; try lia; try apply M3; try apply L5; try apply U5; apply P2.
  - exists st. auto.
Qed.

Theorem s_chol n m l idx : msz n n m -> msz n n l -> perm n idx ->
  safe (fun o => match o with Some (l', idx', r) => msz n n l' /\ perm n idx' | None => True end) (zMatDecompCholeskyDST tol m l idx).
Proof.
  intros M L P. unfold zMatDecompCholeskyDST. rewrite (proj1 P). pose proof L as [-> ->].
  eapply safe_bind. { apply (safe_forb (fun st => let '(m', idx', r) := st in msz n n m' /\ perm n idx') (fun _ => True)); auto; try lia.
    intros i [[m' idx'] r] Hi (M' & P'). eapply safe_bind; [eapply s_pivd; eauto; lia|]. intros idx2 P2. eapply safe_bind; [eapply safe_idx; eauto; lia|]. intros p Hp. cbn beta in Hp.
    eapply safe_bind; [eapply safe_mget; eauto; lia|]. intros d _.
    assert (ST2 : forall m2 k r, msz n n m2 -> safe (fun o : (fmat T * list nat * nat) + unit => match o with inl (m', idx', r) => msz n n m' /\ perm n idx' | inr _ => True end)
      (m <- for_ (S i) n (fun j m => q <- get idx2 j ;; m <- mmod m p q (fun x => x * k)%S ;; mmod m q p (fun x => x * k)%S) m2 ;;
        m <- for_ (S i) n (fun j m => for_ (S i) n (fun k m =>
               qj <- get idx2 j ;; qk <- get idx2 k ;;
               x <- mget m qj p ;; y <- mget m p qk ;; mmod m qj qk (fun z => z - x * y)%S) m) m ;;
        Ok (inl (m, idx2, r)))).
    { intros m2 k r2 M2. eapply safe_bind. { apply (safe_for (msz n n)); auto. intros j m3 Hj M3. eapply safe_bind; [eapply safe_idx; eauto; lia|]. intros p2 Hp2. cbn beta in Hp2. repeat sstep. } intros m3 M3.
      eapply safe_bind. { apply (safe_for (msz n n)); auto. intros j m4 Hj M4. apply safe_for; auto. intros t m5 Ht M5.
        eapply safe_bind; [eapply safe_idx; eauto; lia|]. intros p2 Hp2. cbn beta in Hp2. eapply safe_bind; [eapply safe_idx; eauto; lia|]. intros p3 Hp3. cbn beta in Hp3. repeat sstep. }
      intros m4 M4. apply safe_ret. auto. }
    sstep; [apply ST2; auto|]. sstep; [now apply safe_ret|]. eapply safe_bind; [eapply safe_mset; eauto; lia|]. intros m2 M2. apply ST2; auto. }
  intros [[[m' idx'] r]|[]]; [|intros; now apply safe_ret]. intros (M' & P').
  eapply safe_bind. { apply (safe_for (msz n n)); [split; reflexivity|]. intros i l2 Hi L2. apply safe_for; auto. intros j l3 Hj L3.
    eapply safe_bind; [eapply safe_idx; eauto; lia|]. intros p2 Hp2. cbn beta in Hp2. eapply safe_bind; [eapply safe_idx; eauto; lia|]. intros p3 Hp3. cbn beta in Hp3. repeat sstep. }
  intros l2 L2. apply safe_ret. auto.
Qed.

Theorem s_det n m : msz n n m -> safe (fun _ => True) (zMatDetDST tol m n).
Proof.
  intros M. unfold zMatDetDST. pose proof M as [M1 M2]. rewrite M1.
  eapply safe_bind. { apply (safe_forb (fun st => let '(m', idx', r) := st in msz n n m' /\ perm n idx') (fun _ => True)); auto using perm_seq; try lia.
    intros i [[m' idx'] r] Hi (M' & P'). eapply safe_bind; [eapply safe_idx; eauto; lia|]. intros p0 Hp0. eapply safe_bind; [eapply s_piv; eauto; lia|]. intros idx2 P2. eapply safe_bind; [eapply safe_idx; eauto; lia|]. intros p Hp. cbn beta in Hp.
    eapply safe_bind; [eapply safe_mget; eauto; lia|]. intros d _. cbn zeta. sstep; [now apply safe_ret|]. pose proof M' as [M3 M4]. rewrite M3.
    eapply safe_bind. { apply (safe_for (msz n n)); auto. intros j m3 Hj M5. eapply safe_bind; [eapply safe_idx; eauto; lia|]. intros p2 Hp2. cbn beta in Hp2. pose proof M5 as [M6 M7]. apply safe_for; auto. intros k m4 Hk M8. repeat sstep. }
    intros m3 M5. apply safe_ret. auto. }
  intros [[[m' idx'] r]|[]]; intros; now apply safe_ret.
Qed.
Theorem s_sweep r c q a b i j : msz r c a -> msz r q b -> i < r -> j < c -> safe (fun o => msz r c (snd (fst o)) /\ msz r q (snd o)) (zMatMatSweepOut tol a b i j).
Proof.
  intros A B Hi Hj. unfold zMatMatSweepOut. pose proof A as [A1 A2]. pose proof B as [B1 B2]. eapply safe_bind; [eapply safe_mget; eauto|]. intros v _. sstep; [now apply safe_ret|]. cbn zeta.
  eapply safe_bind. { apply (safe_for (msz r c)); auto. intros k a' Hk A'. destruct (negb _); repeat sstep. } intros a' A'.
  eapply safe_bind. { apply (safe_for (msz r q)); auto. intros k b' Hk B'. repeat sstep. } intros b' B'. pose proof A' as [-> _].
  eapply safe_bind. { apply (safe_for (fun o => msz r c (fst o) /\ msz r q (snd o))); auto. intros k [a4 b4] Hk [A4 B4]. cbn [fst snd] in *. sstep; [now apply safe_ret|].
     eapply safe_bind; [eapply safe_mget; eauto; lia|]. intros h _.
     eapply safe_bind with (P := fun o => msz r c (fst o) /\ msz r q (snd o)).
     - sstep; [apply safe_ret; auto|]. unfold sweep_row. pose proof A4 as [A5 A6]. pose proof B4 as [B5 B6].
       eapply safe_bind. { apply (safe_for (msz r c)); auto. intros t a6 Ht A7. destruct (negb _); repeat sstep. } intros a6 A7.
       eapply safe_bind. { apply (safe_for (msz r q)); auto. intros t b6 Ht B7. repeat sstep. } intros b6 B7. apply safe_ret. auto.
     - intros [a5 b5] [A5 B5]. cbn [fst snd] in *. eapply safe_bind; [eapply safe_mset; eauto; lia|]. intros a6 A6. apply safe_ret. auto. }
  intros [a4 b4] [A4 B4]. apply safe_ret. auto.
Qed.
End S.
