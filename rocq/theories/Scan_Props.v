(** C127: vectors and matrices in files. *)
From Coq Require Import Reals Lra.
From Verif Require Import Prelude Prelude_Proofs Scalar Fmat Fmat_Proofs Scan_Model.

Section Scan.
  Context {T : Type} {ST : Scalar T}.
  Variable ftoi : T -> Z.
  Variable p10 : T -> T.
  (** the k-th number of the rest of the file, 0 after its end *)
  Definition number (l : list (tok T)) (k : nat) : T := nth k (map tval l) s0.

  Lemma number_S t l k : number (t :: l) (S k) = number l k. Proof. reflexivity. Qed.
  Lemma scan_vec_spec k : forall i v l, (i + k <= vlen v)%nat -> exists v',
    scan_vec i k v l = Ok (v', if (length l <? k)%nat then Some (i + length l)%nat else None, skipn k l) /\
    vlen v' = vlen v /\
    forall q, vel v' q = if ((i <=? q) && (q <? i + Nat.min k (length l)))%nat then number l (q - i) else vel v q.
  Proof.
    induction k as [|k IH]; intros i v l H.
    - exists v. cbn [scan_vec skipn]. split; [reflexivity|]. split; auto. intros q.
      destruct (Nat.leb_spec i q); destruct (Nat.ltb_spec q (i + Nat.min 0 (length l))); cbn in *; auto; lia.
    - destruct l as [|t l].
      + exists v. cbn [scan_vec zFDouble skipn length]. replace (0 <? S k)%nat with true by reflexivity. rewrite Nat.add_0_r. split; [reflexivity|]. split; auto. intros q.
        destruct (Nat.leb_spec i q); destruct (Nat.ltb_spec q (i + Nat.min (S k) 0)); cbn in *; auto; lia.
      + cbn [scan_vec zFDouble]. unfold vset. destruct (Nat.ltb_spec i (vlen v)); [|lia]. cbn [bind].
        destruct (IH (S i) (FV (vlen v) (fun q => if (q =? i)%nat then tval t else vel v q)) l) as (v' & E & L & G); [cbn; lia|].
        rewrite E. exists v'. cbn [length skipn]. split.
        * replace (S (length l) <? S k)%nat with (length l <? k)%nat by (destruct (Nat.ltb_spec (length l) k), (Nat.ltb_spec (S (length l)) (S k)); auto; lia).
          destruct (length l <? k)%nat; auto. do 3 f_equal. f_equal. lia.
        * split; [rewrite L; reflexivity|]. intros q. rewrite G. cbn [vel].
          destruct (Nat.eqb_spec q i) as [->|].
          -- replace (S i <=? i)%nat with false by (symmetry; apply Nat.leb_gt; lia). rewrite Nat.leb_refl.
             replace (i <? i + Nat.min (S k) (S (length l)))%nat with true by (symmetry; apply Nat.ltb_lt; cbn; lia). cbn [andb].
             now rewrite Nat.sub_diag.
          -- destruct (Nat.leb_spec (S i) q), (Nat.leb_spec i q); try lia; cbn [andb]; auto.
             replace (q <? i + Nat.min (S k) (S (length l)))%nat with (q <? S i + Nat.min k (length l))%nat
               by (destruct (Nat.ltb_spec q (S i + Nat.min k (length l))), (Nat.ltb_spec q (i + Nat.min (S k) (S (length l)))); auto; cbn in *; lia).
             destruct (q <? _)%nat; auto. replace (q - i)%nat with (S (q - S i)) by lia. now rewrite number_S.
  Qed.
  Lemma number_over l k : (length l <= k)%nat -> number l k = s0.
  Proof. intros H. apply nth_overflow. now rewrite map_length. Qed.

  (** Reading a vector: its elements are the next numbers, those missing are zero and there is one warning
      with the number of the elements read; the rest of the file is left. *)
  Theorem C127_vec_scan (n : nat) l : (0 < n)%nat -> exists v,
    zVecFScan ftoi (TI (Z.of_nat n) :: l) = Ok (Some v, if (length l <? n)%nat then [(length l, n)] else [], skipn n l) /\
    vlen v = n /\ forall i, (i < n)%nat -> vel v i = number l i.
  Proof.
    intros H. unfold zVecFScan. cbn [zFInt]. destruct (Z.leb_spec (Z.of_nat n) 0); [lia|]. rewrite Nat2Z.id. cbv zeta.
    destruct (scan_vec_spec n 0 (FV n (fun _ => s0)) l) as (v & E & L & G); [cbn; lia|]. rewrite E. cbn [bind].
    exists v. split; [|split; auto].
    - destruct (length l <? n)%nat; reflexivity.
    - intros i Hi. rewrite G. cbn [vel]. rewrite Nat.sub_0_r. destruct (Nat.leb_spec 0 i); [|lia]. cbn [andb].
      destruct (Nat.ltb_spec i (0 + Nat.min n (length l))); auto. symmetry. apply number_over. lia.
  Qed.
  Theorem C127_vec_refused (z : Z) l : (z <= 0)%Z ->
    zVecFScan ftoi [] = Ok (None, [], []) /\ zVecFScan ftoi (TI z :: l) = Ok (None, [], l).
  Proof. intros H. split; [reflexivity|]. unfold zVecFScan. cbn [zFInt]. destruct (Z.leb_spec z 0); [reflexivity|lia]. Qed.
  Lemma print_len n (x : nat -> T) : length (zRawVecValueFPrint p10 n x) = n.
  Proof. unfold zRawVecValueFPrint. now rewrite map_length, seq_length. Qed.
  Lemma print_nth n (x : nat -> T) l i : (i < n)%nat -> number (zRawVecValueFPrint p10 n x ++ l) i = p10 (x i).
  Proof.
    intros H. unfold number. rewrite map_app, app_nth1 by (now rewrite map_length, print_len).
    unfold zRawVecValueFPrint. rewrite map_map. cbn [tval].
    rewrite (nth_indep _ s0 (p10 (x 0%nat))) by (now rewrite map_length, seq_length).
    rewrite (map_nth (fun i => p10 (x i)) (List.seq 0 n) 0%nat i), seq_nth by auto. reflexivity.
  Qed.
  (** What is printed is read back, to ten digits, and what follows in the file is left for the next reader. *)
  Theorem C127_vec_round_trip (v : fvec T) l : (0 < vlen v)%nat -> exists v',
    zVecFScan ftoi (zVecFPrint p10 (Some v) ++ l) = Ok (Some v', [], l) /\ vlen v' = vlen v /\ forall i, (i < vlen v)%nat -> vel v' i = p10 (vel v i).
  Proof.
    intros H. cbn [zVecFPrint app]. destruct (C127_vec_scan (vlen v) (zRawVecValueFPrint p10 (vlen v) (vel v) ++ l) H) as (v' & E & L & G).
    exists v'. split; [|split; auto].
    - rewrite E. rewrite app_length, print_len. destruct (Nat.ltb_spec (vlen v + length l) (vlen v)); [lia|].
      do 2 f_equal. rewrite skipn_app, print_len, Nat.sub_diag, (skipn_all2 (n := vlen v)) by (rewrite print_len; lia). reflexivity.
    - intros i Hi. rewrite G by auto. now apply print_nth.
  Qed.

  (** ** matrices *)
  Lemma scan_row_spec k : forall i j (m : fmat T) l, (i < nr m)%nat -> (j + k <= nc m)%nat -> exists m',
    scan_row i j k m l = Ok (m', if (length l <? k)%nat then Some (j + length l)%nat else None, skipn k l) /\
    nr m' = nr m /\ nc m' = nc m /\
    forall p q, el m' p q = if ((p =? i) && ((j <=? q) && (q <? j + Nat.min k (length l))))%nat then number l (q - j) else el m p q.
  Proof.
    induction k as [|k IH]; intros i j m l Hi H.
    - exists m. cbn [scan_row skipn]. split; [reflexivity|]. split; auto. split; auto. intros p q.
      destruct (p =? i)%nat; auto. destruct (Nat.leb_spec j q); destruct (Nat.ltb_spec q (j + Nat.min 0 (length l))); cbn in *; auto; lia.
    - destruct l as [|t l].
      + exists m. cbn [scan_row zFDouble skipn length]. replace (0 <? S k)%nat with true by reflexivity. rewrite Nat.add_0_r. split; [reflexivity|]. split; auto. split; auto. intros p q.
        destruct (p =? i)%nat; auto. destruct (Nat.leb_spec j q); destruct (Nat.ltb_spec q (j + Nat.min (S k) 0)); cbn in *; auto; lia.
      + cbn [scan_row zFDouble]. unfold mset. destruct (Nat.ltb_spec i (nr m)); [|lia]. destruct (Nat.ltb_spec j (nc m)); [|lia]. cbn [andb bind].
        destruct (IH i (S j) (FM (nr m) (nc m) (fun r c => if ((r =? i) && (c =? j))%nat then tval t else el m r c)) l) as (m' & E & L1 & L2 & G); [auto|cbn; lia|].
        rewrite E. exists m'. cbn [length skipn]. split.
        * replace (S (length l) <? S k)%nat with (length l <? k)%nat by (destruct (Nat.ltb_spec (length l) k), (Nat.ltb_spec (S (length l)) (S k)); auto; lia).
          destruct (length l <? k)%nat; auto. do 3 f_equal. f_equal. lia.
        * split; [rewrite L1; reflexivity|]. split; [rewrite L2; reflexivity|]. intros p q. rewrite G. cbn [el].
          destruct (Nat.eqb_spec p i) as [->|]; cbn [andb]; auto.
          destruct (Nat.eqb_spec q j) as [->|].
          -- replace (S j <=? j)%nat with false by (symmetry; apply Nat.leb_gt; lia). rewrite Nat.leb_refl.
             replace (j <? j + Nat.min (S k) (S (length l)))%nat with true by (symmetry; apply Nat.ltb_lt; cbn; lia). cbn [andb].
             now rewrite Nat.sub_diag.
          -- destruct (Nat.leb_spec (S j) q), (Nat.leb_spec j q); try lia; cbn [andb]; auto.
             replace (q <? j + Nat.min (S k) (S (length l)))%nat with (q <? S j + Nat.min k (length l))%nat
               by (destruct (Nat.ltb_spec q (S j + Nat.min k (length l))), (Nat.ltb_spec q (j + Nat.min (S k) (S (length l)))); auto; cbn in *; lia).
             destruct (q <? _)%nat; auto. replace (q - j)%nat with (S (q - S j)) by lia. now rewrite number_S.
  Qed.
  (** the warnings: one for every row that is not complete *)
  Definition mwarn (r c n : nat) (i : nat) : list (nat * nat) :=
    if (n <? i * c + c)%nat then [((i * r + (n - i * c))%nat, (r * c)%nat)] else [].
  Lemma number_skip l k j : number (skipn k l) j = number l (k + j).
  Proof. unfold number. rewrite <- skipn_map. revert l. induction k as [|k IH]; intros [|t l]; cbn; auto. now destruct j. Qed.
  (** Reading a matrix: its elements are the next numbers row by row, those missing are zero. *)
  Theorem C127_mat_scan (r c : nat) l : (0 < r)%nat -> (0 < c)%nat -> exists m,
    zMatFScan ftoi (TI (Z.of_nat r) :: TI (Z.of_nat c) :: l) = Ok (Some m, flat_map (mwarn r c (length l)) (List.seq 0 r), skipn (r * c) l) /\
    nr m = r /\ nc m = c /\ forall i j, (i < r)%nat -> (j < c)%nat -> el m i j = number l (i * c + j).
  Proof.
    intros Hr Hc. unfold zMatFScan. cbn [zFInt]. destruct (Z.leb_spec (Z.of_nat r) 0); [lia|]. destruct (Z.leb_spec (Z.of_nat c) 0); [lia|]. cbn [orb].
    rewrite !Nat2Z.id. cbv zeta.
    match goal with |- context [for_ 0 r ?f ?s] =>
      destruct (for_inv (fun k (st : fmat T * list (nat * nat) * list (tok T)) => let '(m, w, l') := st in
        nr m = r /\ nc m = c /\ w = flat_map (mwarn r c (length l)) (List.seq 0 k) /\ l' = skipn (k * c) l /\
        (forall i j, (i < k)%nat -> (j < c)%nat -> el m i j = number l (i * c + j)) /\
        (forall i j, (k <= i)%nat -> el m i j = s0)) 0 r f s) as (((m & w) & l') & E & A1 & A2 & A3 & A4 & A5 & A6) end.
    - lia.
    - repeat split; auto. intros; lia.
    - intros k ((m & w) & l') Hk (A1 & A2 & A3 & A4 & A5 & A6).
      destruct (scan_row_spec c k 0 m l') as (m' & E & L1 & L2 & G); [lia|lia|]. rewrite E. cbn [bind].
      eexists. split; [reflexivity|]. cbv beta iota. split; [lia|]. split; [lia|]. split; [|split; [|split]].
      + rewrite seq_S, flat_map_app. cbn [flat_map]. rewrite app_nil_r, A3. f_equal. unfold mwarn. rewrite A4, skipn_length. cbn [Nat.add].
        destruct (Nat.ltb_spec (length l - k * c) c), (Nat.ltb_spec (length l) (k * c + c)); auto; lia.
      + rewrite A4. cbn [Nat.mul]. clear. set (a := (k * c)%nat). clearbody a. revert l. induction a as [|a IH]; intros l; [now rewrite Nat.add_0_r|].
        rewrite Nat.add_succ_r. destruct l; [now rewrite !skipn_nil|]. cbn [skipn]. apply IH.
      + intros i j Hi Hj. rewrite G. destruct (Nat.eqb_spec i k) as [->|]; cbn [andb]; [|apply A5; lia].
        rewrite Nat.sub_0_r, A4, number_skip. destruct (Nat.leb_spec 0 j); [|lia]. cbn [andb].
        destruct (Nat.ltb_spec j (0 + Nat.min c (length (skipn (k * c) l)))) as [|B]; auto.
        rewrite skipn_length in B. rewrite number_over by lia. apply A6. lia.
      + intros i j Hi. rewrite G. destruct (Nat.eqb_spec i k); [lia|]. cbn [andb]. apply A6. lia.
    - rewrite E. cbn [bind]. exists m. subst w l'. repeat split; auto.
  Qed.
  Theorem C127_mat_complete (r c : nat) l : (0 < r)%nat -> (0 < c)%nat -> (r * c <= length l)%nat ->
    exists m, zMatFScan ftoi (TI (Z.of_nat r) :: TI (Z.of_nat c) :: l) = Ok (Some m, [], skipn (r * c) l).
  Proof.
    intros Hr Hc Hl. destruct (C127_mat_scan r c l Hr Hc) as (m & E & _). exists m. rewrite E. do 2 f_equal. f_equal.
    assert (A : forall k, (k <= r)%nat -> flat_map (mwarn r c (length l)) (List.seq 0 k) = []).
    { induction k as [|k IH]; intros H; [reflexivity|]. rewrite seq_S, flat_map_app, IH by lia. cbn [flat_map app]. rewrite app_nil_r. unfold mwarn. cbn [Nat.add].
      destruct (Nat.ltb_spec (length l) (k * c + c)); [|reflexivity]. assert (S k * c <= r * c)%nat by (apply Nat.mul_le_mono_r; lia). cbn in *. lia. }
    now apply A.
  Qed.
  Lemma rows_len c (x : nat -> nat -> T) n : forall a, length (flat_map (fun i => zRawVecValueFPrint p10 c (x i)) (List.seq a n)) = (n * c)%nat.
  Proof. induction n as [|n IH]; intros a; [reflexivity|]. cbn [List.seq flat_map]. rewrite app_length, print_len, IH. reflexivity. Qed.
  Lemma rows_nth c (x : nat -> nat -> T) l n : forall a i j, (i < n)%nat -> (j < c)%nat ->
    number (flat_map (fun i => zRawVecValueFPrint p10 c (x i)) (List.seq a n) ++ l) (i * c + j) = p10 (x (a + i)%nat j).
  Proof.
    induction n as [|n IH]; intros a i j Hi Hj; [lia|]. cbn [List.seq flat_map]. rewrite <- app_assoc.
    destruct i as [|i]; [rewrite Nat.add_0_r; cbn [Nat.mul Nat.add]; now apply print_nth|].
    replace (S i * c + j)%nat with (c + (i * c + j))%nat by (cbn; lia). rewrite <- (number_skip _ c).
    rewrite skipn_app, print_len, Nat.sub_diag, (skipn_all2 (n := c)) by (rewrite print_len; lia). cbn [app skipn].
    rewrite IH by lia. do 2 f_equal. lia.
  Qed.
  Theorem C127_mat_round_trip (m : fmat T) l : (0 < nr m)%nat -> (0 < nc m)%nat -> exists m',
    zMatFScan ftoi (zMatFPrint p10 (Some m) ++ l) = Ok (Some m', [], l) /\ nr m' = nr m /\ nc m' = nc m /\
    forall i j, (i < nr m)%nat -> (j < nc m)%nat -> el m' i j = p10 (el m i j).
  Proof.
    intros Hr Hc. cbn [zMatFPrint app]. set (t := flat_map _ _). assert (Lt : length t = (nr m * nc m)%nat) by apply rows_len.
    destruct (C127_mat_scan (nr m) (nc m) (t ++ l) Hr Hc) as (m' & E & L1 & L2 & G).
    destruct (C127_mat_complete (nr m) (nc m) (t ++ l) Hr Hc) as (m2 & E2); [rewrite app_length; lia|].
    assert (m2 = m') by congruence. subst m2. exists m'. split; [|split; [auto|split; auto]].
    - rewrite E2. do 2 f_equal. rewrite skipn_app, Lt, Nat.sub_diag, (skipn_all2 (n := (nr m * nc m)%nat)) by lia. reflexivity.
    - intros i j Hi Hj. rewrite G by auto. now apply (rows_nth (nc m) (el m) l (nr m) 0).
  Qed.

  (** ** sequences *)
  Lemma zVecFScan_total l : exists r w l', zVecFScan ftoi l = Ok (r, w, l') /\ (length l' <= length l)%nat.
  Proof.
    unfold zVecFScan. destruct l as [|t l]; [cbn; eauto 6|].
    assert (E : exists z, zFInt ftoi (t :: l) = Some (z, l)) by (destruct t; cbn; eauto). destruct E as (z & ->).
    destruct (z <=? 0)%Z; [do 3 eexists; split; [reflexivity|cbn; lia]|]. cbv zeta.
    destruct (scan_vec_spec (Z.to_nat z) 0 (FV (Z.to_nat z) (fun _ => s0)) l) as (v & E & _); [cbn; lia|]. rewrite E. cbn [bind].
    do 3 eexists. split; [reflexivity|]. rewrite skipn_length. cbn [length]. lia.
  Qed.
  Lemma seq_scan_ends fuel : forall l, (length l < fuel)%nat -> exists s, seq_scan ftoi fuel l = Ok (Some s).
  Proof.
    induction fuel as [|fuel IH]; intros l H; [lia|]. cbn [seq_scan]. destruct l as [|t l]; cbn [zFDouble]; [eauto|].
    destruct (zVecFScan_total l) as (r & w & l' & -> & L). cbn [bind]. destruct r as [v|]; [|eauto].
    destruct (IH l') as (s & ->); [cbn in H; lia|]. cbn [bind]. eauto.
  Qed.
  (** Every file is read to an end. *)
  Theorem C127_seq_ends l : exists s, zSeqFScan ftoi l = Ok (Some s).
  Proof. apply seq_scan_ends. lia. Qed.
  (** A sequence printed is read back in its order, to ten digits. *)
  Definition same10 (a b : T * fvec T) : Prop :=
    fst b = p10 (fst a) /\ vlen (snd b) = vlen (snd a) /\ forall i, (i < vlen (snd a))%nat -> vel (snd b) i = p10 (vel (snd a) i).
  Theorem C127_seq_round_trip (s : list (T * fvec T)) : Forall (fun c => 0 < vlen (snd c))%nat s ->
    exists s', zSeqFScan ftoi (zSeqFPrint p10 s) = Ok (Some s') /\ Forall2 same10 s s'.
  Proof.
    intros H. unfold zSeqFScan. assert (L : (length (zSeqFPrint p10 s) < S (length (zSeqFPrint p10 s)))%nat) by lia. revert L. generalize (S (length (zSeqFPrint p10 s))) as fuel.
    induction H as [|(dt & v) s Hv Hs IH]; intros fuel L; (destruct fuel as [|fuel]; [lia|]); cbn [seq_scan].
    - cbn. eauto.
    - cbn [zSeqFPrint flat_map fst snd] in *. cbn [app] in *. cbn [zFDouble tval].
      destruct (C127_vec_round_trip v (zSeqFPrint p10 s) Hv) as (v' & E & L1 & G).
      unfold zSeqFPrint in E, IH. rewrite E. cbn [bind].
      destruct (IH fuel) as (s' & -> & F).
      { cbn [length] in L. rewrite app_length in L. unfold zSeqFPrint in L. lia. }
      cbn [bind]. eexists. split; [reflexivity|]. constructor; auto. split; [reflexivity|]. split; auto.
  Qed.
End Scan.

(** Refuted: the number of elements in the warning is that of the elements read.  A matrix with 2 rows and
    3 columns of which 3 elements are given is reported to have 2; with no rows complete there is a warning per row. *)
Theorem C127_count_refuted : exists (l : list (tok R)) m w,
  length l = 3%nat /\ zMatFScan (fun _ => 0%Z) (TI 2 :: TI 3 :: l) = Ok (Some m, [w], []) /\ fst w = 2%nat.
Proof.
  destruct (C127_mat_scan (fun _ => 0%Z) 2 3 [TD 1%R; TD 2%R; TD 3%R]) as (m & E & _); [lia|lia|].
  exists [TD 1%R; TD 2%R; TD 3%R], m, (2, 6)%nat. split; [reflexivity|]. split; [exact E|reflexivity].
Qed.
Example C127_witness : exists v, zVecFScan (T := R) (fun _ => 0%Z) [TI 3; TD 5%R; TD 7%R] = Ok (Some v, [(2, 3)%nat], []) /\ vlen v = 3%nat /\ vel v 1 = 7%R /\ vel v 2 = 0%R.
Proof.
  destruct (C127_vec_scan (fun _ => 0%Z) 3 [TD 5%R; TD 7%R]) as (v & E & L & G); [lia|]. exists v. split; [exact E|]. split; auto.
  split; [now rewrite G by lia|now rewrite G by lia].
Qed.
Print Assumptions C127_vec_scan. Print Assumptions C127_vec_round_trip. Print Assumptions C127_mat_scan. Print Assumptions C127_mat_round_trip. Print Assumptions C127_seq_ends. Print Assumptions C127_seq_round_trip. Print Assumptions C127_count_refuted.
