(** Proofs about histograms, peaks, sorting, selection and distributions (Stat_Model.v). *)
From Coq Require Import Reals Lra Lia Psatz Sorting.Sorted Permutation.
From Coquelicot Require Import Coquelicot.
From Verif Require Import Prelude Prelude_Proofs Scalar RealLib Fmat Fmat_Proofs Misc_Model Misc_Proofs IP_Model IP_Proofs Stat_Model Stat_Proofs.
Local Open Scope R_scope.

(** ** histogram *)
(** truncation of a real number to a 32-bit int *)
Definition toint_R (x : R) : option Z :=
  let z := if Rltb x 0 then (- Int_part (- x))%Z else Int_part x in
  if ((-2147483648 <=? z) && (z <=? 2147483647))%Z then Some z else None.
Lemma Int_part_bounds x : IZR (Int_part x) <= x < IZR (Int_part x) + 1.
Proof. destruct (base_Int_part x). lra. Qed.
(** lower end of the bin i *)
Definition low (h : @hist R) (i : nat) : R := h_min h + (h_max h - h_min h) * INR i / INR (length (h_bin h)).
(** the bin i collects val: the first and the last bins are open to the outside *)
Definition collects (h : @hist R) (i : nat) (val : R) : Prop :=
  (i < length (h_bin h))%nat /\ (i = O \/ low h i <= val) /\ (S i = length (h_bin h) \/ val < low h (S i)).
Definition scaled (h : @hist R) (val : R) : R := (val - h_min h) / (h_max h - h_min h) * INR (length (h_bin h)).
Definition good (h : @hist R) : Prop := h_min h < h_max h /\ (1 <= length (h_bin h))%nat.
(** the scaled value fits into an int *)
Definition fits (h : @hist R) (val : R) : Prop := -2147483648 < scaled h val < 2147483648.
Lemma low_scaled h i val : good h -> (low h i <= val <-> INR i <= scaled h val) /\ (val < low h i <-> scaled h val < INR i).
Proof.
  intros (H1 & H2). unfold low, scaled. assert (N : 0 < INR (length (h_bin h))) by (apply INR_pos; lia). set (n := INR (length (h_bin h))) in *. set (d := h_max h - h_min h). assert (0 < d) by (unfold d; lra).
  assert (E : val - (h_min h + d * INR i / n) = (d / n) * ((val - h_min h) / d * n - INR i)) by (field; lra).
  assert (P : 0 < d / n) by (apply Rdiv_lt_0_compat; lra). set (q := (val - h_min h) / d * n) in *. split; split; intros; nra.
Qed.
Lemma collects_unique h i j val : good h -> collects h i val -> collects h j val -> i = j.
Proof.
  intros G (A1 & A2 & A3) (B1 & B2 & B3).
  assert (K : forall i j, (i < j)%nat -> (j < length (h_bin h))%nat -> (S i = length (h_bin h) \/ val < low h (S i)) -> (j = O \/ low h j <= val) -> False).
  { intros i' j' L1 L2 [?|C1] [?|C2]; try lia. apply low_scaled in C1; auto. apply low_scaled in C2; auto. assert (INR (S i') <= INR j') by (apply le_INR; lia). lra. }
  destruct (Nat.lt_trichotomy i j) as [?|[?|?]]; auto; exfalso; [apply (K i j)|apply (K j i)]; auto.
Qed.
Lemma vote_ok h val : good h -> fits h val -> exists i, collects h i val /\
  zHistogramVote toint_R h val = Ok (HI (h_min h) (h_max h) (upd (h_bin h) i (nth i (h_bin h) 0 + 1)%Z)).
Proof.
  intros G F. pose proof G as (G1 & G2). unfold zHistogramVote. cbn [sdiv smul ssub sofZ RealS]. rewrite <- INR_IZR_INZ. fold (scaled h val).
  set (n := length (h_bin h)) in *. unfold fits in F. unfold toint_R.
  set (q := scaled h val) in *.
  set (z := if Rltb q 0 then (- Int_part (- q))%Z else Int_part q).
  assert (B : (-2147483648 < z <= 2147483647)%Z /\ (q < 0 -> (z <= 0)%Z) /\ (0 <= q -> IZR z <= q < IZR z + 1)).
  { unfold z. destruct (Rltb_spec q 0) as [N|N].
    - destruct (Int_part_bounds (- q)) as (I1 & I2). split; [split|split].
      + apply lt_IZR. rewrite opp_IZR. lra.
      + apply Z.le_trans with 0%Z; [|lia]. apply Z.lt_succ_r, lt_IZR. rewrite succ_IZR, opp_IZR. lra.
      + intros _. apply Z.lt_succ_r, lt_IZR. rewrite succ_IZR, opp_IZR. lra.
      + lra.
    - destruct (Int_part_bounds q) as (I1 & I2). split; [split|split]; try lra.
      + apply lt_IZR. lra.
      + apply Z.lt_succ_r, lt_IZR. rewrite succ_IZR. lra. }
  destruct B as (B1 & B2 & B3).
  destruct (Z.leb_spec (-2147483648) z) as [_|?]; [|lia]. destruct (Z.leb_spec z 2147483647) as [_|?]; [|lia]. cbn [andb].
  set (i := zlimit z 0 (Z.of_nat n - 1)).
  assert (I : (0 <= i < Z.of_nat n)%Z). { unfold i, zlimit. destruct (Z.ltb_spec z 0), (Z.ltb_spec (Z.of_nat n - 1) z); lia. }
  destruct (Z.ltb_spec i 0) as [?|_]; [lia|]. rewrite (get_ok _ _ 0%Z) by (fold n; lia). cbn [bind]. rewrite set_ok by (fold n; lia). cbn [bind].
  exists (Z.to_nat i). split; [|reflexivity]. split; [fold n; lia|]. fold n.
  assert (IZ : INR (Z.to_nat i) = IZR i) by (rewrite INR_IZR_INZ, Z2Nat.id by lia; reflexivity).
  split.
  - destruct (Z.eq_dec i 0) as [Z0|Z0]; [left; now rewrite Z0|right]. apply low_scaled; auto. rewrite IZ. fold q.
    assert (NN : 0 <= q). { apply Rnot_lt_le. intros Q. specialize (B2 Q). revert Z0. unfold i, zlimit. destruct (Z.ltb_spec z 0), (Z.ltb_spec (Z.of_nat n - 1) z); lia. }
    specialize (B3 NN). assert (i <= z)%Z. { revert I. unfold i, zlimit. destruct (Z.ltb_spec z 0), (Z.ltb_spec (Z.of_nat n - 1) z); try lia. assert (-1 < z)%Z; [|lia]. apply lt_IZR. lra. }
    apply IZR_le in H. lra.
  - destruct (Z.eq_dec i (Z.of_nat n - 1)) as [Z0|Z0]; [left; lia|right]. apply low_scaled; auto. rewrite S_INR, IZ. fold q.
    destruct (Rlt_le_dec q 0) as [NN|NN].
    + assert (0 <= IZR i) by (apply IZR_le; lia). lra.
    + specialize (B3 NN). assert (z <= i)%Z. { revert Z0. unfold i, zlimit. destruct (Z.ltb_spec z 0), (Z.ltb_spec (Z.of_nat n - 1) z); lia. } apply IZR_le in H. lra.
Qed.
Definition zsum (l : list Z) : Z := fold_right Z.add 0%Z l.
Lemma zsum_upd l i x : (i < length l)%nat -> zsum (upd l i x) = (zsum l - nth i l 0 + x)%Z.
Proof. unfold zsum. revert i. induction l as [|a l IH]; intros i H; cbn in H; [lia|]. destruct i; cbn; [lia|]. rewrite IH by lia. lia. Qed.
(** number of the first [size] data that the bin i collects *)
Fixpoint counts (P : R -> bool) (data : list R) (size : nat) : Z :=
  match size with O => 0%Z | S k => (counts P data k + if P (nth k data 0%R) then 1 else 0)%Z end.
Definition collectsb (h : @hist R) (i : nat) (val : R) : bool :=
  (i <? length (h_bin h))%nat && ((i =? 0)%nat || Rleb (low h i) val) && ((S i =? length (h_bin h))%nat || Rltb val (low h (S i))).
Lemma collectsb_ok h i val : collectsb h i val = true <-> collects h i val.
Proof.
  unfold collectsb, collects. rewrite !Bool.andb_true_iff, !Bool.orb_true_iff, Nat.ltb_lt, !Nat.eqb_eq.
  assert (E1 : Rleb (low h i) val = true <-> low h i <= val) by (destruct (Rleb_spec (low h i) val); split; intros; auto; try discriminate; lra).
  assert (E2 : Rltb val (low h (S i)) = true <-> val < low h (S i)) by (destruct (Rltb_spec val (low h (S i))); split; intros; auto; try discriminate; lra).
  rewrite E1, E2. tauto.
Qed.
Lemma zsum_repeat n : zsum (repeat 0%Z n) = 0%Z.
Proof. induction n; cbn; auto. Qed.
Lemma create_ok data size mn mx num : (size <= length data)%nat -> mn < mx -> (1 <= num)%nat ->
  let h0 := zHistogramAllocBin mn mx num in
  (forall j, (j < size)%nat -> fits h0 (nth j data 0)) ->
  exists bin, zHistogramCreate toint_R data size mn mx num = Ok (HI mn mx bin) /\ length bin = num /\ zsum bin = Z.of_nat size /\
    forall i, (i < num)%nat -> nth i bin 0%Z = counts (collectsb h0 i) data size.
Proof.
  intros HS HM HN h0 HF. unfold zHistogramCreate. fold h0.
  assert (SAME : forall b, length b = num -> forall i v, collects (HI mn mx b) i v <-> collects h0 i v).
  { intros b L i v. unfold collects, low. cbn. rewrite L, repeat_length. tauto. }
  destruct (for_inv (fun k (h : @hist R) => h_min h = mn /\ h_max h = mx /\ length (h_bin h) = num /\ zsum (h_bin h) = Z.of_nat k /\ forall i, (i < num)%nat -> nth i (h_bin h) 0%Z = counts (collectsb h0 i) data k)
     0 size (fun i h => x <- get data i ;; zHistogramVote toint_R h x) h0) as (h & E & A & B & L & S' & D); [lia| | |].
  - cbn. conjs; auto; [apply repeat_length|apply zsum_repeat|]. intros i Hi. now rewrite nth_repeat.
  - intros k [mn' mx' b] Hk (A & B & L & S' & D). cbn [h_min h_max h_bin] in *. subst mn' mx'. rewrite get_nth by lia. cbn [bind].
    destruct (vote_ok (HI mn mx b) (nth k data 0)) as (i & CI & EV).
    + split; cbn; auto. lia.
    + specialize (HF k ltac:(lia)). unfold fits, scaled in *. cbn in HF |- *. rewrite repeat_length in HF. now rewrite L.
    + rewrite EV. eexists. split; [reflexivity|]. cbn [h_min h_max h_bin]. conjs; auto.
      * now rewrite upd_length.
      * destruct CI as (LI & _). cbn in LI. rewrite zsum_upd by auto. lia.
      * intros j Hj. cbn [counts]. destruct (Nat.eq_dec i j) as [->|ne].
        -- rewrite nth_upd_eq by lia. rewrite D by auto. assert (C1 : collectsb h0 j (nth k data 0) = true) by (apply collectsb_ok; now apply (SAME b L)). rewrite C1. lia.
        -- rewrite nth_upd_neq by auto. rewrite D by auto. assert (C1 : collectsb h0 j (nth k data 0) = false). { apply Bool.not_true_is_false. intros C. apply ne. apply collectsb_ok in C. apply (SAME b L) in C. apply (collects_unique (HI mn mx b) i j (nth k data 0)); auto. split; cbn; auto. lia. }
           rewrite C1. lia.
  - destruct h as [mn' mx' b]. cbn [h_min h_max h_bin] in *. subst. eauto 10.
Qed.

(** ** peaks *)
Section Peak.
  Variables (src : list R) (size : nat) (w : Z).
  Hypothesis HS : (size <= length src)%nat.
  Definition local_max (i : nat) : Prop := (0 < i)%nat /\ (i + 1 < size)%nat /\ nth (i - 1) src 0 < nth i src 0 /\ nth (i + 1) src 0 < nth i src 0.
  Lemma is_peak_ok i : (i < size)%nat -> exists b, is_peak src size i = Ok b /\ (b = true <-> local_max i).
  Proof.
    intros Hi. unfold is_peak, local_max. destruct (Nat.eqb_spec i 0); cbn [orb]; [exists false; split; auto; split; [discriminate|lia]|].
    destruct (Nat.leb_spec size (i + 1)); cbn [orb]; [exists false; split; auto; split; [discriminate|lia]|].
    rewrite !get_nth by lia. cbn [bind slt RealS]. eexists. split; [reflexivity|]. rewrite Bool.andb_true_iff.
    destruct (Rltb_spec (nth (i - 1) src 0) (nth i src 0)), (Rltb_spec (nth (i + 1) src 0) (nth i src 0)); (split; [intros (Q1 & Q2); try discriminate; repeat split; auto; lia|intros (Q1 & Q2 & Q3 & Q4); split; auto; lra]).
  Qed.
  Definition far (a b : nat) : Prop := (Z.of_nat b + w < Z.of_nat a)%Z.
  Definition alone (j : nat) : Prop := local_max j /\ forall i, local_max i -> i <> j -> (Z.abs (Z.of_nat i - Z.of_nat j) <= w)%Z -> nth i src 0 < nth j src 0.
  Definition pinv (k : nat) (l : list nat) : Prop :=
    (forall i, In i l -> local_max i /\ (i < k)%nat) /\ StronglySorted (fun a b => far a b /\ (b < a)%nat) l /\
    (forall j, local_max j -> (j < k)%nat -> exists i, In i l /\ nth j src 0 <= nth i src 0) /\
    (forall j, alone j -> (j < k)%nat -> In j l) /\ ((w <= 0)%Z -> forall j, local_max j -> (j < k)%nat -> In j l).
  Lemma peak_inv : exists l, zDataPeak src size w = Ok (rev l) /\ pinv (Nat.max 1 size) l.
  Proof.
    unfold zDataPeak.
    match goal with |- context [for_ 1 ?hi ?f ?s0] => destruct (for_inv pinv 1 hi f s0) as (l & E & P); [lia| | |rewrite E; cbn; eauto] end.
    - split; [intros i []|]. split; [constructor|]. unfold alone, local_max. split; [|split]; [intros j (J & _) ?; lia|intros j ((J & _) & _) ?; lia|intros _ j (J & _) ?; lia].
    - intros i l Hi (P1 & P2 & P3 & P4 & P5). destruct (is_peak_ok i) as (b & E & B); [lia|]. rewrite E. cbn [bind].
      destruct b.
      2:{ assert (NP : ~ local_max i) by (intros Q; apply B in Q; discriminate). eexists. split; [reflexivity|]. split; [|split; [|split; [|split]]]; auto.
          - intros j Hj. apply P1 in Hj. split; [tauto|lia].
          - intros j Lj Hj. apply P3; auto. assert (j <> i) by congruence. lia.
          - intros j Aj Hj. apply P4; auto. assert (j <> i) by (destruct Aj; congruence). lia.
          - intros W j Lj Hj. apply P5; auto. assert (j <> i) by congruence. lia. }
      assert (LM : local_max i) by now apply B. clear E B.
      destruct l as [|h t].
      { eexists. split; [reflexivity|]. assert (N : forall j, local_max j -> (j < S i)%nat -> j = i). { intros j Lj Hj. assert (j = i \/ (j < i)%nat) as [|K] by lia; auto. destruct (P3 j Lj K) as (x & [] & _). }
        split; [|split; [|split; [|split]]].
        - intros j [<-|[]]. split; auto.
        - constructor; constructor.
        - intros j Lj Hj. rewrite (N j Lj Hj). exists i. split; [now left|lra].
        - intros j (Lj & _) Hj. left. symmetry. auto.
        - intros _ j Lj Hj. left. symmetry. auto. }
      assert (Hh : (h < i)%nat) by (apply P1; now left).
      assert (BEF : forall b, In b t -> far h b /\ (b < h)%nat). { inversion P2; subst. now apply Forall_forall. }
      assert (TS : StronglySorted (fun a b => far a b /\ (b < a)%nat) t) by (now inversion P2).
      destruct (Z.ltb_spec (Z.of_nat h + w) (Z.of_nat i)) as [F|F].
      + eexists. split; [reflexivity|]. split; [|split; [|split; [|split]]].
        * intros j [<-|Hj]; [split; auto|]. apply P1 in Hj. split; [tauto|lia].
        * constructor; auto. apply Forall_forall. intros b [<-|Hb]; [split; auto|]. destruct (BEF b Hb) as (F1 & F2). unfold far in *. split; lia.
        * intros j Lj Hj. assert (j = i \/ (j < i)%nat) as [->|K] by lia; [exists i; split; [now left|lra]|]. destruct (P3 j Lj K) as (x & I & V). exists x. split; auto. now right.
        * intros j Lj Hj. assert (j = i \/ (j < i)%nat) as [->|K] by lia; [now left|right; auto].
        * intros W j Lj Hj. assert (j = i \/ (j < i)%nat) as [->|K] by lia; [now left|right; auto].
      + rewrite !get_nth by lia. cbn [bind slt RealS].
        assert (WP : (w > 0)%Z) by lia.
        destruct (Rltb_spec (nth h src 0) (nth i src 0)) as [V|V]; (eexists; split; [reflexivity|]); (split; [|split; [|split; [|split]]]); try (intros; lia).
        * intros j [<-|Hj]; [split; auto|]. assert (In j (h :: t)) as Q by now right. apply P1 in Q. split; [tauto|lia].
        * constructor; auto. apply Forall_forall. intros b Hb. destruct (BEF b Hb) as (F1 & F2). unfold far in *. split; lia.
        * intros j Lj Hj. assert (j = i \/ (j < i)%nat) as [->|K] by lia; [exists i; split; [now left|lra]|]. destruct (P3 j Lj K) as (x & [<-|I] & V2); [exists i; split; [now left|lra]|exists x; split; auto; now right].
        * intros j Aj Hj. assert (j = i \/ (j < i)%nat) as [->|K] by lia; [now left|]. destruct (P4 j Aj K) as [<-|I]; [|now right]. exfalso. destruct Aj as (_ & Aj). specialize (Aj i LM ltac:(lia) ltac:(lia)). lra.
        * intros j Hj. apply P1 in Hj. split; [tauto|lia].
        * constructor; auto. apply Forall_forall. auto.
        * intros j Lj Hj. assert (j = i \/ (j < i)%nat) as [->|K] by lia; [exists h; split; [now left|lra]|auto].
        * intros j Aj Hj. assert (j = i \/ (j < i)%nat) as [->|K] by lia; [|auto]. exfalso. destruct Aj as (_ & Aj). assert (LH : local_max h) by (apply P1; now left). specialize (Aj h LH ltac:(lia) ltac:(lia)). lra.
  Qed.
End Peak.

(** ** sorting and selection *)
(** contract of zQuickSort / zQuickSelect (ZEDA): the sorted permutation *)
Definition sorts (qsort : forall A : Type, (A -> A -> Z) -> list A -> list A) : Prop :=
  forall A (cmp : A -> A -> Z) l, (forall a b, (cmp a b <= 0 \/ cmp b a <= 0)%Z) -> (forall a b c, (cmp a b <= 0 -> cmp b c <= 0 -> cmp a c <= 0)%Z) ->
  Permutation (qsort A cmp l) l /\ StronglySorted (fun a b => (cmp a b <= 0)%Z) (qsort A cmp l).
Lemma sort_cmp_le x y : (sort_cmp x y <= 0)%Z <-> x <= y.
Proof. unfold sort_cmp. cbn [slt RealS]. destruct (Rltb_spec y x), (Rltb_spec x y); split; intros; try lia; try lra. Qed.
Lemma sorted_map {A} (P Q : A -> A -> Prop) l : (forall a b, P a b -> Q a b) -> StronglySorted P l -> StronglySorted Q l.
Proof. intros H S. induction S as [|a l S IH F]; constructor; auto. revert F. apply Forall_impl. auto. Qed.
Lemma sorted_nth {A} (P : A -> A -> Prop) d l : StronglySorted P l -> forall i j, (i < j < length l)%nat -> P (nth i l d) (nth j l d).
Proof.
  induction 1 as [|a l S IH F]; intros i j H; cbn in H; [lia|]. destruct j; [lia|]. destruct i; cbn.
  - rewrite Forall_forall in F. apply F, nth_In. lia.
  - apply IH. lia.
Qed.
Lemma filter_perm {A} (p : A -> bool) l1 l2 : Permutation l1 l2 -> length (filter p l1) = length (filter p l2).
Proof. induction 1; cbn; try destruct (p x); try destruct (p y); cbn; congruence. Qed.
Lemma filter_le {A} (p : A -> bool) l : (length (filter p l) <= length l)%nat.
Proof. induction l; cbn; auto. destruct (p a); cbn; lia. Qed.
Lemma filter_all {A} (p : A -> bool) l : (forall a, In a l -> p a = true) -> filter p l = l.
Proof. induction l; intros H; cbn; auto. rewrite H by (now left). f_equal. apply IHl. intros; apply H; now right. Qed.
Lemma filter_none {A} (p : A -> bool) l : (forall a, In a l -> p a = false) -> filter p l = [].
Proof. induction l; intros H; cbn; auto. rewrite H by (now left). apply IHl. intros; apply H; now right. Qed.
(** number of indices below [size] whose datum satisfies [p] *)
Definition how_many (p : R -> bool) (data : list R) (size : nat) : nat := length (filter (fun i => p (nth i data 0)) (List.seq 0 size)).
(** v is the k-th smallest (from 0) of the first [size] data *)
Definition kth (data : list R) (size k : nat) (v : R) : Prop :=
  (exists i, (i < size)%nat /\ nth i data 0 = v) /\
  (how_many (fun x => Rltb x v) data size <= k < how_many (fun x => Rleb x v) data size)%nat.
Lemma kth_unique data size k v1 v2 : kth data size k v1 -> kth data size k v2 -> v1 = v2.
Proof.
  intros (_ & A1 & A2) (_ & B1 & B2).
  assert (K : forall a b, a < b -> (how_many (fun x => Rleb x a) data size <= how_many (fun x => Rltb x b) data size)%nat).
  { intros a b L. unfold how_many. generalize (List.seq 0 size). intros l. induction l as [|i l IH]; cbn; auto.
    destruct (Rleb_spec (nth i data 0) a), (Rltb_spec (nth i data 0) b); cbn; try lia; lra. }
  destruct (Rtotal_order v1 v2) as [L|[L|L]]; auto; apply K in L; lia.
Qed.
Lemma sort_index_ok qsort key data index : sorts qsort -> (forall i, In i index -> (i < length data)%nat) ->
  exists l, sort_index qsort key data (length index) index = Ok (Some l) /\ Permutation l index /\ StronglySorted (fun i j => key (nth i data 0) <= key (nth j data 0)) l.
Proof.
  intros HQ HI. unfold sort_index. rewrite Nat.eqb_refl. cbn [negb].
  assert (E : forallb (fun i => (i <? length data)%nat) index = true) by (apply forallb_forall; intros i Hi; apply Nat.ltb_lt; auto). rewrite E.
  destruct (HQ nat (index_cmp key data) index) as (P & S).
  - intros a b. unfold index_cmp. rewrite !sort_cmp_le. lra.
  - intros a b c. unfold index_cmp. rewrite !sort_cmp_le. lra.
  - eexists. split; [reflexivity|]. split; auto. eapply sorted_map; [|exact S]. intros a b. unfold index_cmp. cbn [s0 RealS]. rewrite sort_cmp_le. auto.
Qed.
Lemma nth_skip {A} (l : list A) k j d : nth j (skipn k l) d = nth (k + j) l d.
Proof. revert l. induction k; intros l; [reflexivity|]. destruct l; cbn; [now destruct j|apply IHk]. Qed.
Lemma nth_first {A} (l : list A) k j d : (j < k)%nat -> nth j (firstn k l) d = nth j l d.
Proof. revert l j. induction k; intros l j H; [lia|]. destruct l; [reflexivity|]. destruct j; cbn; auto. apply IHk. lia. Qed.
Lemma select_ok qsort data size k : sorts qsort -> (size <= length data)%nat -> (k < size)%nat ->
  exists v, zDataSelect qsort data size k = Ok (Some v) /\ kth data size k v.
Proof.
  intros HQ HS HK. unfold zDataSelect. destruct (Nat.ltb_spec (length data) size); [lia|].
  destruct (HQ nat (index_cmp (fun x => x) data) (List.seq 0 size)) as (P & SO).
  - intros a b. unfold index_cmp. rewrite !sort_cmp_le. lra.
  - intros a b c. unfold index_cmp. rewrite !sort_cmp_le. lra.
  - set (l := qsort nat (index_cmp (fun x => x) data) (List.seq 0 size)) in *.
    assert (L : length l = size) by (rewrite (Permutation_length P), seq_length; auto).
    rewrite (nth_error_nth' l O) by lia. assert (IB : forall i, In i l -> (i < size)%nat). { intros i Hi. apply (Permutation_in _ P) in Hi. apply in_seq in Hi. lia. }
    assert (IK : (nth k l O < size)%nat) by (apply IB, nth_In; lia). rewrite get_nth by lia. eexists. split; [reflexivity|]. split; [eauto|].
    set (v := nth (nth k l O) data 0).
    assert (SV : forall i j, (i <= j < size)%nat -> nth (nth i l O) data 0 <= nth (nth j l O) data 0).
    { intros i j Hij. assert (i = j \/ (i < j)%nat) as [->|K] by lia; [lra|]. pose proof (sorted_nth _ O l SO i j ltac:(lia)) as Q. cbv beta in Q. unfold index_cmp in Q. now apply sort_cmp_le in Q. }
    unfold how_many. rewrite <- !(filter_perm _ _ _ P). split.
    + rewrite <- (firstn_skipn k l), filter_app, app_length. rewrite (filter_none _ (skipn k l)).
      * pose proof (filter_le (fun i => Rltb (nth i data 0) v) (firstn k l)). rewrite firstn_length in H0. cbn. lia.
      * intros a Ha. apply (In_nth _ _ O) in Ha as (j & Hj & <-). rewrite skipn_length in Hj. rewrite nth_skip. destruct (Rltb_spec (nth (nth (k + j) l O) data 0) v); auto. specialize (SV k (k + j)%nat ltac:(lia)). fold v in SV. lra.
    + rewrite <- (firstn_skipn (S k) l), filter_app, app_length. rewrite (filter_all _ (firstn (S k) l)).
      * rewrite firstn_length. lia.
      * intros a Ha. apply (In_nth _ _ O) in Ha as (j & Hj & <-). rewrite firstn_length in Hj. rewrite nth_first by lia. destruct (Rleb_spec (nth (nth j l O) data 0) v); auto. specialize (SV j k ltac:(lia)). fold v in SV. lra.
Qed.

(** ** distributions *)
Lemma poisson_sum lam : is_series (fun x => zPoissonDistrib exp x lam) 1.
Proof.
  assert (E : forall x, zPoissonDistrib exp x lam = exp (- lam) * (/ INR (fact x) * lam ^ x)).
  { intros x. unfold zPoissonDistrib. rewrite zFactorial_correct, spow_R. rs. unfold Rdiv. ring. }
  apply (is_series_ext (fun x => exp (- lam) * (/ INR (fact x) * lam ^ x))); [intros; now rewrite E|].
  replace 1 with (exp (- lam) * exp lam) by (rewrite <- exp_plus; replace (- lam + lam) with 0 by ring; apply exp_0).
  apply (is_series_scal (exp (- lam)) (fun x => / INR (fact x) * lam ^ x) (exp lam)).
  pose proof (is_exp_Reals lam) as H. unfold is_pseries in H. eapply is_series_ext; [|exact H].
  intros n. cbn. unfold scal; cbn. unfold mult; cbn. rewrite Rmult_comm. f_equal.
Qed.
Definition etrunc (n : nat) (y : R) : R := rsum n (fun j => y ^ j / INR (fact j)).
Lemma chi2_sum_ok x cnt : fst (chi2_sum exp x cnt) = exp (- (x / 2)) * etrunc (S cnt) (x / 2).
Proof.
  assert (E : chi2_sum exp x cnt = (exp (- (x / 2)) * etrunc (S cnt) (x / 2), exp (- (x / 2)) * ((x / 2) ^ cnt / INR (fact cnt)))).
  { induction cnt as [|n IH].
    - unfold chi2_sum, etrunc. cbn. replace (- (1 / 2) * x) with (- (x / 2)) by field. f_equal; field.
    - unfold chi2_sum in *. rewrite seq_S, fold_left_app, IH. cbn [fold_left fst snd]. unfold etrunc. cbn [rsum]. cbn [sadd smul sdiv sofZ RealS]. rewrite <- INR_IZR_INZ.
      replace (INR (2 * (0 + n) + 2)) with (2 * INR (S n)) by (cbn [Nat.add]; rewrite plus_INR, mult_INR, S_INR; cbn; ring).
      assert (F : (x / 2) ^ S n / INR (fact (S n)) = (x / 2) ^ n / INR (fact n) * (x / (2 * INR (S n)))).
      { rewrite fact_simpl, mult_INR. cbn [pow]. field. split; first [apply INR_fact_neq_0|apply not_0_INR; lia]. }
      rewrite F. f_equal; ring. }
  now rewrite E.
Qed.
Lemma lim_ext (f g : R -> R) x l : (forall t, f t = g t) -> derivable_pt_lim f x l -> derivable_pt_lim g x l.
Proof. intros H D eps He. destruct (D eps He) as (d & Hd). exists d. intros h H1 H2. rewrite <- !H. now apply Hd. Qed.
Lemma d_etrunc n y : derivable_pt_lim (etrunc (S n)) y (etrunc n y).
Proof.
  induction n as [|n IH].
  - apply (lim_ext (fun _ => 1)); [intros; unfold etrunc; cbn; field|]. apply derivable_pt_lim_const.
  - apply (lim_ext (fun t => etrunc (S n) t + / INR (fact (S n)) * t ^ S n)); [intros; unfold etrunc at 2; cbn [rsum]; unfold etrunc; cbn [rsum]; unfold Rdiv; ring|].
    replace (etrunc (S n) y) with (etrunc n y + / INR (fact (S n)) * (INR (S n) * y ^ Nat.pred (S n))).
    + apply (derivable_pt_lim_plus (etrunc (S n)) (fun t => / INR (fact (S n)) * t ^ S n)); auto.
      apply (derivable_pt_lim_scal (fun t => t ^ S n)). apply derivable_pt_lim_pow.
    + unfold etrunc. cbn [rsum Nat.pred]. rewrite fact_simpl, mult_INR. field. split; first [apply INR_fact_neq_0|apply not_0_INR; lia].
Qed.
(** density of the chi-squared distribution with 2m degrees of freedom *)
Definition chi2_density (m : nat) (x : R) : R := (1 / 2) ^ m * x ^ (m - 1) * exp (- (x / 2)) / INR (fact (m - 1)).
Lemma half_cnt m : (1 <= m)%nat -> ((2 * m - 1) / 2 = m - 1)%nat.
Proof. intros. symmetry. apply Nat.div_unique with 1%nat; lia. Qed.
Lemma chi2_cum m x : (1 <= m)%nat -> zChi2CumDistrib_even exp x (2 * m) = 1 - exp (- (x / 2)) * etrunc m (x / 2).
Proof. intros H. unfold zChi2CumDistrib_even. rewrite half_cnt, chi2_sum_ok by auto. replace (S (m - 1)) with m by lia. reflexivity. Qed.
Lemma chi2_derive m x : (1 <= m)%nat -> derivable_pt_lim (fun x => zChi2CumDistrib_even exp x (2 * m)) x (chi2_density m x).
Proof.
  intros H. apply (lim_ext (fun x => 1 - exp (- (x / 2)) * etrunc m (x / 2))); [intros; now rewrite chi2_cum|].
  assert (D1 : derivable_pt_lim (fun t => t / 2) x (1 / 2)).
  { apply (lim_ext (fun t => / 2 * t)); [intros; field|]. replace (1 / 2) with (/ 2 * 1) by field. apply (derivable_pt_lim_scal (fun t => t)). apply derivable_pt_lim_id. }
  assert (D2 : derivable_pt_lim (fun t => exp (- (t / 2))) x (exp (- (x / 2)) * - (1 / 2))).
  { apply (derivable_pt_lim_comp (fun t => - (t / 2)) exp). - apply (derivable_pt_lim_opp (fun t => t / 2)). exact D1. - apply derivable_pt_lim_exp. }
  assert (D3 : derivable_pt_lim (fun t => etrunc m (t / 2)) x (etrunc (m - 1) (x / 2) * (1 / 2))).
  { apply (derivable_pt_lim_comp (fun t => t / 2) (etrunc m)); [exact D1|]. pose proof (d_etrunc (m - 1) (x / 2)) as Q. now replace (S (m - 1)) with m in Q by lia. }
  replace (chi2_density m x) with (0 - (exp (- (x / 2)) * - (1 / 2) * etrunc m (x / 2) + exp (- (x / 2)) * (etrunc (m - 1) (x / 2) * (1 / 2)))).
  - apply (derivable_pt_lim_minus (fun _ => 1) (fun x => exp (- (x / 2)) * etrunc m (x / 2))); [apply derivable_pt_lim_const|].
    apply (derivable_pt_lim_mult (fun x => exp (- (x / 2))) (fun x => etrunc m (x / 2))); auto.
  - replace m with (S (m - 1)) at 1 by lia. unfold etrunc. cbn [rsum]. fold (etrunc (m - 1) (x / 2)). unfold chi2_density.
    replace ((1 / 2) ^ m) with (1 / 2 * (1 / 2) ^ (m - 1)) by (replace m with (S (m - 1)) at 2 by lia; reflexivity).
    replace ((x / 2) ^ (m - 1)) with (x ^ (m - 1) * (1 / 2) ^ (m - 1)) by (rewrite <- Rpow_mult_distr; f_equal; field). field. apply INR_fact_neq_0.
Qed.
Lemma etrunc_0 m : (1 <= m)%nat -> etrunc m 0 = 1.
Proof.
  intros H. unfold etrunc. rewrite (rsum_delta m 0) by (try lia; intros i Hi ne; rewrite pow_ne_zero by lia; unfold Rdiv; ring). cbn. field.
Qed.
Lemma etrunc_pos m y : (1 <= m)%nat -> 0 <= y -> 0 < etrunc m y.
Proof.
  intros H Hy. unfold etrunc. destruct m; [lia|]. rewrite rsum_S_l. replace (y ^ 0 / INR (fact 0)) with 1 by (cbn; field). pose proof (rsum_nonneg m (fun i => y ^ S i / INR (fact (S i)))) as Q. cbv beta in Q.
  assert (0 <= rsum m (fun i => y ^ S i / INR (fact (S i)))). { apply Q. intros i _. apply Rmult_le_pos; [now apply pow_le|left; apply Rinv_0_lt_compat, INR_fact_lt_0]. } lra.
Qed.
Lemma density_nonneg m x : 0 <= x -> 0 <= chi2_density m x.
Proof.
  intros H. unfold chi2_density. apply Rmult_le_pos; [|left; apply Rinv_0_lt_compat, INR_fact_lt_0].
  repeat apply Rmult_le_pos; [apply pow_le; lra|now apply pow_le|left; apply exp_pos].
Qed.
Lemma chi2_mono m a b : (1 <= m)%nat -> 0 <= a -> a <= b -> zChi2CumDistrib_even exp a (2 * m) <= zChi2CumDistrib_even exp b (2 * m).
Proof.
  intros Hm Ha [L| ->]; [|lra].
  destruct (MVT_gen (fun x => zChi2CumDistrib_even exp x (2 * m)) a b (chi2_density m)) as (c & Hc & E).
  - intros x _. apply is_derive_Reals. now apply chi2_derive.
  - intros x _. apply derivable_continuous_pt. exists (chi2_density m x). now apply chi2_derive.
  - rewrite Rmin_left, Rmax_right in Hc by lra. pose proof (density_nonneg m c ltac:(lra)). nra.
Qed.
