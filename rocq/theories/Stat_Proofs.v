(** Proofs about extrema, sums, means and variances (Stat_Model.v), over R. *)
From Coq Require Import Reals Lra Lia Psatz.
From Verif Require Import Prelude Prelude_Proofs Scalar RealLib Fmat Fmat_Proofs Misc_Model Misc_Proofs IP_Model IP_Proofs Stat_Model.
From Verif Require Complex_Model.
Local Open Scope R_scope.

Lemma get_nth (l : list R) i : (i < length l)%nat -> get l i = Ok (nth i l 0).
Proof. intros. now apply get_ok. Qed.

(** ** extrema: [lt] is the strict order in which the extremum is the last *)
Section Ext.
  Variables (key : R -> R) (better : R -> R -> bool) (lt : R -> R -> Prop).
  Hypothesis BT : forall y m, better y m = true <-> lt m y.
  Hypothesis IRR : forall a, ~ lt a a.
  Hypothesis TR : forall a b c, lt a b -> lt b c -> lt a c.
  Hypothesis NT : forall a b c, ~ lt a b -> lt a c -> lt b c.
  Definition best (data : list R) (n : nat) (mi : R * nat) : Prop :=
    (snd mi < n)%nat /\ fst mi = key (nth (snd mi) data 0) /\
    (forall j, (j < n)%nat -> ~ lt (fst mi) (key (nth j data 0))) /\
    (forall j, (j < snd mi)%nat -> lt (key (nth j data 0)) (fst mi)).
  Lemma best_step data k mi : best data k mi ->
    best data (S k) (if better (key (nth k data 0)) (fst mi) then (key (nth k data 0), k) else mi).
  Proof.
    intros (A & B & C & D). destruct (better (key (nth k data 0)) (fst mi)) eqn:E.
    - apply BT in E. split; [cbn; lia|split; [reflexivity|split]]; cbn.
      + intros j Hj F. assert (j = k \/ (j < k)%nat) as [->|Hk] by lia; [now apply IRR in F|]. apply (C j Hk). eauto.
      + intros j Hj. eauto.
    - split; [lia|split; [auto|split]]; auto. intros j Hj. assert (j = k \/ (j < k)%nat) as [->|Hk] by lia; auto.
      intros F. apply BT in F. congruence.
  Qed.
  Lemma best_one data : best data 1 (key (nth 0 data 0), O).
  Proof. split; [cbn; lia|split; [reflexivity|split]]; cbn; intros j Hj; [|lia]. replace j with O by lia. apply IRR. Qed.
  Lemma extremum_ok data size : (0 < size <= length data)%nat -> exists mi, extremum key better data size = Ok mi /\ best data size mi.
  Proof.
    intros H. unfold extremum. rewrite get_nth by lia. cbn [bind].
    destruct (for_inv (best data) 1 (Nat.max 1 size) (fun i mi => y <- get data i ;; (let val := key y in if better val (fst mi) then Ok (val, i) else Ok mi)) (key (nth 0 data 0), O)) as (mi & E & P); [lia|apply best_one| |].
    - intros i s Hi P. rewrite get_nth by lia. cbn [bind]. cbv zeta. pose proof (best_step data i s P) as Q.
      destruct (better (key (nth i data 0)) (fst s)); eauto.
    - exists mi. split; [exact E|]. replace (Nat.max 1 size) with size in P by lia. exact P.
  Qed.
End Ext.

Lemma minmax_ok data size : (0 < size <= length data)%nat ->
  exists mn mx, zDataMinMax data size = Ok (mn, mx) /\ best (fun x => x) (fun a b => b < a) data size mn /\ best (fun x => x) Rlt data size mx.
Proof.
  intros H. unfold zDataMinMax. rewrite get_nth by lia. cbn [bind].
  match goal with |- context [for_ 0 size ?f ?s0] => destruct (for_inv (fun n (mm : (R * nat) * (R * nat)) => best (fun x => x) (fun a b => b < a) data (Nat.max 1 n) (fst mm) /\ best (fun x => x) Rlt data (Nat.max 1 n) (snd mm)) 0 size f s0) as ((mn & mx) & E & P); [lia| | |] end.
  - cbn. split; apply (best_one (fun x => x)); intros; lra.
  - intros i (mn & mx) Hi (P1 & P2). cbn [fst snd] in *. rewrite get_nth by lia. cbn [bind]. eexists. split; [reflexivity|]. cbn [fst snd].
    destruct i as [|i].
    + cbn [Nat.max] in *. destruct P1 as (A1 & A2 & A3 & A4), P2 as (B1 & B2 & B3 & B4).
      assert (snd mn = O) as Z1 by lia. assert (snd mx = O) as Z2 by lia. rewrite Z1 in A2. rewrite Z2 in B2.
      cbn [slt RealS]. rewrite A2, B2. destruct (Rltb_spec (nth 0 data 0) (nth 0 data 0)); [lra|]. split; split; auto; split; auto; now rewrite ?Z1, ?Z2.
    + replace (Nat.max 1 (S i)) with (S i) in * by lia. replace (Nat.max 1 (S (S i))) with (S (S i)) by lia.
      split; [apply (best_step (fun x => x) (fun y m => slt y m))|apply (best_step (fun x => x) (fun y m => slt m y))]; cbn [slt RealS]; auto; intros; try lra;
        (split; intros Q; [|]); first [now apply Rltb_true | destruct (Rltb_spec y m); [lra|discriminate] | destruct (Rltb_spec m y); [lra|discriminate]].
  - exists mn, mx. replace (Nat.max 1 size) with size in P by lia. auto.
Qed.

(** ** sums *)
Lemma fsum_inv {St} (f : nat -> R) n (g : nat -> St -> res St) (s : St) (val : St -> R) (P : St -> Prop) :
  P s -> (forall i s, (i < n)%nat -> P s -> exists s', g i s = Ok s' /\ P s' /\ val s' = val s + f i) ->
  exists s', for_ 0 n g s = Ok s' /\ P s' /\ val s' = val s + rsum n f.
Proof.
  intros P0 H. destruct (for_inv (fun k s' => P s' /\ val s' = val s + rsum k f) 0 n g s) as (s' & E & Q1 & Q2); [lia| | |eauto].
  - split; auto. cbn. lra.
  - intros i s1 Hi (A & B). destruct (H i s1) as (s2 & E & C & D); [lia|auto|]. exists s2. split; auto. split; auto. cbn [rsum]. lra.
Qed.
Lemma zDataSum_ok data size : (size <= length data)%nat -> zDataSum data size = Ok (rsum size (fun i => nth i data 0)).
Proof.
  intros H. unfold zDataSum.
  match goal with |- context [for_ 0 size ?f ?s0] => destruct (fsum_inv (fun i => nth i data 0) size f s0 fst (fun s => snd s = 0)) as ((s & q) & E & Q & V) end.
  - reflexivity.
  - intros i (s & q) Hi Q. cbn [snd] in Q. subst q. rewrite get_nth by lia. cbn [bind]. eexists. split; [reflexivity|]. cbn. rs. split; ring.
  - rewrite E. cbn [bind fst snd s0 RealS] in *. f_equal. rs. cbn in V. lra.
Qed.
Definition mean (data : list R) (n : nat) : R := rsum n (fun i => nth i data 0) / INR n.
Definition var (data : list R) (n : nat) : R := rsum n (fun i => (nth i data 0 - mean data n) ^ 2) / INR n.
Lemma zDataMean_ok data size : (size <= length data)%nat -> zDataMean data size = Ok (mean data size).
Proof. intros H. unfold zDataMean. rewrite zDataSum_ok by auto. cbn. unfold mean. now rewrite <- INR_IZR_INZ. Qed.
Lemma zDataVar_ok data size : (size <= length data)%nat -> zDataVar data size = Ok (var data size).
Proof.
  intros H. unfold zDataVar. rewrite zDataMean_ok by auto. cbn [bind].
  match goal with |- context [for_ 0 size ?f ?s0] => destruct (fsum_inv (fun i => (nth i data 0 - mean data size) ^ 2) size f s0 (fun s => s) (fun s => True)) as (s & E & Q & V) end; auto.
  - intros i s Hi _. rewrite get_nth by lia. cbn [bind]. eexists. split; [reflexivity|]. split; auto. unfold Stat_Model.sqr. rs. ring.
  - rewrite E. cbn [bind]. rewrite V. unfold var. f_equal. rs. rewrite <- INR_IZR_INZ. rewrite Rplus_0_l. reflexivity.
Qed.
Lemma rsum_square n f c : rsum n (fun i => (f i - c) ^ 2) = rsum n (fun i => f i ^ 2) - 2 * c * rsum n f + INR n * c ^ 2.
Proof.
  rewrite (rsum_ext n _ (fun i => f i ^ 2 - 2 * c * f i + c ^ 2)) by (intros; ring). rewrite rsum_add, rsum_sub, rsum_scal, rsum_const. ring.
Qed.
Lemma INR_pos n : (0 < n)%nat -> 0 < INR n.
Proof. intros. change 0 with (INR 0). now apply lt_INR. Qed.
Lemma mean_min data n c : (0 < n)%nat -> rsum n (fun i => (nth i data 0 - c) ^ 2) = INR n * var data n + INR n * (c - mean data n) ^ 2.
Proof.
  intros H. pose proof (INR_pos n H). unfold var. rewrite !rsum_square. unfold mean. field. lra.
Qed.
Lemma included_ok data size val tl : (size <= length data)%nat ->
  exists b, zDataIsIncluded data size val tl = Ok b /\ (b = true <-> exists i, (i < size)%nat /\ Rabs (nth i data 0 - val) <= tl * Rmax 1 (Rmax (Rabs (nth i data 0)) (Rabs val))).
Proof.
  intros H. unfold zDataIsIncluded.
  assert (EQ : forall a b, Complex_Model.zEqual a b tl = true <-> Rabs (a - b) <= tl * Rmax 1 (Rmax (Rabs a) (Rabs b))).
  { intros a b. unfold Complex_Model.zEqual. rewrite is_tol_R. rs.
    assert (MX : forall x y, Complex_Model.smax x y = Rmax x y).
    { intros x y. unfold Complex_Model.smax. cbn [slt RealS]. destruct (Rltb_spec y x); [rewrite Rmax_left|rewrite Rmax_right]; lra. }
    rewrite !MX. match goal with |- Rleb ?x ?y = true <-> _ => destruct (Rleb_spec x y) end; split; intros; auto; try discriminate; lra. }
  match goal with |- context [forb 0 size ?f ?s] => destruct (forb_inv (fun n (_ : unit) => forall i, (i < n)%nat -> Complex_Model.zEqual (nth i data 0) val tl = false)
     (fun _ => exists i, (i < size)%nat /\ Complex_Model.zEqual (nth i data 0) val tl = true) 0 size f s) as (r & E & P) end; [lia|intros; lia| |].
  - intros i s Hi P. rewrite get_nth by lia. cbn [bind]. eexists. split; [reflexivity|]. destruct (Complex_Model.zEqual (nth i data 0) val tl) eqn:Z; [exists i; split; [lia|auto]|].
    intros j Hj. assert (j = i \/ (j < i)%nat) as [->|] by lia; auto.
  - rewrite E. cbn [bind]. eexists. split; [reflexivity|]. destruct r as [u|u]; cbv beta iota in P.
    + split; [discriminate|]. intros (i & Hi & L). apply EQ in L. rewrite P in L by auto. discriminate.
    + split; auto. intros _. destruct P as (i & Hi & Q). exists i. split; auto. now apply EQ.
Qed.

(** ** distributions *)
Lemma bin_sum n p : rsum (S n) (fun x => zBinDistrib x n p) = 1.
Proof.
  rewrite (rsum_ext _ _ (fun x => Binomial.C n x * p ^ x * (1 - p) ^ (n - x))).
  2:{ intros x Hx. unfold zBinDistrib. rewrite zCombination_correct by lia. rewrite !spow_R. reflexivity. }
  assert (RS : forall f m, rsum (S m) f = sum_f_R0 f m).
  { intros f m. induction m; [cbn; lra|]. cbn [sum_f_R0]. rewrite <- IHm. reflexivity. }
  rewrite RS, <- binomial. replace (p + (1 - p)) with 1 by ring. apply pow1.
Qed.
