(** C18, C19, C20 and the polyline simplification of C61. *)
From Coq Require Import Reals Lra Permutation.
From Verif Require Import Prelude Prelude_Proofs Scalar RealLib Collect_Model Collect_Spec Collect_Proofs.
Local Open Scope R_scope.

(** ** C18: any history of enqueues and dequeues on an initially empty sequence.  What was
    dequeued so far, followed by what is still in the sequence (oldest first), is
    exactly what was enqueued, in order. *)
Theorem C18_fifo {A} (h : list (qop A)) :
  let (answers, s) := run_seq zSeqInit h in enqueued h = somes answers ++ rev s.
Proof. apply (fifo h []). Qed.
(** a dequeue answers the oldest frame and removes it; NULL exactly on the empty sequence *)
Theorem C18_dequeue {A} (s : list A) :
  zSeqDequeue s = match rev s with [] => (None, s) | x :: r => (Some x, rev r) end.
Proof. rewrite dequeue_spec. destruct (rev s) as [|x r] eqn:E; auto. rewrite <- (rev_involutive s), E. reflexivity. Qed.
Theorem C18_enqueue {A} (s : list A) v : zSeqEnqueue s (Some v) = (true, v :: s) /\ zSeqEnqueue s None = (false, s) /\
  rev (v :: s) = rev s ++ [v].
Proof. auto. Qed.
(** the k-th oldest frame; the newest one past the end; the oldest one for k < 0 *)
Theorem C18_jump {A} (s : list A) (k : Z) : s <> [] ->
  zSeqJump s k = if (k <? Z.of_nat (length s))%Z then nth_error (rev s) (Z.to_nat k) else hd_error s.
Proof.
  intros N. unfold zSeqJump. rewrite jump_spec. destruct (Z.ltb_spec k (Z.of_nat (length s))) as [H|H].
  - assert (Z.to_nat k < length (rev s))%nat as L by (rewrite rev_length; destruct s; [congruence|]; cbn in *; lia).
    apply nth_error_Some in L. now destruct (nth_error (rev s) (Z.to_nat k)).
  - assert (nth_error (rev s) (Z.to_nat k) = None) as -> by (apply nth_error_None; rewrite rev_length; lia). auto.
Qed.
Example C18_case : run_seq zSeqInit [Enq (Some 1); Enq None; Enq (Some 2); Deq; Enq (Some 3); Deq; Deq; Deq]
  = ([Some 1; Some 2; Some 3; None], []).
Proof. reflexivity. Qed.

(** ** C19.  [dist]: Euclidean distance. *)
Theorem C19_nearest l v : l <> [] -> (forall c, In c l -> length c = length v) ->
  exists c, zVecListNN l v = Ok (Some c, Some (dist c v)) /\ In c l /\ forall c', In c' l -> dist c v <= dist c' v.
Proof. apply zVecListNN_ok. Qed.
Theorem C19_nearest_empty (v : list R) : zVecListNN [] v = Ok (None, None).
Proof. reflexivity. Qed.
(** [lsum l i]: sum of the i-th components *)
Theorem C19_sum l n : (forall v, In v l -> length v = n) ->
  length (zVecListSum l n) = n /\ forall i, nth i (zVecListSum l n) 0 = lsum l i.
Proof. apply zVecListSum_ok. Qed.
Theorem C19_mean tol l n : 0 <= tol < 1 -> l <> [] -> (forall v, In v l -> length v = n) ->
  exists m, zVecListMean tol l n = Some m /\ length m = n /\ forall i, nth i m 0 = lsum l i / INR (length l).
Proof. apply zVecListMean_ok. Qed.
Theorem C19_mean_empty tol n : 0 <= tol -> zVecListMean tol [] n = None.
Proof. apply zVecListMean_empty. Qed.
Theorem C19_variance l m : l <> [] -> (forall v, In v l -> length v = length m) ->
  zVecListVar l m = Ok (Some (fold_right (fun v s => dist v m * dist v m + s) 0 l / INR (length l))).
Proof.
  intros N H. rewrite zVecListVar_ok by auto. clear N H. assert (forall l, fold_right (fun v s => dist v m * dist v m + s) 0 l = fold_right (fun v s => sqd v m + s) 0 l) as E; [|now rewrite E].
  clear l. induction l as [|v l IH]; cbn [fold_right]; auto. rewrite IH. f_equal.
  unfold dist. rewrite sqrt_sqrt; auto using sqd_nonneg.
Qed.
Theorem C19_covariance l m : l <> [] -> (forall v, In v l -> length v = length m) ->
  exists c, zVecListCov l m (length m) (length m) = Ok (Some c) /\
   forall i j, c i j = fold_right (fun v s => (nth i v 0 - nth i m 0) * (nth j v 0 - nth j m 0) + s) 0 l / INR (length l).
Proof. apply zVecListCov_ok. Qed.
Theorem C19_bounds l n : l <> [] -> (forall v, In v l -> length v = n) ->
  exists mi ma, zVecListMinMax l n n = Ok (Some (mi, ma)) /\ length mi = n /\ length ma = n /\
   forall i, (i < n)%nat -> exists lo hi, nth i mi None = Some lo /\ nth i ma None = Some hi /\
     (forall v, In v l -> lo <= nth i v 0 <= hi) /\ (exists v, In v l /\ nth i v 0 = lo) /\ (exists v, In v l /\ nth i v 0 = hi).
Proof. apply zVecListMinMax_ok. Qed.
Example C19_case : (forall c, In c [[1; 2]; [3; 4]] -> length c = length [0; 0]) /\ [[1; 2]; [3; 4]] <> [].
Proof. split; [|discriminate]. intros c [<-|[<-|[]]]; reflexivity. Qed.

(** ** C20: every history of at least one insertion, every query *)
Theorem C20_nearest_partial tol n vs v t0 : 0 <= tol -> (0 < n)%nat -> vs <> [] -> (forall u, In u vs -> length u = n) -> length v = n ->
  zVecTreeInit n = Some t0 ->
  exists t u, kadd_all t0 vs = Ok t /\ zVecTreeNN tol t v = Ok (Some u, Some (dist u v)) /\ In u vs /\
    forall u', In u' vs -> dist u v <= dist u' v.
Proof. apply kd_nn_ok. Qed.
Theorem C20_init (n : nat) : zVecTreeInit (T := R) n = if (n =? 0)%nat then None else Some (KRoot (repeat None n) (repeat None n)).
Proof. reflexivity. Qed.
Example C20_case : exists t0 : kroot R, zVecTreeInit 2 = Some t0 /\ (forall u, In u [[1; 2]; [3; 4]; [0; 5]] -> length u = 2%nat).
Proof. eexists; split; [reflexivity|]. intros u [<-|[<-|[<-|[]]]]; reflexivity. Qed.
(** a query before the first insertion dereferences the NULL vector of the root *)
Theorem C20_empty_refuted tol (v : list R) : exists t0, zVecTreeInit 3 = Some t0 /\ zVecTreeNN tol t0 v = UB.
Proof. eexists; split; reflexivity. Qed.

(** ** C61, polyline simplification: the end points stay; the result is the input with
    runs dropped, every dropped point within tol of the chord that replaces its run
    ([kept], for any metric). *)
Theorem C61_rdp_partial (metric : list R -> list R -> list R -> R) tol a mid b : 0 <= tol ->
  exists out, zVecListRDP (fun c a b => Ok (metric c a b)) tol (a :: mid ++ [b]) = Ok (a :: out ++ [b]) /\ kept metric tol a mid b out.
Proof. apply rdp_list_ok. Qed.
Theorem C61_rdp_empty tol (metric : list R -> list R -> list R -> res R) : 0 <= tol -> zVecListRDP metric tol [] = Ok [].
Proof. intros. unfold zVecListRDP. rs. destruct (Rltb_spec tol 0); auto; lra. Qed.
(** a list of one point *)
Theorem C61_rdp_single_refuted tol (metric : list R -> list R -> list R -> res R) a : zVecListRDP metric tol [a] = UB.
Proof. reflexivity. Qed.

Print Assumptions C18_fifo.
Print Assumptions C19_bounds.
Print Assumptions C20_nearest_partial.
Print Assumptions C61_rdp_partial.
