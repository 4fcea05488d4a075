(** C84: random sample consensus. *)
From Coq Require Import List Arith Lia Permutation Reals Lra QArith.
From Verif Require Import Prelude Scalar RealLib Ransac_Model Ransac_Spec Ransac_Proofs.
Import ListNotations.
Local Open Scope nat_scope.

Section C84.
  Context {Q : Type}.
  Variables (fit : list nat -> Q -> Q) (err : Q -> nat -> R) (splice : list nat -> list nat -> list nat) (rnd : nat -> nat -> nat).
  Hypothesis Hsp : forall a b, Permutation (splice a b) (a ++ b).
  Hypothesis Hrnd : forall k n, 0 < n -> rnd k n < n.

  (** For every user function, every random stream and every list of samples: the samples are split without loss into the
      inliers, which are the samples within twice the threshold of the candidate, and the others; the candidate is a model
      fitted to ns of the samples in one of the nt trials, such that none of the models of the trials has more samples within
      the threshold (the given model if no trial has any); the result is fitted to the inliers. *)
  Theorem C84_ransac : forall qt q sample ns nt th,
    exists q' sample' inlier c ms,
      zRANSACSaveInlier fit err splice rnd qt q sample ns nt th = Ok (q', sample', inlier) /\
      length ms = (if length sample <? ns then 0 else nt) /\ tried fit splice rnd ns 0 sample qt ms /\ Forall (fitted fit ns sample) ms /\
      candidate err th q ms sample c /\ split_at err (2 * th) c sample inlier sample' /\ q' = fit inlier c.
  Proof using Hsp Hrnd. exact (save_ok fit err splice rnd Hsp Hrnd). Qed.

  (** the version that does not save the inliers gives the same model and keeps every sample *)
  Theorem C84_samples_kept : forall qt q sample ns nt th,
    exists q' sample' inlier rest,
      zRANSACSaveInlier fit err splice rnd qt q sample ns nt th = Ok (q', rest, inlier) /\
      zRANSAC fit err splice rnd qt q sample ns nt th = Ok (q', sample') /\ Permutation sample' sample.
  Proof using Hsp Hrnd.
    intros qt q sample ns nt th. destruct (save_ok fit err splice rnd Hsp Hrnd qt q sample ns nt th) as [q' [s' [l [c [ms [E [_ [_ [_ [_ [[HP _] _]]]]]]]]]]].
    unfold zRANSAC. rewrite E. cbn [bind]. eexists _, _, _, _. repeat split.
    eapply Permutation_trans; [apply Hsp|]. eapply Permutation_trans; [apply Permutation_app_comm|exact HP].
  Qed.

  (** with an outlier rate in [0,1] the automatic setting draws at most half of the samples, at most five per parameter, and
      makes three trials per drawn sample, none of which is given up *)
  Theorem C84_auto : forall toint qt q size sample rate nl,
    (forall x, (0 <= x)%R -> (INR (toint x) <= x)%R) -> (0 <= rate <= 1)%R ->
    exists ns q' sample' inlier c ms,
      2 * ns <= length sample /\ ns <= 5 * size /\
      zRANSACSaveInlierAuto fit err splice rnd toint qt q size sample rate nl = Ok (q', sample', inlier) /\
      (exists kept, zRANSACAuto fit err splice rnd toint qt q size sample rate nl = Ok (q', kept) /\ Permutation kept sample) /\
      length ms = 3 * ns /\ tried fit splice rnd ns 0 sample qt ms /\ Forall (fitted fit ns sample) ms /\
      candidate err (nl / 10) q ms sample c /\ split_at err (nl / 5) c sample inlier sample' /\ q' = fit inlier c.
  Proof using Hsp Hrnd.
    intros toint qt q size sample rate nl Ht Hr. destruct (auto_number toint size sample rate Ht Hr) as [H1 H2].
    set (ns := _zRANSACAutoSelectionNumber toint size sample rate) in *.
    assert (E0 : (sofZ 1 / sofZ 10 * nl)%S = (nl / 10)%R) by (rs; field).
    destruct (save_ok fit err splice rnd Hsp Hrnd qt q sample ns (ns * 3) (nl / 10)%R) as [q' [s' [l [c [ms [E [L [D [F [Ca [Sp Eq]]]]]]]]]]].
    assert (E' : zRANSACSaveInlierAuto fit err splice rnd toint qt q size sample rate nl = Ok (q', s', l)).
    { unfold zRANSACSaveInlierAuto. fold ns. rewrite E0. exact E. }
    exists ns, q', s', l, c, ms. repeat split; auto.
    - exists (splice s' l). split.
      + unfold zRANSACAuto, zRANSAC. fold ns. rewrite E0, E. reflexivity.
      + eapply Permutation_trans; [apply Hsp|]. eapply Permutation_trans; [apply Permutation_app_comm|apply Sp].
    - rewrite L. replace (length sample <? ns) with false by (symmetry; apply Nat.ltb_ge; lia). lia.
    - apply Sp.
    - destruct Sp as [_ [Sp _]]. replace (nl / 5)%R with (2 * (nl / 10))%R by field. exact Sp.
    - destruct Sp as [_ [_ Sp]]. replace (nl / 5)%R with (2 * (nl / 10))%R by field. exact Sp.
  Qed.
End C84.
Print Assumptions C84_ransac.
Print Assumptions C84_samples_kept.
Print Assumptions C84_auto.

(** Samples are the numbers of [pos] and the model is their mean. *)
Definition pos (p : nat) : Q := nth p [0; -19 # 10; 19 # 10; 19 # 10; 19 # 10; 100]%Q 0%Q.
Definition mean (l : list nat) (_ : Q) : Q := (fold_right (fun p a => pos p + a) 0 l / inject_Z (Z.of_nat (length l)))%Q.
Definition dist (q : Q) (p : nat) : Q := (q - pos p)%Q.
Definition app2 (a b : list nat) := a ++ b.

(** "The inliers are the samples within twice the threshold of the result" is false: sample 1 is an inlier at a distance of
    2.85 from the result, while the threshold is 1; the inliers belong to the candidate, not to the model fitted to them. *)
Theorem C84_within_refuted : exists q rest, 
  zRANSACSaveInlier mean dist app2 (fun _ _ => 0) 7%Q 7%Q [0;1;2;3;4;5] 1 1 1%Q = Ok (q, rest, [1;2;3;4;0]) /\
  (q == 76 # 100)%Q /\ slt (sabs (dist q 1)) (1 * 2)%Q = false /\ rest = [5].
Proof. eexists _, _. split; [vm_compute; reflexivity|]. repeat split; vm_compute; reflexivity. Qed.
Print Assumptions C84_within_refuted.

(** a run with three trials of two samples out of six; the outlier 5 and the sample 1 are left *)
Example C84_ex : zRANSACSaveInlier mean dist app2 (fun k n => Nat.modulo (k * k) n) 0%Q 0%Q [0;1;2;3;4;5] 2 3 1%Q
  = Ok (5700 # 4000, [5; 1], [3; 4; 2; 0]).
Proof. vm_compute. reflexivity. Qed.
(** the hypotheses hold *)
Example C84_ex_hyps : (forall a b, Permutation (app2 a b) (a ++ b)) /\ (forall k n, 0 < n -> Nat.modulo (k * k) n < n) /\
  exists toint : R -> nat, forall x, (0 <= x)%R -> (INR (toint x) <= x)%R.
Proof.
  split; [intros; apply Permutation_refl|split].
  - intros. apply Nat.mod_upper_bound. lia.
  - exists (fun x => Z.to_nat (up x - 1)). intros x Hx. destruct (archimed x) as [A B]. destruct (Z_lt_le_dec (up x - 1) 0).
    + destruct (up x - 1)%Z; cbn; try lia; lra.
    + rewrite INR_IZR_INZ, Z2Nat.id by lia. rewrite minus_IZR. lra.
Qed.
