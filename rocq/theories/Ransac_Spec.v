(** Specification for C84: what is a trial, and what the result of RANSAC is. *)
From Coq Require Import List Permutation Reals.
Import ListNotations.

Section RansacSpec.
  Context {Q : Type}.
  Variables (fit : list nat -> Q -> Q) (err : Q -> nat -> R) (splice : list nat -> list nat -> list nat) (rnd : nat -> nat -> nat).

  (** with the random numbers from the k-th, [l] is drawn from the samples one after the other and [rest] is left *)
  Inductive drawn : nat -> list nat -> list nat -> list nat -> Prop :=
  | drawn_none k s : drawn k s [] s
  | drawn_one k a p b l rest : length a = rnd k (length (a ++ p :: b)) -> drawn (S k) (a ++ b) l rest -> drawn k (a ++ p :: b) (p :: l) rest.
  (** the models of successive trials with [n] samples each, drawn with the random numbers from the k-th *)
  Inductive tried (n : nat) : nat -> list nat -> Q -> list Q -> Prop :=
  | tried_none k s q : tried n k s q []
  | tried_one k s q l rest ms : length l = n -> drawn k s l rest -> tried n (n + k) (splice rest l) (fit l q) ms ->
      tried n k s q (fit l q :: ms).

  (** [l] is a choice of [n] of the samples, each at most as often as it is there *)
  Definition chosen (n : nat) (l sample : list nat) : Prop :=
    length l = n /\ exists others, Permutation (l ++ others) sample.
  (** the model [m] is fitted to a choice of [n] samples *)
  Definition fitted (n : nat) (sample : list nat) (m : Q) : Prop :=
    exists l old, chosen n l sample /\ m = fit l old.
  (** the sample p is within [th] of the model *)
  Definition within (th : R) (m : Q) (p : nat) : Prop := (Rabs (err m p) < th)%R.
  (** [l] are the samples within [th] of [m], with their multiplicities, [o] are the others *)
  Definition split_at (th : R) (m : Q) (sample l o : list nat) : Prop :=
    Permutation (l ++ o) sample /\ Forall (within th m) l /\ Forall (fun p => ~ within th m p) o.
  (** [n] samples are within [th] of the model *)
  Definition support (th : R) (m : Q) (sample : list nat) (n : nat) : Prop :=
    exists l o, split_at th m sample l o /\ length l = n.
  (** the candidate: [q] was given, [ms] are the models of the trials.  It is a model of the trials with at least as many
      samples within [th] as every other, and at least one; [q] if there is none *)
  Definition candidate (th : R) (q : Q) (ms : list Q) (sample : list nat) (c : Q) : Prop :=
    exists n, (forall m k, In m ms -> support th m sample k -> k <= n) /\
              ((n = 0 /\ c = q) \/ (0 < n /\ In c ms /\ support th c sample n)).
End RansacSpec.
