(** Model of src/zm_mva_ransac.c: random sample consensus.

    A sample is the address of a cell: a number.  A list is in the order of zListForEach; zListInsertHead appends.  The
    functions of the user are parameters: [fit l q] is what is left in the vector q, [err q p] is the error of the sample
    p.  zListSpliceAndMoveZ of ZEDA is the parameter [splice].  [rnd k n] is the k-th random integer in 0..n-1.  Messages
    are not modelled and allocation is assumed to succeed. *)
From Coq Require Import List.
From Verif Require Import Prelude Scalar.
Import ListNotations.

Section Ransac.
  Context {T : Type} {ST : Scalar T} {Q : Type}.
  Local Open Scope S_scope.
  Variables (fit : list nat -> Q -> Q) (err : Q -> nat -> T) (splice : list nat -> list nat -> list nat) (rnd : nat -> nat -> nat).

  (** 19-24: [m] cells remain to be selected, [k] random numbers were drawn *)
  Fixpoint select_loop (m k : nat) (sample selected : list nat) : res (nat * list nat * list nat) :=
    match m with
    | O => Ok (k, sample, selected)
    | S m =>
        let i := rnd k (length sample) in
        p <- get sample i ;;
        select_loop m (S k) (firstn i sample ++ skipn (S i) sample) (selected ++ [p])
    end.
  (** 10-26; None is false *)
  Definition _zRANSACSelectRandom (k : nat) (sample : list nat) (n : nat) : res (option (nat * list nat * list nat)) :=
    if (length sample <? n)%nat then Ok None
    else r <- select_loop n k sample [] ;; Ok (Some r).
  (** 29-38 *)
  Definition _zRANSACCountInlier (q : Q) (sample : list nat) (th : T) : nat :=
    fold_left (fun c p => if slt (sabs (err q p)) th then S c else c) sample O.
  (** 41-55: the inliers and the other samples *)
  Definition _zRANSACSelectInlier (q : Q) (sample : list nat) (th : T) : list nat * list nat :=
    fold_left (fun '(i, o) p => if slt (sabs (err q p)) th then (i ++ [p], o) else (i, o ++ [p])) sample ([], []).
  (** 67-75: [nt] trials remain; [qt] and [q] are the vectors, [c] is count_prev *)
  Fixpoint trials (nt k ns : nat) (th : T) (sample : list nat) (qt q : Q) (c : nat) : res (list nat * Q) :=
    match nt with
    | O => Ok (sample, q)
    | S nt =>
        r <- _zRANSACSelectRandom k sample ns ;;
        match r with
        | None => Ok (sample, q)
        | Some (k, sample, inlier) =>
            let qt := fit inlier qt in
            let sample := splice sample inlier in
            let count := _zRANSACCountInlier qt sample th in
            if (c <? count)%nat then trials nt k ns th sample qt qt count else trials nt k ns th sample qt q c
        end
    end.
  (** 58-81; [qt] is the new vector qt; the model, the samples that remain and the inliers.  th*2 *)
  Definition zRANSACSaveInlier (qt q : Q) (sample : list nat) (ns nt : nat) (th : T) : res (Q * list nat * list nat) :=
    '(sample, q) <- trials nt O ns th sample qt q O ;;
    let '(inlier, sample) := _zRANSACSelectInlier q sample (th * sofZ 2) in
    Ok (fit inlier q, sample, inlier).
  (** 84-91 *)
  Definition zRANSAC (qt q : Q) (sample : list nat) (ns nt : nat) (th : T) : res (Q * list nat) :=
    '(q, sample, inlier) <- zRANSACSaveInlier qt q sample ns nt th ;;
    Ok (q, splice sample inlier).

  (** 99-102; [size] is the size of q, [toint] the conversion to int of a number that is not negative *)
  Variable toint : T -> nat.
  Definition _zRANSACAutoSelectionNumber (size : nat) (sample : list nat) (rate : T) : nat :=
    let a := sofZ (Z.of_nat (size * 5)) in
    let b := sofZ (Z.of_nat (length sample)) * (1 - rate) * (sofZ 5 / sofZ 10) in
    toint (if slt a b then a else b).
  (** 105-112 *)
  Definition zRANSACAuto (qt q : Q) (size : nat) (sample : list nat) (rate nl : T) : res (Q * list nat) :=
    let ns := _zRANSACAutoSelectionNumber size sample rate in
    zRANSAC qt q sample ns (ns * 3) (sofZ 1 / sofZ 10 * nl).
  (** 115-123 *)
  Definition zRANSACSaveInlierAuto (qt q : Q) (size : nat) (sample : list nat) (rate nl : T) : res (Q * list nat * list nat) :=
    let ns := _zRANSACAutoSelectionNumber size sample rate in
    zRANSACSaveInlier qt q sample ns (ns * 3) (sofZ 1 / sofZ 10 * nl).
End Ransac.
