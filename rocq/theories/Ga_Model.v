(** Model of src/zm_opt_ga.c: the genetic algorithm.

    A gene is the list of its components, of the size [dim] of the bounds; the function to be minimized is the parameter [f].
    Random numbers are parameters: for the generation n (0: the first population) [rgene n i] is the gene that zVecRand writes
    for the individual i, [rsel n i k] the number drawn for the k-th parent of the individual i, [rmut n i] the number that
    decides its mutation.  [toint] is the conversion of double to int.  Allocation succeeds; printing is left out. *)
From Coq Require Import List ZArith.
From Verif Require Import Prelude Scalar.
Import ListNotations.

Section Ga.
  Context {T : Type} {ST : Scalar T}.
  Local Open Scope S_scope.
  Variables (f : list T -> T) (dim : nat) (rgene : nat -> nat -> list T) (rsel : nat -> nat -> nat -> T) (rmut : nat -> nat -> T).
  Variables (toint : T -> Z) (ztol : T).

  (** include/zm/zm_opt_ga.h *)
  Record chrom := Chrom { fitness : T; gene : list T }.
  (** the individuals and eval *)
  Record ga := Ga { ind : list chrom; geval : T }.

  (** 58-67; the fitness of the destination is not written *)
  Definition zOptGAChromosomeXover (p q c : chrom) : chrom :=
    let ratio := fitness p / (fitness p + fitness q) in
    Chrom (fitness c) (map (fun i => nth i (gene q) 0 + ratio * (nth i (gene p) 0 - nth i (gene q) 0)) (List.seq 0 dim)).

  (** 134-148: quicksort.  The index j, which may become -1, is represented by its successor [j1].  The loops and the
      recursion have a fuel; its exhaustion is UB as well, and excluded by the theorems. *)
  Definition at_j (l : list chrom) (j1 : nat) : res chrom := match j1 with O => UB | S j => get l j end.
  Fixpoint go_up (fuel : nat) (l : list chrom) (i : nat) (pivot : T) : res nat :=
    match fuel with O => UB | S fuel => c <- get l i ;; if slt pivot (fitness c) then go_up fuel l (S i) pivot else Ok i end.
  Fixpoint go_down (fuel : nat) (l : list chrom) (j1 : nat) (pivot : T) : res nat :=
    match fuel with O => UB | S fuel => c <- at_j l j1 ;; if slt (fitness c) pivot then go_down fuel l (j1 - 1) pivot else Ok j1 end.
  (** 140-145: the loop for; i <= j is i < j1 *)
  Fixpoint part_loop (fuel : nat) (l : list chrom) (i j1 : nat) (pivot : T) : res (list chrom * nat * nat) :=
    match fuel with
    | O => UB
    | S fuel =>
        if (i <? j1)%nat then
          i <- go_up (S (length l)) l i pivot ;;
          j1 <- go_down (S (length l)) l j1 pivot ;;
          if (j1 <=? i)%nat then Ok (l, i, j1)
          else
            a <- get l i ;; b <- at_j l j1 ;;
            l <- set l i b ;; l <- set l (j1 - 1) a ;;
            part_loop fuel l (S i) (j1 - 1) pivot
        else Ok (l, i, j1)
    end.
  Fixpoint _zOptGAQuickSort (fuel : nat) (l : list chrom) (head tail1 : nat) : res (list chrom) :=
    match fuel with
    | O => UB
    | S fuel =>
        m <- get l ((head + tail1 - 1) / 2) ;;
        '(l, i, j1) <- part_loop (S (length l)) l head tail1 (fitness m) ;;
        l <- (if (S head <? j1)%nat then _zOptGAQuickSort fuel l head j1 else Ok l) ;;
        if (S i <? tail1)%nat then _zOptGAQuickSort fuel l i tail1 else Ok l
    end.
  (** 151-172 *)
  Definition _zOptGASort (l : list chrom) : res ga :=
    let l := map (fun c => Chrom (sopp (f (gene c))) (gene c)) l in
    l <- _zOptGAQuickSort (S (length l)) l 0 (length l) ;;
    last <- at_j l (length l) ;;
    best <- get l 0 ;;
    let l := map (fun c => Chrom (fitness c - fitness last) (gene c)) l in
    let sum := fold_left (fun s c => s + fitness c) l 0 in
    let l := if is_tol ztol sum then map (fun c => Chrom 1 (gene c)) l else map (fun c => Chrom (fitness c / sum) (gene c)) l in
    Ok (Ga l (sopp (fitness best))).
  (** 175-183 and 80-112: a population of random genes *)
  Definition zOptGARand (population : nat) : res ga := _zOptGASort (map (fun i => Chrom 0 (rgene 0 i)) (List.seq 0 population)).
  (** 186-196: the index of the selected individual; [rate] is the sum so far *)
  Fixpoint select_loop (l : list chrom) (i : nat) (rate p : T) : option nat :=
    match l with
    | [] => None
    | c :: l => let rate := rate + fitness c in if slt p rate then Some i else select_loop l (S i) rate p
    end.
  Definition _zOptGASelect (l : list chrom) (p : T) : res nat :=
    match select_loop l 0 0 p with
    | Some i => Ok i
    | None => if (length l =? 0)%nat then UB else Ok (length l - 1)%nat
    end.
  (** 199-220: the generation [n] *)
  Definition zOptGAReproduce (n : nat) (rate_survival rate_mutation : T) (g : ga) : res ga :=
    let population := length (ind g) in
    let ns := toint (sofZ (Z.of_nat population) * rate_survival) in
    if (ns <? 0)%Z then UB else
    l <- for_ (Nat.min (Z.to_nat ns) population) population (fun i l =>
      a <- _zOptGASelect l (rsel n i 0) ;; b <- _zOptGASelect l (rsel n i 1) ;;
      p <- get l a ;; q <- get l b ;; c <- get l i ;;
      set l i (zOptGAChromosomeXover p q c)) (ind g) ;;
    l <- for_ 0 population (fun i l =>
      if slt (rmut n i) rate_mutation then c <- get l i ;; set l i (Chrom (fitness c) (rgene n i)) else Ok l) l ;;
    _zOptGASort l.
  (** 228-229: the generations from [n] on *)
  Fixpoint generations (k n : nat) (rate_survival rate_mutation : T) (g : ga) : res ga :=
    match k with O => Ok g | S k => g <- zOptGAReproduce n rate_survival rate_mutation g ;; generations k (S n) rate_survival rate_mutation g end.
  (** 223-232; [gmax] is ZOPT_GA_DEFAULT_GENERATION.  zVecCopy leaves an answer of another size alone *)
  Definition zOptGASolve (gmax k : nat) (rate_survival rate_mutation : T) (g : ga) (ans : list T) : res (list T * T) :=
    g <- generations (match k with O => gmax | _ => k end) 1 rate_survival rate_mutation g ;;
    c <- get (ind g) 0 ;;
    Ok ((if (length ans =? length (gene c))%nat then gene c else ans), geval g).
  (** 235-244: if the sizes of the bounds differ, zOptGACreate fails, and the uninitialized population is used *)
  Definition zOptSolveGA (gmax : nat) (mn mx : list T) (iter : nat) (tol : T) (population : nat) (rate_survival rate_mutation : T) (ans : list T) : res (list T * T) :=
    if negb ((length mn =? length mx)%nat) then UB else
    g <- zOptGARand population ;;
    zOptGASolve gmax iter rate_survival rate_mutation g ans.
End Ga.
Arguments Chrom {T}. Arguments Ga {T}.
