(** Model of src/zm_opt_nm.c: Nelder-Mead's downhill simplex method.

    A vector is the list of its components, of the size [dim] of the answer; the vectors allocated by _zOptNMCreate have that
    size.  The function to be minimized is the parameter [f].  zVecSort (zm_vec.c:225-244, the quicksort of ZEDA on an index by
    an ascending comparison) is the parameter [sortix].  Allocation succeeds. *)
From Coq Require Import List.
From Verif Require Import Prelude Scalar.
Import ListNotations.

Section Nm.
  Context {T : Type} {ST : Scalar T}.
  Local Open Scope S_scope.
  Variables (f : list T -> T) (dim : nat) (sortix : list T -> list nat -> list nat).

  Definition el (v : list T) (i : nat) : T := nth i v 0.
  Definition vec (g : nat -> T) : list T := map g (List.seq 0 dim).

  (** 9-16: the vertices, their values and the index; the number of vertices is the length of [vs], pin and test are locals *)
  Record simplex := Simplex { vs : list (list T); ev : list T; idx : list nat }.
  (** zIndexTail, zIndexHead and zIndexNeck of ZEDA: the first, the last and the one before *)
  Definition tail_ (s : simplex) : res nat := get (idx s) 0.
  Definition head_ (s : simplex) : res nat := if (length (idx s) =? 0)%nat then UB else get (idx s) (length (idx s) - 1).
  Definition neck_ (s : simplex) : res nat := if (length (idx s) <? 2)%nat then UB else get (idx s) (length (idx s) - 2).
  (** 57-66 and the index in order from 19-40; the values are cleared by zVecAlloc.  zVecMid is 0.5*(x+y) *)
  Definition _zOptNMInit (mn mx : list T) : simplex :=
    let e0 := vec (fun i => sofZ 1 / sofZ 2 * (el mn i + el mx i)) in
    Simplex (e0 :: map (fun i => vec (fun j => if (j =? i)%nat then el e0 j + 1 else el e0 j)) (List.seq 0 dim))
            (map (fun _ => 0) (List.seq 0 (S dim))) (List.seq 0 (S dim)).
  (** 69-76 *)
  Definition _zOptNMEvalAll (s : simplex) : simplex :=
    let ev := map f (vs s) in Simplex (vs s) ev (sortix ev (idx s)).
  (** zIndexMove of ZEDA from the last place to the place i: the elements from i on are shifted *)
  Definition move_last (i : nat) (l : list nat) : list nat :=
    firstn i l ++ skipn (length l - 1) l ++ skipn i (firstn (length l - 1) l).
  (** 79-88: from the place [i], [k] places remain *)
  Fixpoint reord_loop (k i : nat) (s : simplex) : res simplex :=
    match k with
    | O => Ok s
    | S k =>
        a <- get (idx s) i ;; va <- get (ev s) a ;;
        h <- head_ s ;; vh <- get (ev s) h ;;
        if slt vh va then Ok (Simplex (vs s) (ev s) (move_last i (idx s))) else reord_loop k (S i) s
    end.
  Definition _zOptNMReord (s : simplex) : res simplex := reord_loop (length (vs s)) 0 s.
  (** 92-100 *)
  Definition _zOptNMPin (s : simplex) : res (list T) :=
    pin <- for_ 1 (length (vs s)) (fun i pin => j <- get (idx s) (i - 1) ;; v <- get (vs s) j ;; Ok (vec (fun k => el pin k + el v k))) (vec (fun _ => 0)) ;;
    Ok (vec (fun k => el pin k / sofZ (Z.of_nat (length (vs s) - 1)))).
  (** 103-107 *)
  Definition _zOptNMRefl (s : simplex) (pin : list T) : res (list T) :=
    h <- head_ s ;; v <- get (vs s) h ;; Ok (vec (fun k => el pin k * sofZ 2 - el v k)).
  (** 110-114 *)
  Definition _zOptNMExp (s : simplex) (pin : list T) : res (list T) :=
    h <- head_ s ;; v <- get (vs s) h ;; Ok (vec (fun k => el v k * sofZ 2 - el pin k)).
  (** 117-121 *)
  Definition _zOptNMShrink (s : simplex) (pin : list T) : res (list T) :=
    h <- head_ s ;; v <- get (vs s) h ;; Ok (vec (fun k => (el v k + el pin k) * (sofZ 1 / sofZ 2))).
  (** 124-133 *)
  Definition _zOptNMCrunch (s : simplex) : res simplex :=
    t <- tail_ s ;;
    es <- for_ 0 (length (vs s)) (fun i es =>
      if (i =? t)%nat then Ok es
      else v <- get es i ;; b <- get es t ;; set es i (vec (fun k => (el v k + el b k) * (sofZ 1 / sofZ 2)))) (vs s) ;;
    Ok (Simplex es (ev s) (idx s)).
  (** zVecDist: zm_vec.c, zm_raw_vec.c; the square root of the sum of the squares *)
  Definition zVecDist (v w : list T) : T := ssqrt (fold_left (fun a i => a + (el v i - el w i) * (el v i - el w i)) (List.seq 0 dim) 0).
  (** 136-144 *)
  Definition _zOptNMCheck (s : simplex) (tol : T) : res bool :=
    e0 <- get (vs s) 0 ;;
    Ok (forallb (fun v => is_tol tol (zVecDist e0 v)) (tl (vs s))).
  Definition put_vertex (s : simplex) (i : nat) (v : list T) : res simplex := es <- set (vs s) i v ;; Ok (Simplex es (ev s) (idx s)).
  Definition put_value (s : simplex) (i : nat) (e : T) : res simplex := es <- set (ev s) i e ;; Ok (Simplex (vs s) es (idx s)).
  (** 166-171: the loop of the expansion with a fuel, None if it is exhausted; [test] has the value [newval] *)
  Fixpoint expand_loop (fuel : nat) (s : simplex) (pin test : list T) (newval : T) : res (option (simplex * T)) :=
    match fuel with
    | O => Ok None
    | S fuel =>
        h <- head_ s ;; s <- put_vertex s h test ;;
        test <- _zOptNMExp s pin ;;
        let v := f test in
        if slt v newval then expand_loop fuel s pin test v else Ok (Some (s, newval))
    end.
  (** 159-185: an iteration after the check *)
  Definition nm_step (fuel : nat) (s : simplex) : res (option simplex) :=
    pin <- _zOptNMPin s ;;
    test <- _zOptNMRefl s pin ;;
    t <- tail_ s ;; bestval <- get (ev s) t ;;
    let newval := f test in
    if slt newval bestval then
      r <- expand_loop fuel s pin test newval ;;
      match r with
      | None => Ok None
      | Some (s, bestval) => h <- head_ s ;; s <- put_value s h bestval ;; s <- _zOptNMReord s ;; Ok (Some s)
      end
    else
      n <- neck_ s ;; vn <- get (ev s) n ;;
      if slt vn newval then
        test <- _zOptNMShrink s pin ;;
        let newval := f test in
        if slt vn newval then s <- _zOptNMCrunch s ;; Ok (Some (_zOptNMEvalAll s))
        else h <- head_ s ;; s <- put_vertex s h test ;; s <- put_value s h newval ;; s <- _zOptNMReord s ;; Ok (Some s)
      else h <- head_ s ;; s <- put_vertex s h test ;; s <- put_value s h newval ;; s <- _zOptNMReord s ;; Ok (Some s).
  (** the outcome: still expanding, the iterations are over (-1), or success in the iteration i with the answer and its value *)
  Inductive outcome := Running | Failed | Found (i : nat) (ans : list T) (eval : T).
  (** 147-189: [k] iterations remain, the next is [i] *)
  Fixpoint _zOptNMTry (fuel k i : nat) (s : simplex) (tol : T) : res outcome :=
    match k with
    | O => Ok Failed
    | S k =>
        c <- _zOptNMCheck s tol ;;
        if c then t <- tail_ s ;; v <- get (vs s) t ;; e <- get (ev s) t ;; Ok (Found i v e)
        else r <- nm_step fuel s ;;
             match r with None => Ok Running | Some s => _zOptNMTry fuel k (S i) s tol end
    end.
  (** 192-207; [zmax] is Z_MAX_ITER_NUM *)
  Definition zOptSolveNM (fuel zmax : nat) (mn mx : list T) (iter : nat) (tol : T) : res outcome :=
    if negb ((length mn =? dim)%nat && (length mx =? dim)%nat) then Ok Failed else
    _zOptNMTry fuel (match iter with O => zmax | _ => iter end) 0 (_zOptNMEvalAll (_zOptNMInit mn mx)) tol.
End Nm.
Arguments Simplex {T}. Arguments Running {T}. Arguments Failed {T}. Arguments Found {T}.
