(** Model of src/zm_opt_direct.c: the DIRECT method (dividing rectangles).

    A vector is the list of its components; all vectors have the size [dim] of the answer (checked by zOptSolveDIRECT).  The
    function to be minimized is the parameter [f] (the pointer util is part of it).  A list of rectangles is in the order of
    zListForEach, from the tail to the head; the tail or head of an empty list is [UB].  pow(3.0,n) of libm is a repeated product,
    pow(3.0,-n) its reciprocal.  Allocation succeeds. *)
From Coq Require Import List.
From Verif Require Import Prelude Scalar.
Import ListNotations.

Section Direct.
  Context {T : Type} {ST : Scalar T}.
  Local Open Scope S_scope.
  Variables (f : list T -> T) (dim : nat) (mn mx : list T).

  Definition el (v : list T) (i : nat) : T := nth i v 0.
  Definition pow3 (n : nat) : T := Nat.iter n (fun x => sofZ 3 * x) 1.
  (** zm_raw_vec.c:250-257 *)
  Definition zVecScale (x : list T) : list T := map (fun i => el mn i + el x i * (el mx i - el mn i)) (List.seq 0 dim).

  (** 9-13 *)
  Record rect := Rect { rx : list T; rval : T; rlev : list nat }.
  (** 48-52 *)
  Definition _zOptDIRECTRectEval (r : rect) : rect := Rect (rx r) (f (zVecScale (rx r))) (rlev r).
  (** 74-85 *)
  Fixpoint _zOptDIRECTRectListInsert (l : list rect) (r : rect) : list rect :=
    match l with
    | [] => [r]
    | c :: l' => if slt (rval r) (rval c) then r :: c :: l' else c :: _zOptDIRECTRectListInsert l' r
    end.
  (** the lists of a set, 126-131: the level is the place *)
  Definition lists := list (list rect).
  (** 160-163 *)
  Definition _zOptDIRECTRectSetInsert (s : lists) (level : nat) (r : rect) : res lists :=
    l <- get s level ;; set s level (_zOptDIRECTRectListInsert l r).
  (** 166-172 *)
  Definition _zOptDIRECTRectSetDeleteCell (s : lists) (level : nat) : res (rect * lists) :=
    l <- get s level ;;
    match l with [] => UB | c :: l => s <- set s level l ;; Ok (c, s) end.
  (** 134-145, 175-185 *)
  Definition _zOptDIRECTRectSetInit (level_max : nat) : res lists :=
    _zOptDIRECTRectSetInsert (map (fun _ => []) (List.seq 0 (S level_max))) 0
      (_zOptDIRECTRectEval (Rect (map (fun _ => sofZ 1 / sofZ 2) (List.seq 0 dim)) 0 (map (fun _ => O) (List.seq 0 dim)))).
  (** 192, 340: while( zListIsEmpty( &set->list[i] ) ) i++; from the place [i] on; beyond the array it is UB *)
  Fixpoint first_nonempty (s : lists) (i : nat) : res nat :=
    match s with
    | [] => UB
    | [] :: s => first_nonempty s (S i)
    | (_ :: _) :: _ => Ok i
    end.
  Definition tail_of (s : lists) (i : nat) : res rect := l <- get s i ;; match l with [] => UB | c :: _ => Ok c end.
  (** 188-204: min_val and min_level *)
  Definition _zOptDIRECTRectSetFindMin (s : lists) : res (T * nat) :=
    i <- first_nonempty s 0 ;;
    c <- tail_of s i ;;
    for_ i (length s) (fun i '(v, m) =>
      l <- get s i ;;
      Ok (match l with [] => (v, m) | c :: _ => if slt (rval c) v then (rval c, i) else (v, m) end)) (rval c, i).

  (** 207-212, with the direction *)
  Record pattern := Pattern { dir : nat; pos : rect; neg : rect; pw : T }.
  (** 242-261 *)
  Definition _zOptDIRECTRectPatternCreate (i level : nat) (r : rect) : res pattern :=
    let d := 1 / pow3 (S level) in
    x <- get (rx r) i ;;
    xp <- set (rx r) i (x + d) ;;
    xn <- set (rx r) i (x - d) ;;
    let p := _zOptDIRECTRectEval (Rect xp (rval r) (rlev r)) in
    let n := _zOptDIRECTRectEval (Rect xn (rval r) (rlev r)) in
    Ok (Pattern i p n (if slt (rval p) (rval n) then rval p else rval n)).
  (** 281-288 *)
  Fixpoint pattern_insert (l : list pattern) (p : pattern) : list pattern :=
    match l with
    | [] => [p]
    | c :: l' => if slt (pw p) (pw c) then p :: c :: l' else c :: pattern_insert l' p
    end.
  (** 274-289: the directions of the longest edges *)
  Definition directions (level : nat) (r : rect) : res (list pattern) :=
    for_ 0 dim (fun i idx =>
      l <- get (rlev r) i ;;
      if (l =? level)%nat then p <- _zOptDIRECTRectPatternCreate i level r ;; Ok (pattern_insert idx p) else Ok idx) [].
  (** 291-304 *)
  Fixpoint divide_loop (idx : list pattern) (s : lists) (level : nat) (r : rect) : res lists :=
    match idx with
    | [] => _zOptDIRECTRectSetInsert s level r
    | p :: idx =>
        lev <- set (rlev r) (dir p) (S level) ;;
        let level := match idx with [] => S level | _ => level end in
        s <- _zOptDIRECTRectSetInsert s level (Rect (rx (pos p)) (rval (pos p)) lev) ;;
        s <- _zOptDIRECTRectSetInsert s level (Rect (rx (neg p)) (rval (neg p)) lev) ;;
        divide_loop idx s level (Rect (rx r) (rval r) lev)
    end.
  (** 264-310 *)
  Definition _zOptDIRECTRectSetRectDivide (s : lists) (level : nat) (r : rect) : res lists :=
    idx <- directions level r ;; divide_loop idx s level r.

  (** 334-365: the cells of the potentially optimal rectangles.  They are all NULL at the beginning, since 368-378 clears the
      cells below level_max, and no other is ever set (min_level < level_max).  [k] bounds the rounds of the loop; its exhaustion
      is UB. *)
  Definition next_level (s : lists) (i m : nat) (c : rect) : res nat :=
    '(_, j) <- for_ (S i) (S m) (fun k '(gmax, j) =>
      l <- get s k ;;
      Ok (match l with
          | [] => (gmax, j)
          | t :: _ => let g := pow3 i * (rval c - rval t) / (1 - 1 / pow3 (k - i)) in if sle gmax g then (g, k) else (gmax, j)
          end)) (0, S i) ;;
    Ok j.
  Fixpoint ident_loop (k : nat) (s : lists) (por : list (option rect)) (i m : nat) : res (lists * list (option rect)) :=
    match k with
    | O => UB
    | S k =>
        '(c, s) <- _zOptDIRECTRectSetDeleteCell s i ;;
        por <- set por i (Some c) ;;
        if (i =? m)%nat then Ok (s, por)
        else j <- next_level s i m c ;; ident_loop k s por j m
    end.
  (** None: min_level is level_max *)
  Definition _zOptDIRECTRectPORIdent (s : lists) : res (nat * option (lists * list (option rect))) :=
    '(_, m) <- _zOptDIRECTRectSetFindMin s ;;
    if (S m =? length s)%nat then Ok (m, None)
    else
      i <- first_nonempty s 0 ;;
      r <- ident_loop (length s) s (map (fun _ => None) s) i m ;;
      Ok (m, Some r).
  (** 368-378 *)
  Definition _zOptDIRECTRectPORSetDivide (por : list (option rect)) (s : lists) : res lists :=
    for_ 0 (length s - 1) (fun i s =>
      c <- get por i ;;
      match c with None => Ok s | Some c => _zOptDIRECTRectSetRectDivide s i c end) s.
  (** 437-442: [k] iterations remain; the number of iterations, the set and min_level *)
  Fixpoint direct_loop (k i : nat) (s : lists) (m : nat) : res (nat * lists * nat) :=
    match k with
    | O => Ok (i, s, m)
    | S k =>
        '(m, o) <- _zOptDIRECTRectPORIdent s ;;
        match o with
        | None => Ok (i, s, m)
        | Some (s, por) => s <- _zOptDIRECTRectPORSetDivide por s ;; direct_loop k (S i) s m
        end
    end.
End Direct.
Arguments rect : clear implicits.
Arguments lists : clear implicits.

(** 421-450; None is the return value -1.  [level_max] is floor(-log(tol)/log(3)), which is not negative if tol <= 1; [zmax] is
    ZOPT_DIRECT_MAX_ITER_NUM; a negative iter is not modelled. *)
Definition zOptSolveDIRECT {T} {ST : Scalar T} (f : list T -> T) (dim zmax : nat) (mn mx : list T) (iter level_max : nat) : res (option (nat * list T * T)) :=
  if negb ((length mn =? dim)%nat && (length mx =? dim)%nat) then Ok None else
  s <- _zOptDIRECTRectSetInit f dim mn mx level_max ;;
  '(i, s, m) <- direct_loop f dim mn mx (match iter with O => zmax | _ => iter end) 0 s 0 ;;
  c <- tail_of s m ;;
  Ok (Some (i, zVecScale dim mn mx (rx c), rval c)).
