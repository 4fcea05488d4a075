(** Model of src/zm_opt_lp_megiddodyer.c and include/zm/zm_opt_lp_megiddodyer.h: linear programming in two variables by
    the method of Megiddo and Dyer.  [tol] is zTOL.  A list of ZEDA is a Coq list with the head first:
    zListInsertHead is cons, zListDeleteHead takes the first element, and zListForEach, which goes from the tail to the
    head, is a traversal of the reversed list.  A pointer to a cell of a constraint is the cell itself, which carries a number [cid]
    unique in the problem; zListPurge removes the cell of that number.  An infinite value (HUGE_VAL, -HUGE_VAL) is [None].
    [median] is zLPMegiddoDyerConstraintPairListQuickMedian, generated by a macro of ZEDA: it reorders the list
    and answers one of its cells, none if the list is empty.  Allocation is assumed to succeed.  The functions under DEBUG are not modelled. *)
From Verif Require Import Prelude Scalar Complex_Model.

Section Mega.
  Context {T : Type} {ST : Scalar T}.
  Local Open Scope S_scope.
  Variable tol : T.

  (** zm_opt_lp_megiddodyer.h:17-30 *)
  Record cell := Cell { cid : nat; cm : T; cy0 : T }.
  (** zm_opt_lp_megiddodyer.h:35-45 *)
  Record pair := Pair { p1 : cell; p2 : cell; px : T; py : T }.
  (** zm_opt_lp_megiddodyer.h:66-71: the list, the pool and the list of pairs of the upper bounds, or of the lower bounds *)
  Record side := Side { lst : list cell; pool : list cell; prs : list pair }.
  (** zm_opt_lp_megiddodyer.h:60-79.  [mu], [ml]: the minimum and the maximum gradient; [fpos], [fneg], [fdet]: the bits of
      feasibility_flag; [next]: the number of the next cell. *)
  Record lp := LP { c1 : T; c2 : T; xmin : option T; xmax : option T; up : side; lo : side;
    mu : option (T * T); ml : option (T * T); fpos : bool; fneg : bool; fdet : bool; next : nat }.

  Variable median : list pair -> option (pair * list pair).

  (** zm_opt_lp_megiddodyer.c:11-14 *)
  Definition cval (c : cell) (x : T) : T := cm c * x + cy0 c.
  (** zm_opt_lp_megiddodyer.c:23-31 *)
  Definition intersection (a b : cell) : option (T * T) :=
    let den := cm a - cm b in
    if is_tol tol den then None
    else Some (- (cy0 a - cy0 b) / den, (cm a * cy0 b - cm b * cy0 a) / den).

  (** src/zm_misc.c:10-19 *)
  Definition less (x y : T) : bool := slt x y.
  Definition greater (x y : T) : bool := slt y x.

  (** zm_opt_lp_megiddodyer.c:35-44 *)
  Definition listval (l : list cell) (x : T) (cmp : T -> T -> bool) : option T :=
    fold_left (fun val c => match val with
                            | None => Some (cval c x)
                            | Some v => if cmp (cval c x) v then Some (cval c x) else val
                            end) (rev l) None.
  (** zm_opt_lp_megiddodyer.c:46-66: the value, m_min and m_max; zEqual is false on an infinite value *)
  Definition listvalgrad (l : list cell) (x : T) (cmp : T -> T -> bool) : option (T * T * T) :=
    fold_left (fun val c => match val with
                            | None => Some (cval c x, cm c, cm c)
                            | Some (v, mn, mx) =>
                                if zEqual (cval c x) v tol then Some (v, if slt (cm c) mn then cm c else mn, if slt mx (cm c) then cm c else mx)
                                else if cmp (cval c x) v then Some (cval c x, cm c, cm c)
                                else val
                            end) (rev l) None.

  (** zListPurge *)
  Definition purge (l : list cell) (c : cell) : list cell := filter (fun d => negb (cid d =? cid c)%nat) l.

  (** zm_opt_lp_megiddodyer.c:70-102.  The pool gets shorter, so fuel of its length is enough. *)
  Fixpoint pair_create (discard_rule : T -> T -> bool) (fuel : nat) (s : side) : res side :=
    match pool s with
    | a :: b :: r =>
        match fuel with
        | O => UB
        | S fuel =>
            match intersection a b with
            | None =>
                let '(d, k) := if discard_rule (cy0 a) (cy0 b) then (a, b) else (b, a) in
                pair_create discard_rule fuel (Side (purge (lst s) d) (k :: r) (prs s))
            | Some (x, y) => pair_create discard_rule fuel (Side (lst s) r (Pair a b x y :: prs s))
            end
        end
    | _ => Ok s
    end.

  (** zm_opt_lp_megiddodyer.c:125-139 *)
  Definition init : lp := LP 0 0 None None (Side [] [] []) (Side [] [] []) None None false false false 0.

  (** zm_opt_lp_megiddodyer.c:153-161; the second coefficient is stored even if it is refused *)
  Definition set_cost (p : lp) (k1 k2 : T) : bool * lp :=
    if is_tol tol k2 then (false, LP (c1 p) k2 (xmin p) (xmax p) (up p) (lo p) (mu p) (ml p) (fpos p) (fneg p) (fdet p) (next p))
    else (true, LP k1 k2 (xmin p) (xmax p) (up p) (lo p) (mu p) (ml p) (fpos p) (fneg p) (fdet p) (next p)).

  (** zm_opt_lp_megiddodyer.c:163-166 *)
  Definition xy_to_x2 (p : lp) (x y : T) : T := (y - c1 p * x) / c2 p.

  (** zm_opt_lp_megiddodyer.c:216-217, 221-222 *)
  Definition widen (r : option (T * T)) (m : T) : option (T * T) :=
    match r with
    | None => Some (m, m)
    | Some (mn, mx) => Some (if slt m mn then m else mn, if slt mx m then m else mx)
    end.
  Definition is_some {A} (o : option A) : bool := match o with Some _ => true | None => false end.
  Definition nonempty {A} (l : list A) : bool := match l with [] => false | _ => true end.

  (** zm_opt_lp_megiddodyer.c:225-227 *)
  Definition pos_bounded (p : lp) : bool :=
    match ml p with Some (_, mx) => slt 0 mx | None => false end
    || (nonempty (lst (lo p)) && is_some (xmax p))
    || (nonempty (lst (up p)) && nonempty (lst (lo p)) &&
        match mu p, ml p with Some (mumin, _), Some (_, mlmax) => slt mumin mlmax | _, _ => false end).
  (** zm_opt_lp_megiddodyer.c:229-231 *)
  Definition neg_bounded (p : lp) : bool :=
    match ml p with Some (mn, _) => slt mn 0 | None => false end
    || (nonempty (lst (lo p)) && is_some (xmin p))
    || (nonempty (lst (up p)) && nonempty (lst (lo p)) &&
        match mu p, ml p with Some (_, mumax), Some (mlmin, _) => slt mlmin mumax | _, _ => false end).

  (** zm_opt_lp_megiddodyer.c:175-195 *)
  Definition add_vertical (p : lp) (a1 b : T) : bool * lp :=
    if is_tol tol a1 then (false, p)
    else
      let x := b / a1 in
      let set mn mx fd := LP (c1 p) (c2 p) mn mx (up p) (lo p) (mu p) (ml p) (fpos p) (fneg p) fd (next p) in
      if slt a1 0 && match xmin p with None => true | Some v => slt v x end then
        if match xmax p with None => false | Some v => slt v x end then (false, set (Some x) (xmax p) (fdet p))
        else (true, set (Some x) (xmax p) true)
      else if slt 0 a1 && match xmax p with None => true | Some v => slt x v end then
        if match xmin p with None => false | Some v => slt x v end then (false, set (xmin p) (Some x) (fdet p))
        else (true, set (xmin p) (Some x) true)
      else (true, set (xmin p) (xmax p) true).

  (** zm_opt_lp_megiddodyer.c:169-234 *)
  Definition add_constraint (p : lp) (a1 a2 b : T) : bool * lp :=
    if is_tol tol a2 then add_vertical p a1 b
    else if is_tol tol (c2 p) then (false, p)
    else
      let a2 := a2 / c2 p in
      let c := Cell (next p) (c1 p - a1 / a2) (b / a2) in
      let ins s := Side (c :: lst s) (c :: pool s) (prs s) in
      let q :=
        if slt 0 a2 then LP (c1 p) (c2 p) (xmin p) (xmax p) (ins (up p)) (lo p) (widen (mu p) (cm c)) (ml p) (fpos p) (fneg p) (fdet p || negb (is_tol tol (cm c))) (S (next p))
        else LP (c1 p) (c2 p) (xmin p) (xmax p) (up p) (ins (lo p)) (mu p) (widen (ml p) (cm c)) (fpos p) (fneg p) (fdet p || negb (is_tol tol (cm c))) (S (next p)) in
      (true, LP (c1 q) (c2 q) (xmin q) (xmax q) (up q) (lo q) (mu q) (ml q) (fpos q || pos_bounded q) (fneg q || neg_bounded q) (fdet q) (next q)).

  (** zm_opt_lp_megiddodyer.c:236-251 *)
  Definition upval (p : lp) (x : T) := listval (lst (up p)) x less.
  Definition loval (p : lp) (x : T) := listval (lst (lo p)) x greater.
  Definition upvalgrad (p : lp) (x : T) := listvalgrad (lst (up p)) x less.
  Definition lovalgrad (p : lp) (x : T) := listvalgrad (lst (lo p)) x greater.

  (** zm_opt_lp_megiddodyer.c:366-371 *)
  Definition is_feasible (p : lp) (x y : T) : bool :=
    match xmin p with None => true | Some v => sle (v - tol) x end &&
    match xmax p with None => true | Some v => sle x (v + tol) end &&
    match upval p x with None => true | Some v => sle y (v + tol) end &&
    match loval p x with None => true | Some v => sle (v - tol) y end.
  (** zm_opt_lp_megiddodyer.c:373-379; [cur] is (x, y), [None] while y is HUGE_VAL and there is no solution *)
  Definition test_update (p : lp) (t : T * T) (cur : option (T * T)) : option (T * T) :=
    if negb (is_feasible p (fst t) (snd t)) || match cur with None => false | Some c => slt (snd c) (snd t) end then cur
    else Some t.
  Definition test_opt (p : lp) (t : option (T * T)) (cur : option (T * T)) : option (T * T) :=
    match t with None => cur | Some t => test_update p t cur end.
  (** zm_opt_lp_megiddodyer.c:399-406: each cell with those after it *)
  Fixpoint low_pairs (p : lp) (l : list cell) (cur : option (T * T)) : option (T * T) :=
    match l with
    | [] => cur
    | a :: r => low_pairs p r (fold_left (fun cur b => test_opt p (intersection a b) cur) r cur)
    end.
  (** zm_opt_lp_megiddodyer.c:408, 415-416: a bound of x, and the least value there.  Without a lower bound the value would be -HUGE_VAL:
      that the function is not called then follows from the feasibility check. *)
  Definition at_bound (p : lp) (x : option T) : option (T * T) :=
    match x with
    | None => None
    | Some x => match loval p x with None => None | Some y => Some (x, y) end
    end.
  (** zm_opt_lp_megiddodyer.c:381-422 *)
  Definition direct (p : lp) : option (T * T) :=
    let cur := fold_left (fun cur a => fold_left (fun cur b => test_opt p (intersection a b) cur) (rev (lst (lo p))) cur) (rev (lst (up p))) None in
    let cur := low_pairs p (rev (lst (lo p))) cur in
    let cur := test_opt p (at_bound p (xmin p)) cur in
    test_opt p (at_bound p (xmax p)) cur.

  (** zm_opt_lp_megiddodyer.c:424-430 *)
  Inductive code := Invalid | UpdateXMin (x : T) | UpdateXMax (x : T) | UnsolvableCode | FoundOptimum (x y : T).
  (** [ml_max < 0], [ml_min > 0]: without a constraint ml_max is -HUGE_VAL and ml_min is HUGE_VAL *)
  Definition mlmax_neg (l : option (T * T * T)) : bool := match l with None => true | Some (_, _, mx) => slt mx 0 end.
  Definition mlmin_pos (l : option (T * T * T)) : bool := match l with None => true | Some (_, mn, _) => slt 0 mn end.

  (** zm_opt_lp_megiddodyer.c:464-490: the decision at [x].  A value -HUGE_VAL of the lower bound (no constraint) cannot
      be found optimal, since mlmax_neg holds. *)
  Definition decide (p : lp) (x : T) : code :=
    match upvalgrad p x, lovalgrad p x with
    | Some (yu, mumin, mumax), Some (yl, mlmin, mlmax) =>
        if slt yu yl then
          if slt mlmax mumin then UpdateXMin x else if slt mumax mlmin then UpdateXMax x else UnsolvableCode
        else if slt yl yu then
          if slt mlmax 0 then UpdateXMin x else if slt 0 mlmin then UpdateXMax x else FoundOptimum x yl
        else if slt mlmax 0 && sle mlmax mumin then UpdateXMin x
        else if slt 0 mlmin && sle mumax mlmin then UpdateXMax x
        else FoundOptimum x yl
    | _, None => UpdateXMin x
    | None, Some (yl, mlmin, mlmax) =>
        if slt mlmax 0 then UpdateXMin x else if slt 0 mlmin then UpdateXMax x else FoundOptimum x yl
    end.
  (** zm_opt_lp_megiddodyer.c:432-442 and the sides replaced *)
  Definition set_sides (p : lp) (mn mx : option T) (u l : side) : lp :=
    LP (c1 p) (c2 p) mn mx u l (mu p) (ml p) (fpos p) (fneg p) (fdet p) (next p).
  (** zm_opt_lp_megiddodyer.c:451-491 *)
  Definition update_xregion (p : lp) : res (code * lp) :=
    u <- pair_create greater (length (pool (up p))) (up p) ;;
    l <- pair_create less (length (pool (lo p))) (lo p) ;;
    match median (prs l) with
    | Some (m, pl) =>
        let q := set_sides p (xmin p) (xmax p) u (Side (lst l) (pool l) pl) in
        Ok (decide q (px m), q)
    | None =>
        match median (prs u) with
        | Some (m, pu) =>
            let q := set_sides p (xmin p) (xmax p) (Side (lst u) (pool u) pu) l in
            Ok (decide q (px m), q)
        | None => Ok (Invalid, set_sides p (xmin p) (xmax p) u l)
        end
    end.

  (** zm_opt_lp_megiddodyer.c:493-525, one of the two lists *)
  Definition discard_side (cmp_x cmp_grad : T -> T -> bool) (xm : T) (s : side) : side :=
    fold_left (fun a q =>
      if cmp_x (px q) xm then Side (lst a) (pool a) (q :: prs a)
      else
        let '(d, k) := if cmp_grad (cm (p1 q)) (cm (p2 q)) then (p1 q, p2 q) else (p2 q, p1 q) in
        Side (purge (lst a) d) (k :: pool a) (prs a)) (rev (prs s)) (Side (lst s) (pool s) []).
  (** zm_opt_lp_megiddodyer.c:432-436, 527-530 *)
  Definition discard_smaller (p : lp) (xm : T) : lp :=
    set_sides p (Some xm) (xmax p) (discard_side greater greater xm (up p)) (discard_side greater less xm (lo p)).
  (** zm_opt_lp_megiddodyer.c:438-442, 532-535 *)
  Definition discard_greater (p : lp) (xm : T) : lp :=
    set_sides p (xmin p) (Some xm) (discard_side less less xm (up p)) (discard_side less greater xm (lo p)).

  (** What a solver reports: true with (x1, x2) and the cost, or false for one of the reasons named in its messages
      ([Unsolvable] without a message where zLPMegiddoDyerSolve gives up after the direct part).  [OutOfFuel] is not an answer. *)
  Inductive answer := Found (x1 x2 cost : T) | InfiniteSolution | NonUnique | Unsolvable | OutOfFuel.

  (** zm_opt_lp_megiddodyer.c:537-548 *)
  Definition check_feasibility (p : lp) : option answer :=
    if negb (fpos p && fneg p) then Some InfiniteSolution
    else if negb (fdet p) then Some NonUnique
    else None.
  Definition found (p : lp) (x y : T) : answer := Found x (xy_to_x2 p x y) y.
  (** zm_opt_lp_megiddodyer.c:576-579, 590-595 *)
  Definition solve_direct_part (p : lp) : answer :=
    match direct p with None => Unsolvable | Some (x, y) => found p x y end.
  (** zm_opt_lp_megiddodyer.c:558-579 *)
  Fixpoint solve_loop (fuel : nat) (p : lp) : res (answer * lp) :=
    if (length (lst (up p)) + length (lst (lo p)) <=? 4)%nat then Ok (solve_direct_part p, p)
    else
      match fuel with
      | O => Ok (OutOfFuel, p)
      | S fuel =>
          '(c, q) <- update_xregion p ;;
          match c with
          | FoundOptimum x y => Ok (found q x y, q)
          | UpdateXMin xm => solve_loop fuel (discard_smaller q xm)
          | UpdateXMax xm => solve_loop fuel (discard_greater q xm)
          | UnsolvableCode => Ok (Unsolvable, q)
          | Invalid => Ok (solve_direct_part q, q)
          end
      end.
  (** zm_opt_lp_megiddodyer.c:551-580: the answer and the problem left behind *)
  Definition zLPMegiddoDyerSolve (p : lp) : res (answer * lp) :=
    match check_feasibility p with
    | Some a => Ok (a, p)
    | None => solve_loop (length (lst (up p)) + length (lst (lo p))) p
    end.
  (** zm_opt_lp_megiddodyer.c:583-596 *)
  Definition zLPMegiddoDyerSolveDirect (p : lp) : answer :=
    match check_feasibility p with
    | Some a => a
    | None => solve_direct_part p
    end.

  (** The flow of zm_opt_lp_megiddodyer.h:53-57: the problem after setting the cost and adding the constraints in this order, and whether
      every call answered true *)
  Definition add_all (p : lp) (cs : list (T * T * T)) : bool * lp :=
    fold_left (fun (s : bool * lp) (c : T * T * T) =>
      let '(a1, a2, b) := c in
      let '(ok, q) := add_constraint (snd s) a1 a2 b in (fst s && ok, q)) cs (true, p).
  Definition build (k1 k2 : T) (cs : list (T * T * T)) : bool * lp :=
    let '(ok, p) := set_cost init k1 k2 in
    let '(ok', q) := add_all p cs in (ok && ok', q).
End Mega.
