(** Model of src/zm_rrt.c: rapidly-exploring random trees.

    The functions of the user are parameters: [dist], [ext], [coll], [goalp] are _distance, _extend, _check_collision and
    _check_goal on points of any type [V] (a zVec and the data [util]); the default functions are at the end.  A tree is
    the list of its nodes in the order of zListForEach, from the tail to the head: zListInsertHead appends, the head is
    the last.  A pointer to a node is its index in the list: nodes are never moved or removed.  [samp i] is the i-th
    vector of zVecRand.  HUGE_VAL is None and is replaced by any distance.  Allocation is assumed to succeed. *)
From Coq Require Import List.
From Verif Require Import Prelude Scalar Stat_Model.
Import ListNotations.

Inductive ext_ret := NOP | ADVANCED | REACHED | TRAPPED. (* 86-92, without the failure of the allocation *)

Section Rrt.
  Context {T : Type} {ST : Scalar T} {V : Type}.
  Local Open Scope S_scope.
  Variables (ztol eps : T) (dist : V -> V -> T) (ext : V -> V -> T -> V) (coll goalp : V -> bool).

  (** zm_rrt.h:21-26 *)
  Record node := Nd { nv : V; cedge : T; ctotal : T; par : option nat }.
  Definition tree := list node.
  (** zListHead *)
  Definition head (t : tree) : res node := get t (length t - 1).
  (** 22-35 *)
  Definition _zRRTListAddNode (t : tree) (v : V) (cost : T) (parent : option nat) : res tree :=
    match parent with
    | None => Ok (t ++ [Nd v cost cost None])
    | Some p => n <- get t p ;; Ok (t ++ [Nd v cost (ctotal n + cost) parent])
    end.
  (** 51-63 *)
  Definition _zRRTListNN (t : tree) (vr : V) : option (T * nat) :=
    fold_left (fun b i => match nth_error t i with
      | None => b
      | Some n => let d := dist vr (nv n) in if match b with None => true | Some (dmin, _) => slt d dmin end then Some (d, i) else b
      end) (List.seq 0 (length t)) None.
  (** 95-108 *)
  Definition _zRRTListExtendTest (nn : node) (vr : V) (d : T) : ext_ret * V * T :=
    let '(ret, ve, cost) := if slt d eps then (REACHED, vr, d) else (ADVANCED, ext (nv nn) vr (eps / d), eps) in
    (if coll ve then TRAPPED else ret, ve, cost).
  (** 111-130; without a nearest node a null pointer is dereferenced *)
  Definition _zRRTListExtend (t : tree) (vr : V) : res (ext_ret * tree) :=
    match _zRRTListNN t vr with
    | None => UB
    | Some (d, i) =>
        if is_tol ztol d then Ok (NOP, t)
        else
          nn <- get t i ;;
          match _zRRTListExtendTest nn vr d with
          | (TRAPPED, _, _) => Ok (TRAPPED, t)
          | (ret, ve, cost) => t <- _zRRTListAddNode t ve cost (Some i) ;; Ok (ret, t)
          end
    end.
  (** 133-141; the exhaustion of [fuel], a bound of the number of the extensions, is UB *)
  Fixpoint _zRRTListExtendGreedy (fuel : nat) (t : tree) (vr : V) : res (ext_ret * tree) :=
    match fuel with
    | O => UB
    | S fuel =>
        '(ret, t) <- _zRRTListExtend t vr ;;
        match ret with ADVANCED => _zRRTListExtendGreedy fuel t vr | _ => Ok (ret, t) end
    end.

  (** 165-177: the walk from the node [i]: the points in the order of zListForEach, before those of [path], and the
      cost; as many steps as nodes are enough unless the pointers form a cycle (UB) *)
  Fixpoint walk (fuel : nat) (t : tree) (i : nat) (path : list V) (cost : T) : res (list V * T) :=
    match fuel with
    | O => UB
    | S fuel =>
        n <- get t i ;;
        match par n with
        | None => Ok (nv n :: path, cost + cedge n)
        | Some p => walk fuel t p (nv n :: path) (cost + cedge n)
        end
    end.
  Definition _zRRTPath (t : tree) : res (list V * T) := walk (length t) t (length t - 1) [] 0.

  (** 192-198: the loop; [i] vectors were drawn *)
  Fixpoint find_loop (extend : tree -> V -> res (ext_ret * tree)) (samp : nat -> V) (iter i : nat) (t : tree) : res (bool * tree) :=
    match iter with
    | O => Ok (false, t)
    | S iter =>
        '(ret, t) <- extend t (samp i) ;;
        match ret with
        | TRAPPED => find_loop extend samp iter (S i) t
        | _ => h <- head t ;; if goalp (nv h) then Ok (true, t) else find_loop extend samp iter (S i) t
        end
    end.
  (** 180-206; [iter] is positive, ZITERINIT is in the entry.  [with_cost] is whether the pointer [cost] is given; the
      path is None when nothing is written to [path] *)
  Definition _zRRTFindPath extend samp (start : V) (iter : nat) (with_cost : bool) : res (bool * tree * option (list V * T)) :=
    t <- _zRRTListAddNode [] start 0 None ;;
    '(ret, t) <- find_loop extend samp iter O t ;;
    p <- (if with_cost then p <- _zRRTPath t ;; Ok (Some p) else Ok None) ;;
    Ok (ret, t, p).
  (** 209-212 *)
  Definition zRRTFindPath := _zRRTFindPath _zRRTListExtend.

  (** ** RRT* *)
  Variables (toint : T -> nat) (radius : nat -> T). (* [radius n] is r of 318-319 for n nodes *)
  (** 223-240; [toint] is the conversion to int *)
  Definition _zRRTListCheckNodeRewirable (v1 v2 : V) (d : T) : bool :=
    let n := toint (d / eps + 1) in
    forallb (fun i => negb (coll (ext v1 v2 (sofZ (Z.of_nat i) / sofZ (Z.of_nat n))))) (List.seq 1 (n - 1)).
  (** 267-277: the near nodes with their distances, and the index in them of the one of the smallest total cost *)
  Definition near_nodes (t : tree) (ve : V) (r : T) : list (nat * T) * option (T * nat) :=
    fold_left (fun '(near, m) i => match nth_error t i with
      | None => (near, m)
      | Some n =>
          let d := dist (nv n) ve in
          if slt d r && _zRRTListCheckNodeRewirable ve (nv n) d then
            let c := ctotal n + d in
            (near ++ [(i, d)], if match m with None => true | Some (cmin, _) => slt c cmin end then Some (c, length near) else m)
          else (near, m)
      end) (List.seq 0 (length t)) ([], None).
  (** 287-294: one near node *)
  Definition rewire (h : nat) (t : tree) (i : nat) (d : T) : res tree :=
    nh <- get t h ;; n <- get t i ;;
    let c := ctotal nh + d in
    if slt c (ctotal n) then set t i (Nd (nv n) d c (Some h)) else Ok t.
  (** 258-299 *)
  Definition _zRRTListAddAndRewireNode (t : tree) (ve : V) (nn : nat) (dn r : T) : res tree :=
    let '(near, m) := near_nodes t ve r in
    match m with
    | None => _zRRTListAddNode t ve dn (Some nn)
    | Some (_, k) =>
        '(p, d) <- get near k ;;
        t <- _zRRTListAddNode t ve d (Some p) ;;
        let h := (length t - 1)%nat in
        foreach (firstn k near ++ skipn (S k) near) (fun '(i, d) t => rewire h t i d) t
    end.
  (** 303-326 *)
  Definition _zRRTListExtendOpt (t : tree) (vr : V) : res (ext_ret * tree) :=
    match _zRRTListNN t vr with
    | None => UB
    | Some (d, i) =>
        if is_tol ztol d then Ok (NOP, t)
        else
          nn <- get t i ;;
          match _zRRTListExtendTest nn vr d with
          | (TRAPPED, _, _) => Ok (TRAPPED, t)
          | (ret, ve, cost) => t <- _zRRTListAddAndRewireNode t ve i cost (radius (length t)) ;; Ok (ret, t)
          end
    end.
  (** 329-332 *)
  Definition zRRTFindPathOpt := _zRRTFindPath _zRRTListExtendOpt.

  (** ** RRT-connect *)
  (** 335-352 *)
  Definition _zRRTPathDual (s g : tree) : res (list V * T) :=
    '(ps, c) <- walk (length s) s (length s - 1) [] 0 ;;
    '(pg, c) <- walk (length g) g (length g - 1) [] c ;;
    hs <- head s ;; hg <- head g ;;
    Ok (ps ++ rev pg, c + dist (nv hs) (nv hg)).
  (** 372-381: the loop; [sw] is whether list1 is glist *)
  Fixpoint dual_loop (fuel : nat) (samp : nat -> V) (iter i : nat) (sw : bool) (l1 l2 : tree) : res (bool * bool * tree * tree) :=
    match iter with
    | O => Ok (false, sw, l1, l2)
    | S iter =>
        '(ret, l1) <- _zRRTListExtend l1 (samp i) ;;
        match ret with
        | TRAPPED => dual_loop fuel samp iter (S i) sw l1 l2
        | _ =>
            h <- head l1 ;;
            '(ret, l2) <- _zRRTListExtendGreedy fuel l2 (nv h) ;;
            match ret with
            | REACHED => Ok (true, sw, l1, l2)
            | _ => dual_loop fuel samp iter (S i) (negb sw) l2 l1
            end
        end
    end.
  (** 355-387 *)
  Definition zRRTFindPathDual (fuel : nat) (samp : nat -> V) (start goal : V) (iter : nat) (with_cost : bool) : res (bool * tree * tree * option (list V * T)) :=
    s <- _zRRTListAddNode [] start 0 None ;;
    g <- _zRRTListAddNode [] goal 0 None ;;
    '(ret, sw, l1, l2) <- dual_loop fuel samp iter O false s g ;;
    let '(s, g) := if sw then (l2, l1) else (l1, l2) in
    p <- (if with_cost then p <- _zRRTPathDual s g ;; Ok (Some p) else Ok None) ;;
    Ok (ret, s, g, p).

  (** ** the shortcut *)
  (** 390-401; the exhaustion of [fuel], a bound of the depth, is UB *)
  Fixpoint _zRRTShortcutPathCheck (fuel : nat) (v1 v2 : V) (s1 s2 d : T) : res bool :=
    match fuel with
    | O => UB
    | S fuel =>
        if slt d eps then Ok true
        else
          let s := (s1 + s2) / (1 + 1) in
          if coll (ext v1 v2 s) then Ok false
          else
            let d := d / (1 + 1) in
            b <- _zRRTShortcutPathCheck fuel v1 v2 s1 s d ;;
            if b then _zRRTShortcutPathCheck fuel v1 v2 s s2 d else Ok false
    end.
  (** 417-424: the inner loop: [mid] is the cell before cp2 and [l] the cells from cp2 on; the cells between cp1 and the
      one where the loop ends, which is that before cp2 *)
  Fixpoint cut (fuel : nat) (v1 mid : V) (l : list V) : res (V * list V) :=
    match l with
    | [] => Ok (mid, [])
    | v2 :: l' =>
        b <- _zRRTShortcutPathCheck fuel v1 v2 0 1 (dist v1 v2) ;;
        if b then cut fuel v1 v2 l' else Ok (mid, v2 :: l')
    end.
  (** 416-428: cp1 holds [v1], [mid] and [l] follow; [steps] is at least the number of the cells.  When cp2 passes the
      head the loop ends without the last edge *)
  Fixpoint shortcut_loop (steps fuel : nat) (v1 mid : V) (l : list V) (cost : T) : res (list V * T) :=
    match steps with
    | O => UB
    | S steps =>
        match l with
        | [] => Ok ([v1; mid], cost)
        | _ =>
            '(m, l) <- cut fuel v1 mid l ;;
            let cost := cost + dist v1 m in
            match l with
            | [] => Ok ([v1; m], cost)
            | v2 :: l' => '(p, cost) <- shortcut_loop steps fuel m v2 l' cost ;; Ok (v1 :: p, cost)
            end
        end
    end.
  (** 404-431; the path in the order of zListForEach; the cost is None when nothing is written *)
  Definition zRRTShortcutPath (fuel : nat) (path : list V) : res (list V * option T) :=
    match path with
    | v1 :: mid :: (_ :: _) as l => '(p, c) <- shortcut_loop (length path) fuel v1 mid (skipn 2 path) 0 ;; Ok (p, Some c)
    | _ => Ok (path, None)
    end.

  (** ** escapement *)
  (** 434-457 *)
  Definition _zRRTListExtendEscape (t : tree) (vr : V) : res (ext_ret * tree) :=
    match _zRRTListNN t vr with
    | None => UB
    | Some (d, i) =>
        if is_tol ztol d then Ok (NOP, t)
        else
          nn <- get t i ;;
          let ve := if slt d eps then vr else ext (nv nn) vr (eps / d) in
          t <- _zRRTListAddNode t ve 0 (Some i) ;;
          Ok (if coll ve then TRAPPED else REACHED, t)
    end.
  (** 476-481 *)
  Fixpoint escape_loop (samp : nat -> V) (iter i : nat) (t : tree) : res (bool * tree) :=
    match iter with
    | O => Ok (false, t)
    | S iter =>
        '(ret, t) <- _zRRTListExtendEscape t (samp i) ;;
        match ret with REACHED => Ok (true, t) | _ => escape_loop samp iter (S i) t end
    end.
  (** 460-489; the sizes of [start] and [goal] are assumed equal *)
  Definition zRRTEscape (samp : nat -> V) (start : V) (iter : nat) : res (bool * V) :=
    if negb (coll start) then Ok (true, start)
    else
      t <- _zRRTListAddNode [] start 0 None ;;
      '(ret, t) <- escape_loop samp iter O t ;;
      h <- head t ;; Ok (ret, nv h).
End Rrt.
Arguments node : clear implicits.
Arguments tree : clear implicits.

(** ** the default functions, on vectors of the size [m] *)
Section Default.
  Context {T : Type} {ST : Scalar T}.
  Local Open Scope S_scope.
  (** 66-69; the sum in any order *)
  Definition default_distance (m : nat) (v1 v2 : nat -> T) : T :=
    ssqrt (fold_left (fun s i => s + (v1 i - v2 i) * (v1 i - v2 i)) (List.seq 0 m) 0).
  (** 72-77 *)
  Definition default_extend (vfrom vto : nat -> T) (e : T) : nat -> T := fun i => vfrom i * (1 - e) + vto i * e.
  (** 80, 83 *)
  Definition default_collision (v : nat -> T) : bool := true.
  Definition default_goal (v : nat -> T) : bool := true.
  (** 318-319; [lg] and [pw] are log and pow *)
  Definition star_radius (eps : T) (lg : T -> T) (pw : T -> T -> T) (m n : nat) : T :=
    let nat_ k := sofZ (Z.of_nat k) in
    eps * sofZ 100 * (if (n =? 1)%nat then 1 else pw (lg (nat_ n) / nat_ n) (1 / nat_ m)) + eps.
End Default.
