(** Model of src/zm_gng.c: growing neural gas.

    Units and edges are cells on the heap.  Their addresses are numbers; a cell that was freed is in no list, so that to
    read it is [UB].  A list is in the order of zListForEach, from the tail to the head: zListInsertHead appends.  A
    vector of [dim] components is a function.  The vectors of the user's sampler are arguments.  [below_huge d] is
    d < HUGE_VAL.  Allocation is assumed to succeed. *)
From Coq Require Import ZArith List Bool.
From Verif Require Import Prelude Scalar Complex_Model.
Import ListNotations.

Section Gng.
  Context {T : Type} {ST : Scalar T}.
  Local Open Scope S_scope.
  Definition vec := nat -> T.
  Variables (dim : nat) (below_huge : T -> bool).

  (** zm_raw_vec.c:315-323; 233-240; 243-247; 60-65 *)
  Definition zVecSqrDist (v1 v2 : vec) : T := fold_left (fun d i => d + (v1 i - v2 i) * (v1 i - v2 i)) (List.seq 0 dim) 0.
  Definition zVecInterDivDRC (v v2 : vec) (ratio : T) : vec := fun i => v i + ratio * (v2 i - v i).
  Definition zVecMid (v1 v2 : vec) : vec := fun i => sofZ 1 / sofZ 2 * (v1 i + v2 i).
  Definition zVecEqual (v1 v2 : vec) (tol : T) : bool := forallb (fun i => zEqual (v1 i) (v2 i) tol) (List.seq 0 dim).

  (** zm_gng.h:23-27, 33-37; [eps] lists the addresses of the edges in eplist *)
  Record edge := Edge { eid : nat; age : Z; eu1 : nat; eu2 : nat }.
  Record unit := Unit { uid : nat; uv : vec; uerr : T; eps : list nat }.
  (** zm_gng.h:54-66, the lists and [next], an address that was never used; the parameters are apart *)
  Record gng := Gng { units : list unit; edges : list edge; next : nat }.
  Record params := Params { batch : nat; lifetime : Z; coeff1 : T; coeffn : T; ratio1 : T; ratio2 : T }.
  (** zm_gng.h:41-46 *)
  Definition default_params : params :=
    Params 100 50 (sofZ 2 / sofZ 10) (sofZ 6 / sofZ 1000) (sofZ 1 / sofZ 2) (sofZ 995 / sofZ 1000).

  (** access to cells *)
  Definition get_unit (g : gng) (a : nat) : res unit :=
    match find (fun u => uid u =? a)%nat (units g) with Some u => Ok u | None => UB end.
  Definition set_unit (g : gng) (a : nat) (f : unit -> unit) : res gng :=
    _ <- get_unit g a ;; Ok (Gng (map (fun u => if (uid u =? a)%nat then f u else u) (units g)) (edges g) (next g)).
  Definition get_edge (g : gng) (x : nat) : res edge :=
    match find (fun e => eid e =? x)%nat (edges g) with Some e => Ok e | None => UB end.
  Definition set_edge (g : gng) (x : nat) (f : edge -> edge) : res gng :=
    _ <- get_edge g x ;; Ok (Gng (units g) (map (fun e => if (eid e =? x)%nat then f e else e) (edges g)) (next g)).

  (** 45-48 *)
  Definition _zGNGUnitOther (a : nat) (e : edge) : nat := if (eu1 e =? a)%nat then eu2 e else eu1 e.
  (** 50-62: the first pointer to the edge is removed *)
  Fixpoint remove_first (x : nat) (l : list nat) : list nat :=
    match l with [] => [] | y :: l => if (y =? x)%nat then l else y :: remove_first x l end.
  Definition _zGNGUnitPurgeEdge (g : gng) (a x : nat) : res gng :=
    set_unit g a (fun u => Unit (uid u) (uv u) (uerr u) (remove_first x (eps u))).
  (** 86-90; the unit has no edge, the caller has checked it *)
  Definition _zGNGPurgeUnit (g : gng) (a : nat) : gng :=
    Gng (filter (fun u => negb (uid u =? a)%nat) (units g)) (edges g) (next g).
  Definition purge_if_empty (g : gng) (a : nat) : res gng :=
    u <- get_unit g a ;; Ok (match eps u with [] => _zGNGPurgeUnit g a | _ :: _ => g end).
  (** 92-101 *)
  Definition _zGNGPurgeEdge (g : gng) (x : nat) : res gng :=
    e <- get_edge g x ;;
    g <- _zGNGUnitPurgeEdge g (eu1 e) x ;;
    g <- purge_if_empty g (eu1 e) ;;
    g <- _zGNGUnitPurgeEdge g (eu2 e) x ;;
    g <- purge_if_empty g (eu2 e) ;;
    Ok (Gng (units g) (filter (fun e => negb (eid e =? x)%nat) (edges g)) (next g)).
  (** 103-126 *)
  Definition _zGNGConnect (g : gng) (a1 a2 : nat) : res gng :=
    let x := next g in
    let g := Gng (units g) (edges g ++ [Edge x 0 a1 a2]) (S x) in
    let add u := Unit (uid u) (uv u) (uerr u) (eps u ++ [x]) in
    g <- set_unit g a1 add ;; set_unit g a2 add.
  (** 128-140 *)
  Definition _zGNGDisconnect (g : gng) (a1 a2 : nat) : res gng :=
    match find (fun e => ((eu1 e =? a1) && (eu2 e =? a2) || (eu1 e =? a2) && (eu2 e =? a1))%nat) (edges g) with
    | Some e => _zGNGPurgeEdge g (eid e)
    | None => Ok g
    end.
  (** 22-33, 163, 168-169: a unit is put into the list; its address *)
  Definition add_unit (g : gng) (v : vec) (err : T) : nat * gng :=
    (next g, Gng (units g ++ [Unit (next g) v err []]) (edges g) (S (next g))).

  (** 143-182; [samp i] is the i-th sample; the number of drawn samples is answered; after [fuel] equal samples the loop
      166-168 is still running (None) *)
  Fixpoint second_sample (tol : T) (fuel i : nat) (samp : nat -> vec) (v1 : vec) : option nat :=
    match fuel with
    | O => None
    | S fuel => if zVecEqual (samp i) v1 tol then second_sample tol fuel (S i) samp v1 else Some i
    end.
  Definition zGNGInit (tol : T) (fuel : nat) (samp : nat -> vec) : res (option (gng * nat)) :=
    match second_sample tol fuel 1 samp (samp 0%nat) with
    | None => Ok None
    | Some i =>
        let '(a1, g) := add_unit (Gng [] [] 0) (samp 0%nat) 0 in
        let '(a2, g) := add_unit g (samp i) 0 in
        g <- _zGNGConnect g a1 a2 ;; Ok (Some (g, S i))
    end.

  (** 185-194: zListHead is the last; as many steps as edges *)
  Fixpoint destroy_loop (fuel : nat) (g : gng) : res gng :=
    match rev (edges g) with
    | [] => Ok g
    | e :: _ => match fuel with O => UB | S fuel => g <- _zGNGPurgeEdge g (eid e) ;; destroy_loop fuel g end
    end.
  Definition zGNGDestroy (g : gng) : res gng := destroy_loop (length (edges g)) g.

  (** 196-216; HUGE_VAL is None; the root of an empty list is UB when read *)
  Definition lt_min (d : T) (m : option T) : bool := match m with None => below_huge d | Some m => slt d m end.
  Definition prox_step (v : vec) (s : nat * option T * nat * option T) (u : unit) : nat * option T * nat * option T :=
    let '(a1, d1, a2, d2) := s in
    let d := zVecSqrDist v (uv u) in
    if lt_min d d1 then (uid u, Some d, a1, d1)
    else if lt_min d d2 then (a1, d1, uid u, Some d)
    else s.
  Definition _zGNGFindProximity2 (g : gng) (v : vec) : res (nat * nat) :=
    t <- get (units g) 0 ;;
    let '(a1, _, a2, _) := fold_left (prox_step v) (units g) (uid t, None, uid t, None) in Ok (a1, a2).
  (** 218-227 *)
  Definition _zGNGFindPivot (g : gng) : res unit :=
    t <- get (units g) 0 ;;
    Ok (fold_left (fun p u => if sle (uerr p) (uerr u) then u else p) (units g) t).
  (** 229-240 *)
  Fixpoint foreach_ {A S} (l : list A) (f : A -> S -> res S) (s : S) : res S :=
    match l with [] => Ok s | x :: l => s <- f x s ;; foreach_ l f s end.
  Definition _zGNGFindSeed (g : gng) (pivot : unit) : res unit :=
    x <- get (eps pivot) 0 ;;
    e <- get_edge g x ;;
    seed <- get_unit g (_zGNGUnitOther (uid pivot) e) ;;
    foreach_ (eps pivot) (fun x seed =>
      e <- get_edge g x ;;
      u <- get_unit g (_zGNGUnitOther (uid pivot) e) ;;
      Ok (if sle (uerr seed) (uerr u) then u else seed)) seed.

  Definition set_v (w : vec) (u : unit) : unit := Unit (uid u) w (uerr u) (eps u).
  Definition set_err (x : T) (u : unit) : unit := Unit (uid u) (uv u) x (eps u).
  Definition set_age (z : Z) (e : edge) : edge := Edge (eid e) z (eu1 e) (eu2 e).
  (** 250-259: an edge of the closest unit [a1] *)
  Definition adapt_step (p : params) (v : vec) (a1 a2 x : nat) (s : gng * bool) : res (gng * bool) :=
    let '(g, nb) := s in
    e <- get_edge g x ;;
    let an := _zGNGUnitOther a1 e in
    g <- set_unit g an (fun u => set_v (zVecInterDivDRC (uv u) v (coeffn p)) u) ;;
    if (an =? a2)%nat then g <- set_edge g x (set_age 0) ;; Ok (g, true)
    else g <- set_edge g x (fun e => set_age (age e + 1) e) ;; Ok (g, nb).
  (** 242-264 *)
  Definition _zGNGAdapt (p : params) (g : gng) (v : vec) : res gng :=
    '(a1, a2) <- _zGNGFindProximity2 g v ;;
    u1 <- get_unit g a1 ;;
    g <- set_unit g a1 (fun u => set_err (uerr u + zVecSqrDist (uv u) v) u) ;;
    g <- set_unit g a1 (fun u => set_v (zVecInterDivDRC (uv u) v (coeff1 p)) u) ;;
    '(g, nb) <- foreach_ (eps u1) (adapt_step p v a1 a2) (g, false) ;;
    if nb then Ok g else _zGNGConnect g a1 a2.
  (** 266-277; [i] is the position of the cell: the cell after the previous one takes the position of the removed one *)
  Fixpoint aged_loop (lt : Z) (fuel i : nat) (g : gng) : res gng :=
    match nth_error (edges g) i with
    | None => Ok g
    | Some e =>
        match fuel with
        | O => UB
        | S fuel => if (lt <? age e)%Z then g <- _zGNGPurgeEdge g (eid e) ;; aged_loop lt fuel i g else aged_loop lt fuel (S i) g
        end
    end.
  Definition _zGNGRemoveAgedEdge (p : params) (g : gng) : res gng := aged_loop (lifetime p) (length (edges g)) 0 g.
  (** 279-298 *)
  Definition _zGNGGrow (p : params) (g : gng) : res gng :=
    u1 <- _zGNGFindPivot g ;;
    u2 <- _zGNGFindSeed g u1 ;;
    let v := zVecMid (uv u1) (uv u2) in
    g <- set_unit g (uid u1) (fun u => set_err (uerr u * ratio1 p) u) ;;
    g <- set_unit g (uid u2) (fun u => set_err (uerr u * ratio1 p) u) ;;
    u1' <- get_unit g (uid u1) ;;
    let '(r, g) := add_unit g v (uerr u1') in
    g <- _zGNGConnect g (uid u1) r ;;
    g <- _zGNGConnect g (uid u2) r ;;
    g <- _zGNGDisconnect g (uid u1) (uid u2) ;;
    Ok (Gng (map (fun u => set_err (uerr u * ratio2 p) u) (units g)) (edges g) (next g)).
  (** 301-310 *)
  Definition zGNGUpdate (p : params) (g : gng) (samp : nat -> vec) : res gng :=
    g <- for_ 0 (batch p) (fun i g => g <- _zGNGAdapt p g (samp i) ;; _zGNGRemoveAgedEdge p g) g ;;
    _zGNGGrow p g.
End Gng.
Arguments unit : clear implicits.
Arguments gng : clear implicits.
Arguments params : clear implicits.
