(** Model of src/zm_seq.c, src/zm_vec_list.c, src/zm_vec_tree.c and the list statistics
    of src/zm_mva.c.

    A ZEDA list is a Coq list in the order of zListForEach, i.e. from the tail to the
    head (root->next is the tail, root->prev the head; zListForEachRew runs from the head
    back to the tail).  Vectors are lists of numbers, read with checked access; cloned
    vectors are values.  Allocation always succeeds. *)
From Verif Require Import Prelude Scalar.

(** ** zSeq *)
Section Seq.
  Context {A : Type}.   (** contents of a cell: vector and dt *)
  (** zm_seq.c:15-21 *)
  Definition zSeqInit : list A := [].
  (** zm_seq.c:34-49: zQueueEnqueue = zListInsertTail.  [None] for v is the NULL vector.
      Answer: success, new list *)
  Definition zSeqEnqueue (seq : list A) (v : option A) : bool * list A :=
    match v with None => (false, seq) | Some v => (true, v :: seq) end.
  (** zm_seq.c:52-62: zQueueDequeue = zListDeleteHead *)
  Fixpoint del_last (l : list A) : option (A * list A) :=
    match l with
    | [] => None
    | [x] => Some (x, [])
    | x :: l => match del_last l with Some (y, r) => Some (y, x :: r) | None => None end
    end.
  Definition zSeqDequeue (seq : list A) : option A * list A :=
    match del_last seq with None => (None, seq) | Some (x, r) => (Some x, r) end.
  (** zm_seq.c:65-77, on the cells from the head towards the tail; [None] is the root cell
      (empty list).  [tail] is zListTail(seq). *)
  Fixpoint jump (cells : list A) (step : Z) (tail : option A) : option A :=
    match cells with
    | [] => tail
    | c :: cells => if (step <=? 0)%Z then Some c else jump cells (step - 1) tail
    end.
  Definition zSeqJump (seq : list A) (step : Z) : option A := jump (rev seq) step (hd_error seq).
End Seq.

Section Collect.
  Context {T : Type} {ST : Scalar T}.
  Local Open Scope S_scope.
  Local Notation vec := (list T).

  (** src/zm_raw_vec.c:315-323 through include/zm/zm_vec.h:537-538 *)
  Definition zVecSqrDist (v1 v2 : vec) : res T :=
    for_ 0 (length v1) (fun i d => a <- get v1 i ;; b <- get v2 i ;; Ok (d + (a - b) * (a - b))) 0.
  Definition zVecDist (v1 v2 : vec) : res T := d <- zVecSqrDist v1 v2 ;; Ok (ssqrt d).

  (** ** zVecList *)
  (** zm_vec_list.c:54-63 *)
  Definition zVecListInsertHead (l : list vec) (v : vec) := l ++ [v].
  Definition zVecListInsertTail (l : list vec) (v : vec) := v :: l.
  (** x < y where y may be HUGE_VAL (None) *)
  Definition lt_inf (x : T) (y : option T) : bool := match y with None => true | Some y => slt x y end.
  (** zm_vec_list.c:89-102.  (nn, distance); None: NULL, HUGE_VAL *)
  Fixpoint nn_loop (l : list vec) (v : vec) (s : option vec * option T) : res (option vec * option T) :=
    match l with
    | [] => Ok s
    | c :: l => d2 <- zVecSqrDist c v ;; nn_loop l v (if lt_inf d2 (snd s) then (Some c, Some d2) else s)
    end.
  Definition zVecListNN (l : list vec) (v : vec) : res (option vec * option T) :=
    '(nn, d) <- nn_loop l v (None, None) ;; Ok (nn, option_map ssqrt d).
  (** zm_vec_list.c:111-139, on the cells between [tail] and [head] (both excluded); the
      answer is what is left of them.  [metric] may read outside its arguments (UB). *)
  Fixpoint farthest (metric : vec -> vec -> vec -> res T) (a b : vec) (pre mid : list vec) (s : T * option (list vec * vec * list vec))
    : res (T * option (list vec * vec * list vec)) :=
    match mid with
    | [] => Ok s
    | c :: mid => d <- metric c a b ;;
        farthest metric a b (pre ++ [c]) mid (if slt (fst s) d then (d, Some (pre, c, mid)) else s)
    end.
  Fixpoint rdp (fuel : nat) (metric : vec -> vec -> vec -> res T) (tol : T) (a : vec) (mid : list vec) (b : vec) : res (list vec) :=
    match fuel with
    | O => UB
    | S fuel =>
        '(d, f) <- farthest metric a b [] mid (0, None) ;;
        if slt tol d then
          match f with
          | None => UB    (* cp_farthest is NULL *)
          | Some (l, c, r) =>
              l' <- rdp fuel metric tol a l c ;; r' <- rdp fuel metric tol c r b ;; Ok (l' ++ c :: r')
          end
        else Ok []
    end.
  (** zm_vec_list.c:135-139.  With one element, zListCellNext(tail) is the root cell,
      whose data is read. *)
  Definition zVecListRDP (metric : vec -> vec -> vec -> res T) (tol : T) (l : list vec) : res (list vec) :=
    match l with
    | [] => if slt tol 0 then UB else Ok []
    | a :: l => match del_last l with
                | None => UB
                | Some (b, mid) => mid' <- rdp (S (length mid)) metric tol a mid b ;; Ok (a :: mid' ++ [b])
                end
    end.

  (** ** zm_mva.c *)
  (** zm_mva.c:11-32; a NULL answer is [None]; bounds may stay at -+HUGE_VAL (None) *)
  Definition gt_inf (y : option T) (x : T) : bool := match y with None => true | Some y => slt x y end.
  Definition lt_minf (y : option T) (x : T) : bool := match y with None => true | Some y => slt y x end.
  Definition minmax1 (c : vec) (n : nat) (mm : list (option T) * list (option T)) : res (list (option T) * list (option T)) :=
    for_ 0 n (fun i mm =>
      lo <- get (fst mm) i ;; x <- get c i ;;
      mi <- (if gt_inf lo x then set (fst mm) i (Some x) else Ok (fst mm)) ;;
      hi <- get (snd mm) i ;;
      ma <- (if lt_minf hi x then set (snd mm) i (Some x) else Ok (snd mm)) ;;
      Ok (mi, ma)) mm.
  Fixpoint minmax_loop (l : list vec) (n : nat) (mm : list (option T) * list (option T)) :=
    match l with [] => Ok mm | c :: l => mm <- minmax1 c n mm ;; minmax_loop l n mm end.
  (** [nmin], [nmax]: sizes of the two result vectors *)
  Definition zVecListMinMax (l : list vec) (nmin nmax : nat) : res (option (list (option T) * list (option T))) :=
    match del_last l with
    | None => UB
    | Some (h, _) =>
        if negb ((length h =? nmin) && (length h =? nmax))%nat then Ok None
        else mm <- minmax_loop l nmin (repeat None nmin, repeat None nmax) ;; Ok (Some mm)
    end.
  (** zm_mva.c:35-43; zVecAddDRC of a vector of another size fails and changes nothing *)
  Definition vadd_drc (a b : vec) : vec :=
    if (length a =? length b)%nat then map (fun p => fst p + snd p) (combine a b) else a.
  Definition zVecListSum (l : list vec) (n : nat) : vec := fold_left vadd_drc l (repeat 0 n).
  (** zm_mva.c:46-50; zVecDivDRC refuses a tiny divisor (empty list): [None] *)
  Definition zVecListMean (tol : T) (l : list vec) (n : nat) : option vec :=
    let k := sofZ (Z.of_nat (length l)) in
    if is_tol tol k then None else Some (map (fun x => x * (1 / k)) (zVecListSum l n)).
  (** zm_mva.c:53-65; [None]: HUGE_VAL because of a size mismatch *)
  Fixpoint var_loop (l : list vec) (mean : vec) (s : T) : res T :=
    match l with [] => Ok s | c :: l => d <- zVecSqrDist c mean ;; var_loop l mean (s + d) end.
  Definition zVecListVar (l : list vec) (mean : vec) : res (option T) :=
    match del_last l with
    | None => UB
    | Some (h, _) =>
        if negb (length mean =? length h)%nat then Ok None
        else v <- var_loop l mean 0 ;; Ok (Some (v / sofZ (Z.of_nat (length l))))
    end.
  (** zm_mva.c:75-101.  The matrix is an index function; zVecSub of another size fails
      and leaves the previous difference in v. *)
  Fixpoint cov_loop (l : list vec) (mean : vec) (d : vec) (cov : nat -> nat -> T) : nat -> nat -> T :=
    match l with
    | [] => cov
    | c :: l =>
        let d := if (length c =? length mean)%nat then map (fun p => fst p - snd p) (combine c mean) else d in
        cov_loop l mean d (fun i j => cov i j + nth i d 0 * nth j d 0)
    end.
  Definition zVecListCov (l : list vec) (mean : vec) (crow ccol : nat) : res (option (nat -> nat -> T)) :=
    match del_last l with
    | None => UB
    | Some (h, _) =>
        let s := length h in
        if negb (length mean =? s)%nat then Ok None
        else if negb ((crow =? ccol) && (crow =? s))%nat then Ok None
        else let c := cov_loop l mean (repeat 0 s) (fun _ _ => 0) in
             let k := sofZ (Z.of_nat (length l)) in
             Ok (Some (fun i j => c i j * (1 / k)))
    end.

  (** ** zVecTree *)
  (** bounds: None is -HUGE_VAL in vmin and HUGE_VAL in vmax *)
  Inductive kd := KNil | KNode (split : nat) (v : vec) (vmin vmax : list (option T)) (s0 s1 : kd).
  (** zm_vec_tree.c:10-25: the root; [KRoot] before the first insertion (split = -1, v = NULL) *)
  Inductive kroot := KRoot (vmin vmax : list (option T)) | KTree (t : kd).
  Definition zVecTreeInit (dim : nat) : option kroot :=
    if (dim =? 0)%nat then None else Some (KRoot (repeat None dim) (repeat None dim)).
  (** zm_vec_tree.c:63-66: true is branch 0 *)
  Definition choose (split : nat) (nv v : vec) : res bool := a <- get v split ;; b <- get nv split ;; Ok (sle b a).
  (** zm_vec_tree.c:69-92 *)
  Definition leaf (split : nat) (nv : vec) (vmin vmax : list (option T)) (v : vec) (b : bool) : res kd :=
    x <- get nv split ;;
    if (length v =? 0)%nat then UB
    else let sp := ((split + 1) mod length v)%nat in
    if b then vmin <- set vmin split (Some x) ;; Ok (KNode sp v vmin vmax KNil KNil)
    else vmax <- set vmax split (Some x) ;; Ok (KNode sp v vmin vmax KNil KNil).
  Fixpoint kadd (t : kd) (v : vec) : res kd :=
    match t with
    | KNil => UB
    | KNode sp nv vmin vmax s0 s1 =>
        b <- choose sp nv v ;;
        if (b : bool) then
          s <- match s0 with KNil => leaf sp nv vmin vmax v true | _ => kadd s0 v end ;; Ok (KNode sp nv vmin vmax s s1)
        else
          s <- match s1 with KNil => leaf sp nv vmin vmax v false | _ => kadd s1 v end ;; Ok (KNode sp nv vmin vmax s0 s)
    end.
  (** zm_vec_tree.c:95-102 *)
  Definition zVecTreeAdd (t : kroot) (v : vec) : res kroot :=
    match t with
    | KRoot vmin vmax => Ok (KTree (KNode 0 v vmin vmax KNil KNil))
    | KTree t => t <- kadd t v ;; Ok (KTree t)
    end.
  (** zm_vec_tree.c:107-120; r may be HUGE_VAL *)
  Definition overlap (tol : T) (vmin vmax : list (option T)) (c : vec) (r : option T) : res bool :=
    d <- for_ 0 (length c) (fun i d =>
           vd <- get c i ;; lo <- get vmin i ;;
           let d := match lo with Some lo => if slt vd lo then d + (vd - lo) * (vd - lo) else d | None => d end in
           hi <- get vmax i ;;
           Ok (match hi with Some hi => if slt hi vd then d + (vd - hi) * (vd - hi) else d | None => d end)) 0 ;;
    Ok (match r with None => true | Some r => sle d (r * r + tol) end).
  (** zm_vec_tree.c:123-131 *)
  Definition nntest (nv v : vec) (s : option vec * option T) : res (option vec * option T) :=
    d <- zVecDist nv v ;; Ok (if lt_inf d (snd s) then (Some nv, Some d) else s).
  (** zm_vec_tree.c:136-144 *)
  Fixpoint nnopp (tol : T) (t : kd) (v : vec) (s : option vec * option T) : res (option vec * option T) :=
    match t with
    | KNil => Ok s
    | KNode _ nv _ _ s0 s1 =>
        s <- nntest nv v s ;;
        s <- match s0 with KNil => Ok s
             | KNode _ _ lo hi _ _ => o <- overlap tol lo hi v (snd s) ;; if (o : bool) then nnopp tol s0 v s else Ok s end ;;
        match s1 with KNil => Ok s
        | KNode _ _ lo hi _ _ => o <- overlap tol lo hi v (snd s) ;; if (o : bool) then nnopp tol s1 v s else Ok s end
    end.
  (** zm_vec_tree.c:147-158 *)
  Fixpoint nn (tol : T) (t : kd) (v : vec) (s : option vec * option T) : res (option vec * option T) :=
    match t with
    | KNil => Ok s
    | KNode sp nv _ _ s0 s1 =>
        b <- choose sp nv v ;;
        s <- (if (b : bool) then nn tol s0 v s else nn tol s1 v s) ;;
        s <- nntest nv v s ;;
        match (if (b : bool) then s1 else s0) with
        | KNil => Ok s
        | KNode _ _ lo hi _ _ => o <- overlap tol lo hi v (snd s) ;;
            if (o : bool) then nnopp tol (if (b : bool) then s1 else s0) v s else Ok s
        end
    end.
  (** zm_vec_tree.c:161-167: (nearest vector, distance); on the empty tree
      _zVecTreeChooseBranch reads element -1 through a NULL pointer *)
  Definition zVecTreeNN (tol : T) (t : kroot) (v : vec) : res (option vec * option T) :=
    match t with KRoot _ _ => UB | KTree t => nn tol t v (None, None) end.
  Fixpoint kadd_all (t : kroot) (vs : list vec) : res kroot :=
    match vs with [] => Ok t | v :: vs => t <- zVecTreeAdd t v ;; kadd_all t vs end.
End Collect.
Arguments kd T : clear implicits.
Arguments kroot T : clear implicits.
