(** Model of the nearest neighbour on a NURBS curve, src/zm_nurbs.c:273-309.  [ztol] is zTOL, [half] is 0.5, [iter] is
    Z_MAX_ITER_NUM. *)
From Verif Require Import Prelude Scalar Fmat Misc_Model IP_Model Complex_Model Nurbs_Model.

Section Near.
  Context {T : Type} {ST : Scalar T}.
  Local Open Scope S_scope.
  Local Notation vec := (fvec T).
  Variable ztol half : T.

  (** s1, dmin1, s2, dmin2; [None] is HUGE_VAL *)
  Definition nnstate : Type := (T * option T) * (T * option T).
  Definition below (d : T) (o : option T) : bool := match o with Some x => slt d x | None => true end.
  (** zm_nurbs.c:292-304; [dist] is the distance of the point from the curve at a parameter *)
  Definition nn_sample (dist : T -> res T) (s1old s2old : T) (j : nat) (st : nnstate) : res nnstate :=
    let '((s1, dmin1), (s2, dmin2)) := st in
    let sj := (s2old - s1old) * sofZ (Z.of_nat j) / sofZ 30%Z + s1old in
    d <- dist sj ;;
    if below d dmin1 then Ok ((sj, Some d), (s1, dmin1))
    else if below d dmin2 then Ok ((s1, dmin1), (sj, Some d))
    else Ok st.
  Definition nn_pass (dist : T -> res T) (st : nnstate) : res nnstate :=
    for_ 0 31 (nn_sample dist (fst (fst st)) (fst (snd st))) st.
  (** zm_nurbs.c:305; zEqual is false on an infinite value *)
  Definition nn_done (st : nnstate) : bool :=
    zEqual (fst (fst st)) (fst (snd st)) ztol ||
    match snd (fst st), snd (snd st) with Some a, Some b => zEqual a b ztol | _, _ => false end.
  (** zm_nurbs.c:288-306 *)
  Fixpoint nn_loop (iter : nat) (dist : T -> res T) (st : nnstate) : res nnstate :=
    match iter with
    | O => Ok st
    | S iter => st <- nn_pass dist st ;; if nn_done st then Ok st else nn_loop iter dist st
    end.
  Definition nearest (iter : nat) (dist : T -> res T) (s e : T) : res T :=
    st <- nn_loop iter dist ((s, None), (e, None)) ;;
    Ok (half * (fst (fst st) + fst (snd st))).

  (** zVecDist of vectors of the size of the first: src/zm_raw_vec.c:315-329 *)
  Definition vdist (v w : vec) : res T :=
    d <- for_ 0 (vlen v) (fun i d => a <- vget v i ;; b <- vget w i ;; Ok (d + (a - b) * (a - b))) 0 ;;
    Ok (ssqrt d).
  (** zm_nurbs.c:275-309: the parameter, and nn.  The work vector vs is set to zero by every zNURBSVec *)
  Definition zNURBSVecNN (iter : nat) (n : @nurbs T) (v nn : vec) : res (T * vec) :=
    s <- knot (nb_param n) (bp_order (nb_param n)) ;;
    e <- knot (nb_param n) (cpnum (nb_param n)) ;;
    sj <- nearest iter (fun sj => vs <- zNURBSVec ztol n sj (vzero (vlen v)) ;; vdist v vs) s e ;;
    nn <- zNURBSVec ztol n sj nn ;;
    Ok (sj, nn).
End Near.
