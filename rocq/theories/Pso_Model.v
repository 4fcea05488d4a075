(** Model of src/zm_opt_pso.c: particle swarm optimization.

    A vector is the list of its components; all vectors have the size [dim] of the answer (checked by zOptSolvePSO).  The function to be
    minimized is the parameter [f] (the pointer util is part of it).  Random numbers are parameters: [ri i k] is the k-th
    number drawn for the creation of the particle i, [ru n i j k] the k-th number drawn for the component j of the particle i
    in the round n.  zLimit of ZEDA is taken to evaluate its argument once.  Allocation succeeds. *)
From Coq Require Import List.
From Verif Require Import Prelude Scalar.
Import ListNotations.

Section Pso.
  Context {T : Type} {ST : Scalar T}.
  Local Open Scope S_scope.
  Variables (f : list T -> T) (dim : nat) (ri : nat -> nat -> T) (ru : nat -> nat -> nat -> nat -> T) (ztol : T).

  Definition el (v : list T) (i : nat) : T := nth i v 0.
  Definition vec (g : nat -> T) : list T := map g (List.seq 0 dim).

  (** 9-17; the working vectors dmybest and dbest are recomputed at each use *)
  Record particle := Particle { px : list T; pv : list T; mybest : list T; inertia : T; peval : T }.
  (** zRawVecInterDiv, zm_raw_vec.c *)
  Definition interdiv (a b : list T) (r : T) : list T := vec (fun i => el a i + r * (el b i - el a i)).
  (** 29-46; the inertia is drawn between 0.5 and 0.9 *)
  Definition _zOptPSOParticleCreate (i : nat) (mn mx vmn vmx : list T) : particle :=
    let x := interdiv mn mx (ri i 0) in
    Particle x (interdiv vmn vmx (ri i 1)) x (ri i 2) (f x).
  (** zLimit of ZEDA *)
  Definition zLimit (a lo hi : T) : T := if slt a lo then lo else if slt hi a then hi else a.
  (** 56-70: the component [j]: position and velocity *)
  Definition move (n i : nat) (p : particle) (mn mx vmn vmx best : list T) (c1 c2 : T) (j : nat) : T * T :=
    let v := zLimit (inertia p * el (pv p) j + c1 * ru n i j 0 * (el (mybest p) j - el (px p) j)
                     + c2 * ru n i j 1 * (el best j - el (px p) j)) (el vmn j) (el vmx j) in
    let x := el (px p) j + v in
    if slt (el mx j) x then (el mx j, sopp v)
    else if slt x (el mn j) then (el mn j, sopp v) else (x, v).
  (** 49-77 *)
  Definition _zOptPSOParticleUpdate (n i : nat) (p : particle) (mn mx vmn vmx best : list T) (c1 c2 : T) : particle * bool :=
    let x := vec (fun j => fst (move n i p mn mx vmn vmx best c1 c2 j)) in
    let v := vec (fun j => snd (move n i p mn mx vmn vmx best c1 c2 j)) in
    let e := f x in
    let '(b, e) := if slt e (peval p) then (x, e) else (mybest p, peval p) in
    (Particle x v b (inertia p) e, forallb (is_tol ztol) v).

  (** 80-87; best points to the vector mybest of a particle: it is the index of that particle *)
  Record swarm := Swarm { parts : list particle; c1 : T; c2 : T; best : nat; seval : T }.
  (** 93-106 *)
  Definition _zOptPSOSwarmFindBest (s : swarm) : res swarm :=
    p0 <- get (parts s) 0 ;;
    '(b, e) <- for_ 1 (length (parts s)) (fun i '(b, e) =>
      p <- get (parts s) i ;;
      Ok (if slt (peval p) e then (i, peval p) else (b, e))) (0%nat, peval p0) ;;
    Ok (Swarm (parts s) (c1 s) (c2 s) b e).
  (** 119-135 *)
  Definition _zOptPSOSwarmCreate (num : nat) (mn mx vmn vmx : list T) (k1 k2 : T) : res swarm :=
    _zOptPSOSwarmFindBest (Swarm (map (fun i => _zOptPSOParticleCreate i mn mx vmn vmx) (List.seq 0 num)) k1 k2 0 0).
  (** 138-148: the round [n]; true if all the particles are at rest *)
  Definition _zOptPSOSwarmUpdate (n : nat) (s : swarm) (mn mx vmn vmx : list T) : res (swarm * bool) :=
    s <- _zOptPSOSwarmFindBest s ;;
    '(ps, conv) <- for_ 0 (length (parts s)) (fun i '(ps, conv) =>
      p <- get ps i ;;
      b <- get ps (best s) ;;
      let '(p, t) := _zOptPSOParticleUpdate n i p mn mx vmn vmx (mybest b) (c1 s) (c2 s) in
      ps <- set ps i p ;;
      Ok (ps, conv && t)) (parts s, true) ;;
    Ok (Swarm ps (c1 s) (c2 s) (best s) (seval s), conv).
  (** 182-184: [k] rounds remain, the next is [i]; the return value and the swarm *)
  Fixpoint pso_loop (k i : nat) (s : swarm) (mn mx vmn vmx : list T) : res (nat * swarm) :=
    match k with
    | O => Ok (i, s)
    | S k => '(s, conv) <- _zOptPSOSwarmUpdate i s mn mx vmn vmx ;;
             if conv then Ok (i, s) else pso_loop k (S i) s mn mx vmn vmx
    end.
  (** 164-192; None is the return value -1; [zmax] is Z_MAX_ITER_NUM.  tol is not used. *)
  Definition zOptSolvePSO (zmax : nat) (mn mx : list T) (iter : nat) (tol : T) (num : nat) (k1 k2 vel_rate : T)
      : res (option (nat * list T * T)) :=
    if negb ((length mn =? dim)%nat && (length mx =? dim)%nat) then Ok None else
    let vmx := vec (fun i => (el mx i - el mn i) * vel_rate) in
    let vmn := vec (fun i => sopp (el vmx i)) in
    s <- _zOptPSOSwarmCreate num mn mx vmn vmx k1 k2 ;;
    let iter := match iter with O => zmax | _ => iter end in
    '(i, s) <- pso_loop iter 0 s mn mx vmn vmx ;;
    b <- get (parts s) (best s) ;;
    Ok (Some (i, mybest b, seval s)).
End Pso.
Arguments Particle {T}. Arguments Swarm {T}.
