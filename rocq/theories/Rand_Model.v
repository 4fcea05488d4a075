(** Model of src/zm_rand.c: random numbers of various distributions.

    The generator (ZEDA's Mersenne twister) is an arbitrary stream: [rn p], [ru p], [rf p] are what zRandMTN, zRandMTNU and
    zRandMTF(mt,0,1) return if the p-th number drawn is drawn by them.  An action takes the number of draws so far, and returns a
    value and the new number.  The functions of libm and zE, zPIx2, zTOL are parameters.  Two further outcomes: [Div0], a
    division by 0 (C goes on with an infinity or NaN), and [More], the rejection loop has not ended when the fuel is used up. *)
From Coq Require Import List ZArith.
From Verif Require Import Prelude Scalar.
Import ListNotations.

Inductive rnd (A : Type) := Val (a : A) (p : nat) | Div0 | More.
Arguments Val {A}. Arguments Div0 {A}. Arguments More {A}.
Definition act (A : Type) := nat -> rnd A.
Definition ret {A} (a : A) : act A := fun p => Val a p.
Definition more {A} : act A := fun _ => More.
Definition abind {A B} (x : act A) (f : A -> act B) : act B := fun p => match x p with Val a p => f a p | Div0 => Div0 | More => More end.
Notation "x <~ a ;; b" := (abind a (fun x => b)) (at level 61, a at next level, right associativity).
Notation "' p <~ a ;; b" := (abind a (fun p => b)) (at level 61, p pattern, a at next level, right associativity).

Section Rand.
  Context {T : Type} {ST : Scalar T}.
  Local Open Scope S_scope.
  Variables (rn ru rf : nat -> T).
  Variables (log exp sin cos : T -> T) (pow : T -> T -> T) (ceil : T -> Z) (zE pix2 ztol : T).
  Variable fuel : nat.
  Definition zRandMTN : act T := fun p => Val (rn p) (S p).
  Definition zRandMTNU : act T := fun p => Val (ru p) (S p).
  Definition zRandMTF01 : act T := fun p => Val (rf p) (S p).
  Definition sdivd (a b : T) : act T := fun p => if seq b 0 then Div0 else Val (a / b) p.
  Local Notation two := (sofZ 2).
  Local Notation half := (1 / sofZ 2).

  (** 23-26: the loop do ... while( x*x+y*y > 1 ) *)
  Fixpoint disk (r : act T) (k : nat) : act (T * T) :=
    match k with
    | O => more
    | S k => a <~ r ;; b <~ r ;; let x := 1 - a in let y := two * b - 1 in
             if slt 1 (x * x + y * y) then disk r k else ret (x, y)
    end.
  (** 22-29 *)
  Fixpoint gamma_pos (t a : T) (k : nat) : act (T * T) :=
    match k with
    | O => more
    | S k => '(x, y) <~ disk zRandMTN fuel ;; y <~ sdivd y x ;; let x := t * y + a in
             if sle x 0 then gamma_pos t a k else ret (x, y)
    end.
  (** 21-31 *)
  Fixpoint gamma_big (t a : T) (k : nat) : act T :=
    match k with
    | O => more
    | S k => '(x, y) <~ gamma_pos t a fuel ;; let u := a * log (x / a) - t * y in
             if slt u (sofZ (-50)) then gamma_big t a k
             else r <~ zRandMTN ;; if slt ((1 + y * y) * exp u) r then gamma_big t a k else ret x
    end.
  (** 34-42 *)
  Fixpoint gamma_small (t a : T) (k : nat) : act T :=
    match k with
    | O => more
    | S k => r <~ zRandMTN ;;
             xy <~ (if slt r t then s <~ zRandMTN ;; let x := pow s (1 / a) in ret (x, exp (- x))
                    else s <~ zRandMTN ;; let x := 1 - log (1 - s) in ret (x, pow x (a - 1))) ;;
             r <~ zRandMTN ;; if sle (snd xy) r then gamma_small t a k else ret (fst xy)
    end.
  (** 15-46 *)
  Definition zRandGamma (a : T) : act T :=
    if slt 1 a then let a := a - 1 in gamma_big (ssqrt (two * a + 1)) a fuel
    else gamma_small (zE / (a + zE)) a fuel.
  (** 49-52 *)
  Definition zRandChiSqr (nu : T) : act T := g <~ zRandGamma (half * nu) ;; ret (two * g).
  (** 55-61 *)
  Definition zRandBeta (a b : T) : act T := x <~ zRandGamma a ;; y <~ zRandGamma b ;; sdivd x (x + y).
  (** 64-71 *)
  Definition zRandFD (a b : T) : act T := x1 <~ zRandChiSqr a ;; x2 <~ zRandChiSqr b ;; sdivd (x1 * b) (x2 * a).
  (** 74-88; the argument is the stored number, present if nd_sw is set *)
  Definition zRandND0 (last : option T) : act (T * option T) :=
    match last with
    | None => r <~ zRandMTNU ;; s <~ zRandMTNU ;;
              let t := ssqrt (- two * log (1 - r)) in let u := pix2 * s in ret (t * cos u, Some (t * sin u))
    | Some x => ret (x, None)
    end.
  (** 91-94 *)
  Definition zRandND (mu sigma : T) (last : option T) : act (T * option T) := '(x, l) <~ zRandND0 last ;; ret (mu + sigma * x, l).
  (** 97-113 *)
  Fixpoint t_small (n : T) (k : nat) : act T :=
    match k with O => more | S k => a <~ zRandChiSqr n ;; if is_tol ztol a then t_small n k else ret a end.
  Fixpoint t_big (n : T) (last : option T) (k : nat) : act (T * T * option T) :=
    match k with
    | O => more
    | S k => '(a, last) <~ zRandND0 last ;; let b := a * a / (n - two) in
             r <~ zRandMTNU ;; let c := log (1 - r) / (1 - half * n) in
             if slt (1 - b) (exp (- b - c)) then t_big n last k else ret (a, b, last)
    end.
  Definition zRandT (n : T) (last : option T) : act (T * option T) :=
    if sle n two then a <~ t_small n fuel ;; '(x, last) <~ zRandND0 last ;; q <~ sdivd x (ssqrt (a / n)) ;; ret (q, last)
    else '(a, b, last) <~ t_big n last fuel ;; q <~ sdivd a (ssqrt ((1 - two / n) * (1 - b))) ;; ret (q, last).
  (** 118-121 *)
  Definition zRandExp : act T := r <~ zRandMTNU ;; ret (- log (1 - r)).
  (** 124-132 *)
  Fixpoint nottiny (k : nat) : act T := match k with O => more | S k => r <~ zRandMTNU ;; if is_tol ztol r then nottiny k else ret r end.
  Definition zRandLog : act T := r <~ nottiny fuel ;; q <~ sdivd r (1 - r) ;; ret (log q).
  (** 135-138 *)
  Definition zRandPower (n : T) : act T := r <~ zRandMTNU ;; e <~ sdivd 1 (n + 1) ;; ret (pow r e).
  (** 141-144; the order of the two draws is not determined *)
  Definition zRandTri : act T := a <~ zRandMTN ;; b <~ zRandMTN ;; ret (a - b).
  (** 147-156 *)
  Definition zRandCauchy : act T := '(x, y) <~ disk zRandMTF01 fuel ;; sdivd y x.
  (** 159-162 *)
  Definition zRandWeibull (alpha : T) : act T := r <~ zRandMTNU ;; e <~ sdivd 1 alpha ;; ret (pow (- log (1 - r)) e).
  (** 167-174 *)
  Fixpoint binom (n : nat) (p : T) (r : nat) : act nat :=
    match n with O => ret r | S n => x <~ zRandMTN ;; binom n p (if slt x p then S r else r) end.
  Definition zRandBinom (n : Z) (p : T) : act nat := binom (Z.to_nat n) p 0.
  (** 177-191 *)
  Fixpoint ring (k : nat) : act (T * T * T) :=
    match k with
    | O => more
    | S k => a <~ zRandMTNU ;; b <~ zRandMTNU ;; let r1 := two * a - 1 in let r2 := two * b - 1 in let s := r1 * r1 + r2 * r2 in
             if orb (slt 1 s) (is_tol ztol s) then ring k else ret (r1, r2, s)
    end.
  Definition zRandBinom2 (r : T) : act (T * T) :=
    '(r1, r2, s) <~ ring fuel ;; let s := - log s / s in
    let r1 := ssqrt ((1 + r) * s) * r1 in let r2 := ssqrt ((1 - r) * s) * r2 in ret (r1 + r2, r1 - r2).
  (** 194-202 *)
  Fixpoint poisson (lambda : T) (i k : nat) : act nat :=
    match k with O => more | S k => if slt 1 lambda then r <~ zRandMTF01 ;; poisson (lambda * r) (S i) k else ret i end.
  Definition zRandPoisson (lambda : T) : act nat := r <~ zRandMTF01 ;; poisson (exp lambda * r) 0 fuel.
  (** 205-208 *)
  Definition zRandGeo (p : T) : act Z := r <~ zRandMTNU ;; q <~ sdivd (log (1 - r)) (log (1 - p)) ;; ret (ceil q).
End Rand.
