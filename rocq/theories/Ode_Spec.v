(** What a numerical solver of a differential equation is expected to do, independent of the code. *)
From Coq Require Import Reals.
From Coquelicot Require Import Coquelicot.
From Verif Require Import Prelude Scalar RealLib Fmat Pex_Spec.
Local Open Scope R_scope.

(** equality of the first [n] elements *)
Definition veq (n : nat) (x y : fvec R) : Prop := forall i, (i < n)%nat -> vel x i = vel y i.

(** A Runge-Kutta method: number of stages, coefficients, weights and nodes. *)
Record tableau := Tab { stages : nat; ta : nat -> nat -> R; tb : nat -> R; tc : nat -> R }.
Definition tab_of (a : list (list R)) (b c : list R) : tableau :=
  Tab (length b) (fun i j => nth j (nth i a []) 0) (fun i => nth i b 0) (fun i => nth i c 0).

(** [x'] is one step of the method from [x] at [t]:
    k_j = f( t + c_j dt, x + dt sum_l a_jl k_l ),  x' = x + dt sum_j b_j k_j. *)
Definition rk_step (n : nat) (f : R -> fvec R -> fvec R) (m : tableau) (t : R) (x : fvec R) (dt : R) (x' : fvec R)
    : Prop :=
  exists k : nat -> fvec R,
    (forall j, (j < stages m)%nat ->
       veq n (k j) (f (t + tc m j * dt)
                      (FV n (fun i => vel x i + dt * rsum (stages m) (fun l => ta m j l * vel (k l) i))))) /\
    (forall i, (i < n)%nat -> vel x' i = vel x i + dt * rsum (stages m) (fun j => tb m j * vel (k j) i)).

(** The right-hand side looks only at the elements of its argument. *)
Definition ext_rhs (n : nat) (f : R -> fvec R -> fvec R) : Prop :=
  forall t x y, veq n x y -> veq n (f t x) (f t y).

(** Butcher's order conditions. *)
Section Cond.
  Variable m : tableau.
  Local Notation S_ := (rsum (stages m)).
  (** (a v)_i *)
  Definition am (v : nat -> R) (i : nat) : R := S_ (fun j => ta m i j * v j).
  Definition bdot (v : nat -> R) : R := S_ (fun i => tb m i * v i).
  Definition row_sums : Prop := forall i, (i < stages m)%nat -> tc m i = am (fun _ => 1) i.
  Let c := tc m.
  Let ac := am c.
  Definition order1 : Prop := bdot (fun _ => 1) = 1.
  Definition order2 : Prop := order1 /\ bdot c = 1 / 2.
  Definition order3 : Prop := order2 /\ bdot (fun i => c i ^ 2) = 1 / 3 /\ bdot ac = 1 / 6.
  Definition order4 : Prop := order3 /\
    bdot (fun i => c i ^ 3) = 1 / 4 /\ bdot (fun i => c i * ac i) = 1 / 8 /\
    bdot (am (fun i => c i ^ 2)) = 1 / 12 /\ bdot (am ac) = 1 / 24.
  Definition order5 : Prop := order4 /\
    bdot (fun i => c i ^ 4) = 1 / 5 /\ bdot (fun i => c i ^ 2 * ac i) = 1 / 10 /\
    bdot (fun i => c i * am (fun j => c j ^ 2) i) = 1 / 15 /\
    bdot (fun i => c i * am ac i) = 1 / 30 /\ bdot (fun i => ac i ^ 2) = 1 / 20 /\
    bdot (am (fun i => c i ^ 3)) = 1 / 20 /\ bdot (am (fun i => c i * ac i)) = 1 / 40 /\
    bdot (am (am (fun i => c i ^ 2))) = 1 / 60 /\ bdot (am (am ac)) = 1 / 120.
End Cond.

(** The right-hand side given by one polynomial of t for each element. *)
Definition poly_rhs (n : nat) (p : nat -> list R) (t : R) (x : fvec R) : fvec R :=
  FV n (fun i => peval (p i) t).
(** The linear system x' = A x, and A^k x. *)
Definition lin_rhs (n : nat) (A : nat -> nat -> R) (t : R) (x : fvec R) : fvec R :=
  FV n (fun i => rsum n (fun j => A i j * vel x j)).
Fixpoint apow (n : nat) (A : nat -> nat -> R) (k : nat) (x : nat -> R) : nat -> R :=
  match k with
  | O => x
  | S k => fun i => rsum n (fun j => A i j * apow n A k x j)
  end.

(** The methods in the literature. *)
Definition tabEuler := tab_of [[0]] [1] [0].
Definition tabHeun3 := tab_of [[0;0;0]; [1/3;0;0]; [0;2/3;0]] [1/4;0;3/4] [0;1/3;2/3].
Definition tabRK4 := tab_of [[0;0;0;0]; [1/2;0;0;0]; [0;1/2;0;0]; [0;0;1;0]] [1/6;1/3;1/3;1/6] [0;1/2;1/2;1].
Definition tabGill :=
  let s := R_sqrt.sqrt 2 in
  tab_of [[0;0;0;0]; [1/2;0;0;0]; [(s-1)/2; (2-s)/2;0;0]; [0; -s/2; (2+s)/2; 0]]
         [1/6; (2-s)/6; (2+s)/6; 1/6] [0;1/2;1/2;1].
(** Fehlberg 4(5); the higher-order weights *)
Definition rkfA := [[0;0;0;0;0;0]; [1/4;0;0;0;0;0]; [3/32;9/32;0;0;0;0]; [1932/2197;-7200/2197;7296/2197;0;0;0];
   [439/216;-8;3680/513;-845/4104;0;0]; [-8/27;2;-3544/2565;1859/4104;-11/40;0]].
Definition rkfC := [0;1/4;3/8;12/13;1;1/2].
Definition tabRKF5 := tab_of rkfA [16/135;0;6656/12825;28561/56430;-9/50;2/55] rkfC.
Definition tabRKF4 := tab_of rkfA [25/216;0;1408/2565;2197/4104;-1/5;0] rkfC.
(** Cash-Karp; the fifth-order and the fourth-order weights *)
Definition ckA := [[0;0;0;0;0;0]; [1/5;0;0;0;0;0]; [3/40;9/40;0;0;0;0]; [3/10;-9/10;6/5;0;0;0];
   [-11/54;5/2;-70/27;35/27;0;0]; [1631/55296;175/512;575/13824;44275/110592;253/4096;0]].
Definition ckC := [0;1/5;3/10;3/5;1;7/8].
Definition tabCK5 := tab_of ckA [37/378;0;250/621;125/594;0;512/1771] ckC.
Definition tabCK4 := tab_of ckA [2825/27648;0;18575/48384;13525/55296;277/14336;1/4] ckC.
(** Dormand-Prince 5(4) *)
Definition dpA := [[0;0;0;0;0;0;0]; [1/5;0;0;0;0;0;0]; [3/40;9/40;0;0;0;0;0]; [44/45;-56/15;32/9;0;0;0;0];
   [19372/6561;-25360/2187;64448/6561;-212/729;0;0;0]; [9017/3168;-355/33;46732/5247;49/176;-5103/18656;0;0];
   [35/384;0;500/1113;125/192;-2187/6784;11/84;0]].
Definition dpC := [0;1/5;3/10;4/5;8/9;1;1].
Definition tabDP5 := tab_of dpA [35/384;0;500/1113;125/192;-2187/6784;11/84;0] dpC.
Definition tabDP4 := tab_of dpA [5179/57600;0;7571/16695;393/640;-92097/339200;187/2100;1/40] dpC.
(** implicit methods *)
Definition tabBEuler := tab_of [[1]] [1] [1].
Definition tabTR := tab_of [[0;0]; [1/2;1/2]] [1/2;1/2] [0;1].
Definition tabGauss :=
  let s := R_sqrt.sqrt 3 / 6 in
  tab_of [[1/4; 1/4+s]; [1/4-s; 1/4]] [1/2;1/2] [1/2+s;1/2-s].
Definition tabRadau := tab_of [[5/12;-1/12]; [3/4;1/4]] [3/4;1/4] [1/3;1].

(** A sequence of steps that covers [t, t+dt] without gap: (start, length) of each. *)
Fixpoint covers (t : R) (l : list (R * R)) (t' : R) : Prop :=
  match l with
  | [] => t = t'
  | (u, h) :: l => u = t /\ covers (t + h) l t'
  end.

(** The integral of interpolants of a sampled signal: [l] is the list of (sample, time from the
    previous sample) after the first sample [x] at [t]. *)
Definition line (t0 x0 t1 x1 u : R) : R := x0 + (x1 - x0) / (t1 - t0) * (u - t0).
Definition parab (t0 x0 t1 x1 t2 x2 u : R) : R :=
  x0 * ((u - t1) * (u - t2) / ((t0 - t1) * (t0 - t2))) +
  x1 * ((u - t0) * (u - t2) / ((t1 - t0) * (t1 - t2))) +
  x2 * ((u - t0) * (u - t1) / ((t2 - t0) * (t2 - t1))).
Fixpoint stepI (t x : R) (l : list (R * R)) : R :=
  match l with
  | [] => 0
  | (x1, h) :: l => RInt (fun _ => x) t (t + h) + stepI (t + h) x1 l
  end.
Fixpoint lineI (t x : R) (l : list (R * R)) : R :=
  match l with
  | [] => 0
  | (x1, h) :: l => RInt (line t x (t + h) x1) t (t + h) + lineI (t + h) x1 l
  end.
(** parabolas through the last three samples *)
Fixpoint parabI (t0 x0 t x : R) (l : list (R * R)) : R :=
  match l with
  | [] => 0
  | (x1, h) :: l => RInt (parab t0 x0 t x (t + h) x1) t (t + h) + parabI t x (t + h) x1 l
  end.
(** The samples of [F] with the given intervals. *)
Fixpoint sample (F : R -> R) (t : R) (hs : list R) : list (R * R) :=
  match hs with [] => [] | h :: hs => (F (t + h), h) :: sample F (t + h) hs end.
Fixpoint hsum (hs : list R) : R := match hs with [] => 0 | h :: hs => h + hsum hs end.
