(** What a program does for all small tolerances.  [ev F v]: F t is v for all t of an interval (0,d];
    [st F]: moreover v is F 0.  Used to carry over the theorems about exact arithmetic without a tolerance. *)
From Coq Require Import Reals Lra.
From Verif Require Import Prelude Scalar RealLib Fmat LE_Model.
Local Open Scope R_scope.

Definition ev {X} (F : R -> X) (v : X) : Prop := exists d, 0 < d /\ forall t, 0 < t <= d -> F t = v.
Definition evx {X} (F : R -> X) : Prop := exists v, ev F v.
Definition st {X} (F : R -> X) : Prop := ev F (F 0).

Lemma ev_const {X} (v : X) : ev (fun _ => v) v. Proof. exists 1. split; [lra|auto]. Qed.
Lemma ev_both {X Y} (F : R -> X) (G : R -> Y) u v : ev F u -> ev G v -> exists d, 0 < d /\ forall t, 0 < t <= d -> F t = u /\ G t = v.
Proof.
  intros (d & D & H) (e & E & K). exists (Rmin d e). split; [now apply Rmin_pos|]. intros t (T1 & T2). pose proof (Rmin_l d e). pose proof (Rmin_r d e).
  split; [apply H|apply K]; lra.
Qed.
Lemma ev_bind {X Y} (F : R -> res X) (G : R -> X -> res Y) x v : ev F (Ok x) -> ev (fun t => G t x) v -> ev (fun t => bind (F t) (G t)) v.
Proof. intros H K. destruct (ev_both _ _ _ _ H K) as (d & D & P). exists d. split; auto. intros t Ht. destruct (P t Ht) as (-> & E). exact E. Qed.
Lemma ev_bind_UB {X Y} (F : R -> res X) (G : R -> X -> res Y) : ev F UB -> ev (fun t => bind (F t) (G t)) UB.
Proof. intros (d & D & P). exists d. split; auto. intros t Ht. now rewrite P. Qed.
Lemma ev_map {X Y} (f : X -> Y) (F : R -> X) v : ev F v -> ev (fun t => f (F t)) (f v).
Proof. intros (d & D & P). exists d. split; auto. intros t Ht. now rewrite P. Qed.
Lemma ev_ext {X} (F G : R -> X) v : (forall t, F t = G t) -> ev F v -> ev G v.
Proof. intros E (d & D & P). exists d. split; auto. intros t Ht. rewrite <- E. auto. Qed.
Lemma ev_unique {X} (F : R -> X) u v : ev F u -> ev F v -> u = v.
Proof. intros H K. destruct (ev_both _ _ _ _ H K) as (d & D & P). destruct (P d) as (<- & <-); auto. lra. Qed.

Lemma st_evx {X} (F : R -> X) : st F -> evx F. Proof. intros H. now exists (F 0). Qed.
Lemma st_const {X} (v : X) : st (fun _ => v). Proof. apply ev_const. Qed.
Lemma st_map {X Y} (f : X -> Y) (F : R -> X) : st F -> st (fun t => f (F t)). Proof. apply (ev_map f F). Qed.
Lemma st_bind {X Y} (F : R -> res X) (G : R -> X -> res Y) : st F -> (forall x, st (fun t => G t x)) -> st (fun t => bind (F t) (G t)).
Proof.
  intros H K. unfold st in *. destruct (F 0) as [x|]; cbn [bind].
  - apply ev_bind with (1 := H). apply K.
  - now apply ev_bind_UB.
Qed.
Lemma st_loop {S} (f : R -> nat -> S -> res S) : (forall i s, st (fun t => f t i s)) -> forall n i s, st (fun t => loop n i (f t) s).
Proof. intros H. induction n as [|n IH]; intros i s; cbn [loop]; [apply st_const|]. apply st_bind; auto. Qed.
Lemma st_for {S} (f : R -> nat -> S -> res S) lo hi s : (forall i s, st (fun t => f t i s)) -> st (fun t => for_ lo hi (f t) s).
Proof. intros H. unfold for_. now apply st_loop. Qed.
Lemma st_loopb {S X} (f : R -> nat -> S -> res (S + X)) : (forall i s, st (fun t => f t i s)) -> forall n i s, st (fun t => loopb n i (f t) s).
Proof. intros H. induction n as [|n IH]; intros i s; cbn [loopb]; [apply st_const|]. apply st_bind; auto. intros [|]; auto. apply st_const. Qed.
Lemma st_forb {S X} (f : R -> nat -> S -> res (S + X)) lo hi s : (forall i s, st (fun t => f t i s)) -> st (fun t => forb lo hi (f t) s).
Proof. intros H. unfold forb. now apply st_loopb. Qed.
Lemma st_is_tol x : st (fun t => is_tol t x).
Proof.
  unfold st. destruct (is_tol 0 x) eqn:E.
  - apply is_tol_0 in E. subst x. exists 1. split; [lra|]. intros t Ht. rewrite is_tol_R, Rabs_R0. destruct (Rleb_spec 0 t); auto; lra.
  - assert (N : x <> 0) by (intros ->; rewrite (proj2 (is_tol_0 0) eq_refl) in E; discriminate). pose proof (Rabs_pos_lt x N).
    exists (Rabs x / 2). split; [lra|]. intros t Ht. rewrite is_tol_R. destruct (Rleb_spec (Rabs x) t); auto; lra.
Qed.
Lemma st_if {X} (P : R -> bool) (F G : R -> X) : st P -> st F -> st G -> st (fun t => if P t then F t else G t).
Proof.
  intros (d & D & H) K L. unfold st. destruct (P 0) eqn:E.
  - destruct K as (e & E1 & K). exists (Rmin d e). split; [now apply Rmin_pos|]. intros t (T1 & T2). pose proof (Rmin_l d e). pose proof (Rmin_r d e). rewrite H, K by lra. auto.
  - destruct L as (e & E1 & L). exists (Rmin d e). split; [now apply Rmin_pos|]. intros t (T1 & T2). pose proof (Rmin_l d e). pose proof (Rmin_r d e). rewrite H, L by lra. auto.
Qed.

Lemma evx_const {X} (v : X) : evx (fun _ => v). Proof. exists v. apply ev_const. Qed.
Lemma evx_map {X Y} (f : X -> Y) (F : R -> X) : evx F -> evx (fun t => f (F t)). Proof. intros (v & H). exists (f v). now apply ev_map. Qed.
Lemma evx_bind {X Y} (F : R -> res X) (G : R -> X -> res Y) : evx F -> (forall x, evx (fun t => G t x)) -> evx (fun t => bind (F t) (G t)).
Proof.
  intros ([x|] & H) K.
  - destruct (K x) as (v & E). exists v. now apply ev_bind with (x := x).
  - exists UB. now apply ev_bind_UB.
Qed.
Lemma evx_loop {S} (f : R -> nat -> S -> res S) : (forall i s, evx (fun t => f t i s)) -> forall n i s, evx (fun t => loop n i (f t) s).
Proof. intros H. induction n as [|n IH]; intros i s; cbn [loop]; [apply evx_const|]. apply evx_bind; auto. Qed.
Lemma evx_for {S} (f : R -> nat -> S -> res S) lo hi s : (forall i s, evx (fun t => f t i s)) -> evx (fun t => for_ lo hi (f t) s).
Proof. intros H. unfold for_. now apply evx_loop. Qed.
Lemma evx_loopb {S X} (f : R -> nat -> S -> res (S + X)) : (forall i s, evx (fun t => f t i s)) -> forall n i s, evx (fun t => loopb n i (f t) s).
Proof. intros H. induction n as [|n IH]; intros i s; cbn [loopb]; [apply evx_const|]. apply evx_bind; auto. intros [|]; auto. apply evx_const. Qed.
Lemma evx_forb {S X} (f : R -> nat -> S -> res (S + X)) lo hi s : (forall i s, evx (fun t => f t i s)) -> evx (fun t => forb lo hi (f t) s).
Proof. intros H. unfold forb. now apply evx_loopb. Qed.
Lemma evx_if {X} (P : R -> bool) (F G : R -> X) : evx P -> evx F -> evx G -> evx (fun t => if P t then F t else G t).
Proof.
  intros (b & d & D & H) K L. destruct b.
  - destruct K as (v & e & E1 & K). exists v, (Rmin d e). split; [now apply Rmin_pos|]. intros t (T1 & T2). pose proof (Rmin_l d e). pose proof (Rmin_r d e). rewrite H, K by lra. auto.
  - destruct L as (v & e & E1 & L). exists v, (Rmin d e). split; [now apply Rmin_pos|]. intros t (T1 & T2). pose proof (Rmin_l d e). pose proof (Rmin_r d e). rewrite H, L by lra. auto.
Qed.
Lemma evx_is_tol x : evx (fun t => is_tol t x). Proof. apply st_evx, st_is_tol. Qed.
Lemma evx_lt x : evx (fun t => slt x t).
Proof.
  destruct (Rlt_le_dec 0 x) as [P|P].
  - exists false, (x / 2). split; [lra|]. intros t Ht. cbn. destruct (Rltb_spec x t); auto; lra.
  - exists true, 1. split; [lra|]. intros t Ht. cbn. destruct (Rltb_spec x t); auto; lra.
Qed.
Lemma evx_lt_opp x : evx (fun t => slt x (sopp t)).
Proof.
  destruct (Rlt_le_dec x 0) as [P|P].
  - exists true, (- x / 2). split; [lra|]. intros t Ht. cbn. destruct (Rltb_spec x (- t)); auto; lra.
  - exists false, 1. split; [lra|]. intros t Ht. cbn. destruct (Rltb_spec x (- t)); auto; lra.
Qed.

Ltac stab := repeat (cbv beta; first
  [ apply st_const | apply st_is_tol
  | match goal with |- st (fun t => match ?x with _ => _ end) => destruct x end
  | apply st_for; intros | apply st_forb; intros | apply st_bind; intros | apply st_if ]).
Ltac evtac := repeat (cbv beta; first
  [ apply evx_const | apply evx_is_tol | apply evx_lt | apply evx_lt_opp
  | apply evx_for; intros | apply evx_forb; intros | apply evx_bind; intros
  | match goal with |- evx (fun t => match ?x with _ => _ end) => destruct x end
  | apply evx_if ]).

(** ** the solvers of linear equations *)
Lemma st_forward n a b idx : st (fun t => gauss_forward t n a b idx).
Proof. unfold gauss_forward. stab. Qed.
Lemma st_mul_inv m1 m2 ans idx s : st (fun t => mul_inv_mat t m1 m2 ans idx s).
Proof.
  unfold mul_inv_mat. apply st_bind; [apply st_const|]. intros [[a b] s']. apply st_bind; [apply st_forward|]. intros x. stab.
Qed.
Lemma st_gaussDST a b ans idx s : st (fun t => zLESolveGaussDST t a b ans idx s).
Proof. unfold zLESolveGaussDST. apply (st_map (rmap (option_map of_col))). apply st_mul_inv. Qed.
Lemma st_gauss a b ans : st (fun t => zLESolveGauss t a b ans).
Proof. unfold zLESolveGauss. stab; try apply st_gaussDST. Qed.
Lemma st_mulinv a b ans : st (fun t => zMulInvMatMat t a b ans).
Proof. unfold zMulInvMatMat, zMulInvMatMatNC. stab; try apply st_mul_inv. Qed.
Lemma st_matinv m im : st (fun t => zMatInv t m im).
Proof. unfold zMatInv, zMulInvMatMatNC. stab; try apply st_mul_inv. Qed.
Lemma st_mulmatinv m1 m2 m : st (fun t => zMulMatInvMat t m1 m2 m).
Proof. unfold zMulMatInvMat. stab; apply (st_map (rmap (option_map transpose))), st_mul_inv. Qed.
