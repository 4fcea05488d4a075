(** C108: linear programming in two variables by the method of Megiddo and Dyer. *)
From Coq Require Import Reals Lra Permutation QArith.
From Verif Require Import Prelude Scalar RealLib Mega_Model Mega_Spec Mega_Proofs Mega2_Proofs Mega3_Proofs Mega4_Proofs Mega5_Proofs Stab_Proofs.
Local Open Scope R_scope.

(** What the answers of the solvers mean ([answer] is what the program reports):
    - true with (x1, x2) and the cost: (x1, x2) is a minimum under the constraints and the cost is its cost,
    - "infinite solution": from every feasible point one can go to infinity without leaving the feasible region or increasing the cost,
    - "unsolvable": no point satisfies the constraints;
    - "not unique", and running out of fuel, do not happen. *)
Definition answer_meaning (k1 k2 : R) (cs : list (R * R * R)) (a : @answer R) : Prop :=
  match a with
  | Found x1 x2 cost => optimal2 k1 k2 cs x1 x2 /\ cost = k1 * x1 + k2 * x2
  | InfiniteSolution => endless2 k1 k2 cs
  | Unsolvable => forall x1 x2, ~ feasible2 cs x1 x2
  | NonUnique | OutOfFuel => False
  end.

(** The function that picks a median (of ZEDA): it permutes the list and answers an element of it, none if it is empty. *)
Definition picks (median : list (@pair R) -> option (@pair R * list (@pair R))) : Prop :=
  median [] = None /\ forall ps, ps <> [] -> exists q ps', median ps = Some (q, ps') /\ In q ps /\ Permutation ps ps'.

Lemma small_0 {X} (F : R -> X) (P : X -> Prop) : st F -> P (F 0) -> exists d, 0 < d /\ forall t, 0 <= t <= d -> P (F t).
Proof.
  intros (d & D & H) K. exists d. split; auto. intros t (T1 & T2). destruct (Req_dec t 0) as [->|N]; auto. rewrite H; auto. lra.
Qed.

(** Any cost with a nonzero second coefficient, any constraints that are not vertical (any number, in any order), whatever element the
    median function picks: for all tolerances from 0 up to some positive one, every call of the flow
    succeeds and zLPMegiddoDyerSolve answers rightly. *)
Theorem C108_solve_partial : forall median, picks median -> forall k1 k2 cs, k2 <> 0 ->
  (forall a1 a2 b, In (a1, a2, b) cs -> a2 <> 0) ->
  exists d, 0 < d /\ forall t, 0 <= t <= d ->
    exists p a q, build t k1 k2 cs = (true, p) /\ zLPMegiddoDyerSolve t median p = Ok (a, q) /\ answer_meaning k1 k2 cs a.
Proof.
  intros median MED k1 k2 cs K2 SL.
  set (F := fun t => (build t k1 k2 cs, zLPMegiddoDyerSolve t median (snd (build t k1 k2 cs)))).
  assert (SF : st F).
  { apply (st_comp (fun t => build t k1 k2 cs) (fun t b => (b, zLPMegiddoDyerSolve t median (snd b)))); [apply st_build|]. intros b. apply (st_map (fun s => (b, s))). apply st_solve. }
  destruct (small_0 F (fun z => exists p a q, fst z = (true, p) /\ snd z = Ok (a, q) /\ answer_meaning k1 k2 cs a) SF) as (d & D & H).
  - pose proof (build_slanted k1 k2 cs K2 SL) as BS. pose proof (build_ok k1 k2 cs K2) as BO. unfold F. destruct (build 0 k1 k2 cs) as [ok p]. cbn in BS. subst ok. cbn [fst snd].
    destruct BO as (B & NV & LS). destruct (NV SL) as (X1 & X2).
    assert (LS' : last_slanted cs) by (intros cs' a1 a2 b ->; apply (SL a1 a2 b), in_app_iff; right; now left). destruct (LS LS') as (FP & FN).
    destruct (solve_final k1 k2 K2 cs p B median MED X1 X2) as (a & q & E & M). exists p, a, q. split; auto. split; auto.
    destruct M as [M|(-> & [G|G])]; [destruct a; exact M| |].
    + apply (endless_pos k1 k2 K2 cs p B). congruence.
    + apply (endless_neg k1 k2 K2 cs p B). congruence.
  - exists d. split; auto. intros t T. destruct (H t T) as (p & a & q & E1 & E2 & M). unfold F in E1, E2. cbn [fst snd] in E1, E2. exists p, a, q. rewrite E1 in E2. cbn in E2. auto.
Qed.

(** zLPMegiddoDyerSolveDirect, with vertical constraints too: if every call of the flow succeeds, an answer true is a minimum, an
    answer "unsolvable" means that no point satisfies the constraints, and "infinite solution" is right if the constraint added last is not vertical.
    If a call fails, one of the constraints has no variable in it, or no point satisfies the constraints. *)
Theorem C108_direct_partial : forall k1 k2 cs, k2 <> 0 ->
  exists d, 0 < d /\ forall t, 0 <= t <= d ->
    match build t k1 k2 cs with
    | (true, p) => match zLPMegiddoDyerSolveDirect t p with
        | InfiniteSolution => (forall cs' a1 a2 b, cs = cs' ++ [(a1, a2, b)] -> a2 <> 0) -> endless2 k1 k2 cs
        | a => answer_meaning k1 k2 cs a
        end
    | (false, _) => (exists b, In (0, 0, b) cs) \/ forall x1 x2, ~ feasible2 cs x1 x2
    end.
Proof.
  intros k1 k2 cs K2.
  set (F := fun t => (build t k1 k2 cs, zLPMegiddoDyerSolveDirect t (snd (build t k1 k2 cs)))).
  assert (SF : st F).
  { apply (st_comp (fun t => build t k1 k2 cs) (fun t b => (b, zLPMegiddoDyerSolveDirect t (snd b)))); [apply st_build|]. intros b. apply (st_map (fun s => (b, s))). apply st_solve_direct. }
  destruct (small_0 F (fun z => match fst z with
    | (true, p) => match snd z with
        | InfiniteSolution => (forall cs' a1 a2 b, cs = cs' ++ [(a1, a2, b)] -> a2 <> 0) -> endless2 k1 k2 cs
        | a => answer_meaning k1 k2 cs a
        end
    | (false, _) => (exists b, In (0, 0, b) cs) \/ forall x1 x2, ~ feasible2 cs x1 x2
    end) SF) as (d & D & H).
  - pose proof (build_ok k1 k2 cs K2) as BO. unfold F. cbn [fst snd]. destruct (build 0 k1 k2 cs) as [[|] p]; [|exact BO]. cbn [snd].
    destruct BO as (B & NV & LS). destruct (direct_final k1 k2 K2 cs p B) as [M|(E & G)].
    + destruct (zLPMegiddoDyerSolveDirect 0 p); try exact M. intros _. exact M.
    + rewrite E. intros L. destruct (LS L) as (FP & FN). destruct G as [G|G]; [apply (endless_pos k1 k2 K2 cs p B)|apply (endless_neg k1 k2 K2 cs p B)]; congruence.
  - exists d. split; auto. intros t T. specialize (H t T). unfold F in H. cbn [fst snd] in H. destruct (build t k1 k2 cs) as [ok p]. exact H.
Qed.

(** With at most four constraints that are not vertical the two solvers are the same (any number system, any tolerance). *)
Theorem C108_few {T} {ST : Scalar T} : forall (tol : T) median (p : @lp T),
  (length (lst (up p)) + length (lst (lo p)) <= 4)%nat ->
  zLPMegiddoDyerSolve tol median p = Ok (zLPMegiddoDyerSolveDirect tol p, p).
Proof.
  intros tol median p H. unfold zLPMegiddoDyerSolve, zLPMegiddoDyerSolveDirect. destruct (check_feasibility p); auto.
  apply Nat.leb_le in H. destruct (length (lst (up p)) + length (lst (lo p)))%nat eqn:E; cbn [solve_loop]; rewrite E, H; reflexivity.
Qed.

(** ** exact rational examples; the median is the middle of the sorted list *)
Section Examples.
  Local Open Scope Q_scope.
  Fixpoint ins (q : @pair Q) (l : list (@pair Q)) := match l with [] => [q] | r :: t => if Qle_bool (px q) (px r) then q :: l else r :: ins q t end.
  Definition med (l : list (@pair Q)) := let s := fold_right ins [] l in match nth_error s (length s / 2) with Some m => Some (m, s) | None => None end.
  Definition run cs := let '(ok, p) := build (0 : Q) 0 1 cs in (ok, rmap fst (zLPMegiddoDyerSolve (0 : Q) med p), zLPMegiddoDyerSolveDirect (0 : Q) p).
  (** x2 >= m x1 + y, x2 <= m x1 + y *)
  Definition above m y : Q * Q * Q := (m, - (1), - y).
  Definition below m y : Q * Q * Q := (- m, 1, y).

  (** five lower bounds *)
  Definition five := [above 1 0; above (- (1)) 0; above 2 (- (1)); above (- (2)) (- (1)); above (1 # 2) 1].
  (** seven lower bounds: the method has to discard *)
  Definition seven := [above (- (1)) 0; above (- (2)) (- (3)); above (- (3)) (- (8)); above (- (1 # 2)) (- (1)); above (- (1 # 3)) (- (2)); above (- (4)) (- (20)); above 1 (- (10))].

  Example C108_ex_five : run five = (true, Ok (Found (- (2) # 3) (2 # 3) (2 # 3)), Found (- (2) # 3) (2 # 3) (2 # 3)).
  Proof. vm_compute. reflexivity. Qed.
  Example C108_ex_seven : run seven = (true, Ok (Found 6 (- (4)) (- (4))), Found 6 (- (4)) (- (4)))
    /\ exists q, zLPMegiddoDyerSolve (0 : Q) med (snd (build (0 : Q) 0 1 seven)) = Ok (Found 6 (- (4)) (- (4)), q) /\ xmin q = Some (- (2)) /\ (length (lst (lo q)) < 7)%nat.
  Proof. split; [vm_compute; reflexivity|]. eexists. split; [vm_compute; reflexivity|]. split; [reflexivity|cbn; lia]. Qed.
  Example C108_ex_infeasible : run (seven ++ [below 0 (- (5))]) = (true, Ok Unsolvable, Unsolvable).
  Proof. vm_compute. reflexivity. Qed.
  Example C108_ex_infinite : run [above 1 0; above 2 3] = (true, Ok InfiniteSolution, InfiniteSolution).
  Proof. vm_compute. reflexivity. Qed.

  (** Refuted: the order of the constraints does not matter.  min x2 under x2 >= x1 and x1 >= 0 has the solution (0, 0), found
      if the vertical constraint comes first; in the other order both solvers answer "infinite solution". *)
  Theorem C108_order_refuted : run [(- (1), 0, 0); above 1 0] = (true, Ok (Found 0 0 0), Found 0 0 0)
    /\ run [above 1 0; (- (1), 0, 0)] = (true, Ok InfiniteSolution, InfiniteSolution)
    /\ optimal2 0 1 [(1, -1, 0)%R; (-1, 0, 0)%R] 0 0 /\ ~ endless2 0 1 [(1, -1, 0)%R; (-1, 0, 0)%R].
  Proof.
    split; [vm_compute; reflexivity|]. split; [vm_compute; reflexivity|]. split.
    - split.
      + intros a1 a2 b [E|[E|[]]]; injection E as <- <- <-; lra.
      + intros z1 z2 F. pose proof (F 1 (-1) 0 (or_introl eq_refl))%R. pose proof (F (-1) 0 0 (or_intror (or_introl eq_refl)))%R. lra.
    - intros (d1 & d2 & N & C & H). assert (F0 : feasible2 [(1, -1, 0)%R; (-1, 0, 0)%R] 0 0) by (intros a1 a2 b [E|[E|[]]]; injection E as <- <- <-; lra).
      assert (T1 : (0 <= 1)%R) by lra. pose proof (H 0 0 1 F0 T1)%R as F. pose proof (F 1 (-1) 0 (or_introl eq_refl))%R. pose proof (F (-1) 0 0 (or_intror (or_introl eq_refl)))%R. lra.
  Qed.

  (** Refuted: zLPMegiddoDyerSolve keeps the vertical constraints.  With five more constraints and x1 <= -10 it answers a point that violates x1 <= -10;
      with x1 >= 10 it answers that there is no solution.  zLPMegiddoDyerSolveDirect solves both. *)
  Theorem C108_bound_refuted :
    run ((1, 0, - (10)) :: five) = (true, Ok (Found (- (2) # 3) (2 # 3) (2 # 3)), Found (- (10)) 19 19)
    /\ ~ (1 * (- (2) # 3) + 0 * (2 # 3) <= - (10))
    /\ run ((- (1), 0, - (10)) :: five) = (true, Ok Unsolvable, Found 10 19 19).
  Proof. split; [vm_compute; reflexivity|]. split; [intros H; vm_compute in H; apply H; reflexivity|]. vm_compute. reflexivity. Qed.

  (** Refuted: a constraint can be added after solving.  The bounds of x found by the first call remain: with x2 >= 50 x1 + 300 added the
      second call answers the cost 200, although a new problem with the same constraints has the minimum 500/53. *)
  Theorem C108_again_refuted : exists q r,
    zLPMegiddoDyerSolve (0 : Q) med (snd (build (0 : Q) 0 1 seven)) = Ok (Found 6 (- (4)) (- (4)), q)
    /\ add_constraint (0 : Q) q 50 (- (1)) (- (300)) = (true, r)
    /\ rmap fst (zLPMegiddoDyerSolve (0 : Q) med r) = Ok (Found (- (2)) 200 200)
    /\ run (seven ++ [above 50 300]) = (true, Ok (Found (- (308) # 53) (500 # 53) (500 # 53)), Found (- (308) # 53) (500 # 53) (500 # 53)).
  Proof. eexists _, _. split; [vm_compute; reflexivity|]. split; [vm_compute; reflexivity|]. split; vm_compute; reflexivity. Qed.

  (** Refuted: "infinite solution" only if there is no minimum: min x2 under x2 >= 0 has the minimum 0, on a whole line *)
  Theorem C108_flat_refuted : run [above 0 0] = (true, Ok InfiniteSolution, InfiniteSolution) /\ optimal2 0 1 [(0, -1, 0)%R] 0 0.
  Proof.
    split; [vm_compute; reflexivity|]. split.
    - intros a1 a2 b [E|[]]; injection E as <- <- <-; lra.
    - intros z1 z2 F. pose proof (F 0 (-1) 0 (or_introl eq_refl))%R. lra.
  Qed.
End Examples.

(** a median function meets the hypothesis, and a problem with seven constraints those of C108_solve_partial *)
Definition first_pair (ps : list (@pair R)) := match ps with [] => None | q :: r => Some (q, ps) end.
Example C108_ex_picks : picks first_pair.
Proof. split; auto. intros [|q r] N; [congruence|]. exists q, (q :: r). split; auto. split; [now left|apply Permutation_refl]. Qed.
Example C108_ex_applies : exists d, 0 < d /\ forall t, 0 <= t <= d -> exists p a q,
  build t 0 1 [(-1, -1, 0); (-2, -1, 3); (-3, -1, 8); (-/2, -1, 1); (-/3, -1, 2); (-4, -1, 20); (1, -1, 10)] = (true, p)
  /\ zLPMegiddoDyerSolve t first_pair p = Ok (a, q) /\ exists x1 x2 cost, a = Found x1 x2 cost /\ cost = -4.
Proof.
  set (cs := [(-1, -1, 0); (-2, -1, 3); (-3, -1, 8); (-/2, -1, 1); (-/3, -1, 2); (-4, -1, 20); (1, -1, 10)]).
  destruct (C108_solve_partial first_pair C108_ex_picks 0 1 cs) as (d & D & H); [lra| |].
  { intros a1 a2 b I. unfold cs in I. cbn in I. repeat (destruct I as [E|I]; [injection E as <- <- <-; lra|]). destruct I. }
  exists d. split; auto. intros t T. destruct (H t T) as (p & a & q & E1 & E2 & M). exists p, a, q. split; auto. split; auto.
  assert (F : feasible2 cs 6 (-4)) by (intros a1 a2 b I; unfold cs in I; cbn in I; repeat (destruct I as [E|I]; [injection E as <- <- <-; lra|]); destruct I).
  assert (LB : forall z1 z2, feasible2 cs z1 z2 -> -4 <= z2).
  { intros z1 z2 G. assert (G1 : -/3 * z1 + -1 * z2 <= 2) by (apply G; unfold cs; cbn; auto 10). assert (G2 : 1 * z1 + -1 * z2 <= 10) by (apply G; unfold cs; cbn; auto 10). lra. }
  destruct a as [x1 x2 cost| | | |]; cbn in M; try contradiction.
  - exists x1, x2, cost. split; auto. destruct M as ((FX & M) & ->). specialize (M 6 (-4) F). specialize (LB x1 x2 FX). lra.
  - exfalso. destruct M as (d1 & d2 & N & C & M).
    assert (G1 : forall s, 0 <= s -> -/3 * (6 + s * d1) + -1 * (-4 + s * d2) <= 2 /\ 1 * (6 + s * d1) + -1 * (-4 + s * d2) <= 10).
    { intros s S0. specialize (M 6 (-4) s F S0). split; apply M; unfold cs; cbn; auto 10. }
    destruct (G1 1) as (A & B); lra.
  - exfalso. now apply (M 6 (-4)).
Qed.

Print Assumptions C108_solve_partial.
Print Assumptions C108_direct_partial.
Print Assumptions C108_few.
Print Assumptions C108_order_refuted.
Print Assumptions C108_bound_refuted.
Print Assumptions C108_again_refuted.
Print Assumptions C108_flat_refuted.
