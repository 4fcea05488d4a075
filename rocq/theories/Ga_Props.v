(** C87: the genetic algorithm. *)
From Coq Require Import List Arith Lia Reals Lra Bool Permutation ZArith QArith.
From Coq Require Import Floats.
From Verif Require Import Prelude Prelude_Proofs Scalar RealLib Ga_Model Ga_Spec Ga_Proofs Ga2_Proofs.
Import ListNotations.
Local Open Scope R_scope.

Section C87.
  Variables (f : list R -> R) (rgene : nat -> nat -> list R) (rsel : nat -> nat -> nat -> R) (rmut : nat -> nat -> R) (toint : R -> Z) (ztol : R).
  Variables (lo hi : list R) (N : nat) (survival mutation : R).
  Let dim := length lo.
  Hypothesis Hz : 0 <= ztol.
  Hypothesis Lhi : length hi = length lo.
  (** random genes are in the box, random numbers for the selection are in [0,1) *)
  Hypothesis Hgene : forall n i, in_box lo hi (rgene n i).
  Hypothesis Hsel : forall n i k, 0 <= rsel n i k < 1.
  Hypothesis HN : (0 < N)%nat.
  Hypothesis Hns : (0 <= toint (INR N * survival))%Z.
  (** the population after n generations *)
  Let after (n : nat) : res ga := g <- zOptGARand f rgene ztol N ;; generations f dim rgene rsel rmut toint ztol n 1 survival mutation g.

  (** After any number of generations: the size of the population is kept, every gene is in the box, the individuals are in the
      order of their values, the fitnesses are the distances from the worst value normalised to the sum 1 (or all 1), and eval
      is the value of the first individual, the least of all. *)
  Theorem C87_generations : forall n, exists g, after n = Ok g /\ length (ind g) = N /\ (forall c, In c (ind g) -> in_box lo hi (gene c)) /\
    ranked f (ind g) /\ scored f ztol (ind g) /\
    (exists c, nth_error (ind g) 0 = Some c /\ geval g = f (gene c)) /\ forall c, In c (ind g) -> geval g <= f (gene c).
  Proof.
    intros n. unfold after. destruct (rand_ok f dim rgene rsel rmut toint ztol lo hi Hz eq_refl Hgene Hsel N HN) as [g0 [E0 G0]]. rewrite E0. cbn [bind].
    destruct (generations_ok f dim rgene rsel rmut toint ztol lo hi Hz eq_refl Hgene Hsel N survival mutation HN Hns n 1 g0 G0) as [g [E G]].
    exists g. split; auto. pose proof (state_min f ztol lo hi N g G) as M. destruct G as [G1 [G2 [G3 [G4 G5]]]]. auto 10.
  Qed.
  Lemma gen_snoc : forall k n g, generations f dim rgene rsel rmut toint ztol (S k) n survival mutation g =
    (g' <- generations f dim rgene rsel rmut toint ztol k n survival mutation g ;; zOptGAReproduce f dim rgene rsel rmut toint ztol (n + k) survival mutation g').
  Proof.
    clear. induction k; intros n g.
    - cbn [generations bind]. rewrite Nat.add_0_r. destruct (zOptGAReproduce _ _ _ _ _ _ _ _ _ _ _); auto.
    - cbn [generations] in *. destruct (zOptGAReproduce f dim rgene rsel rmut toint ztol n survival mutation g) as [g1|] eqn:E1; auto. cbn [bind]. rewrite IHk. now replace (n + S k)%nat with (S n + k)%nat by lia.
  Qed.
  Lemma after_S : forall n g, after n = Ok g -> after (S n) = zOptGAReproduce f dim rgene rsel rmut toint ztol (S n) survival mutation g.
  Proof.
    unfold after. intros n g H. destruct (zOptGARand f rgene ztol N) as [g0|]; [|discriminate]. cbn [bind] in *. rewrite gen_snoc, H. reflexivity.
  Qed.
  Lemma after_state : forall n g, after n = Ok g -> state f ztol lo hi N g.
  Proof.
    intros n g H. destruct (C87_generations n) as [g' [E [A [B [C [D [E1 E2]]]]]]]. rewrite E in H. injection H as ->. repeat split; auto; apply B; auto.
  Qed.
  (** The first individuals - as many as the rate of survival says - are found in the next generation unless they mutate. *)
  Theorem C87_survivors : forall n g g', after n = Ok g -> after (S n) = Ok g' ->
    forall k c, (Z.of_nat k < toint (INR N * survival))%Z -> nth_error (ind g) k = Some c -> mutation <= rmut (S n) k -> exists c', In c' (ind g') /\ gene c' = gene c.
  Proof.
    intros n g g' H H' k c Hk Hc Hm. rewrite (after_S n g H) in H'.
    destruct (reproduce_ok f dim rgene rsel rmut toint ztol lo hi Hz eq_refl Hgene Hsel (S n) N survival mutation g HN (after_state n g H) Hns) as [g1 [E [_ S]]].
    rewrite E in H'. injection H' as ->. eapply S; eauto.
  Qed.
  (** The best value never gets worse if somebody survives and the first individual does not mutate. *)
  Theorem C87_best_partial : (1 <= toint (INR N * survival))%Z -> (forall n, mutation <= rmut n 0) ->
    forall m n g g', (m <= n)%nat -> after m = Ok g -> after n = Ok g' -> geval g' <= geval g.
  Proof.
    intros Hs Hm m n g g' Hmn H H'. revert g' H'. induction Hmn as [|n Hmn IH]; intros g' H'. { rewrite H in H'. injection H' as ->. lra. }
    destruct (C87_generations n) as [g1 [E1 [_ [_ [_ [_ [[c [A1 A2]] _]]]]]]]. specialize (IH g1 E1).
    destruct (C87_survivors n g1 g' E1 H' 0 c) as [c' [B1 B2]]; [lia|auto|auto|].
    destruct (C87_generations (S n)) as [g2 [E2 [_ [_ [_ [_ [_ M]]]]]]]. rewrite H' in E2. injection E2 as <-. specialize (M c' B1). rewrite B2 in M. lra.
  Qed.
  (** The solver: the answer is in the box and has the least value of the last population; the value is reported. *)
  Theorem C87_solve : forall gmax iter tol ans0, length ans0 = dim -> exists ans g,
    zOptSolveGA f dim rgene rsel rmut toint ztol gmax lo hi iter tol N survival mutation ans0 = Ok (ans, f ans) /\
    after (match iter with O => gmax | _ => iter end) = Ok g /\ in_box lo hi ans /\ (exists c, In c (ind g) /\ gene c = ans) /\ forall c, In c (ind g) -> f ans <= f (gene c).
  Proof.
    intros gmax iter tol ans0 Hans. unfold zOptSolveGA. rewrite Lhi, Nat.eqb_refl. cbn [negb].
    set (k := match iter with O => gmax | _ => iter end). destruct (C87_generations k) as [g [E [A [B [_ [_ [[c [C1 C2]] M]]]]]]].
    pose proof E as E0. unfold after in E. destruct (zOptGARand f rgene ztol N) as [g0|]; [|discriminate]. cbn [bind] in *. unfold zOptGASolve. fold k. rewrite E. cbn [bind].
    unfold get. rewrite C1. cbn [bind]. assert (Hc : In c (ind g)) by (eapply nth_error_In; eauto). destruct (B c Hc) as [L _]. rewrite L, Hans. fold dim. rewrite Nat.eqb_refl. rewrite C2.
    exists (gene c), g. split; auto. split; auto. split; auto. split; [exists c; auto|]. intros x Hx. rewrite <- C2. auto.
  Qed.
End C87.
Print Assumptions C87_generations.
Print Assumptions C87_survivors.
Print Assumptions C87_best_partial.
Print Assumptions C87_solve.

(** ** Refutations *)
Definition qint (q : Q) : Z := (Qnum q / Z.pos (Qden q))%Z.
Definition first (x : list Q) : Q := nth 0 x 0%Q.
(** "The best individual is never lost" is false: the first individual may mutate like all others.  Two individuals at 0 and 1,
    one survivor; all individuals mutate to 2; the best value is 0 in the first generation and 2 in the next. *)
Theorem C87_best_refuted : exists g g', zOptGARand first (fun _ i => [inject_Z (Z.of_nat i)]) 0%Q 2 = Ok g /\ (geval g == 0)%Q /\
  zOptGAReproduce first 1 (fun _ _ => [2%Q]) (fun _ _ _ => (1 # 2)%Q) (fun _ _ => 0%Q) qint 0%Q 1 (1 # 2)%Q (1 # 2)%Q g = Ok g' /\ (geval g' == 2)%Q.
Proof. eexists _, _. split; [vm_compute; reflexivity|]. split; [reflexivity|]. split; [vm_compute; reflexivity|]. reflexivity. Qed.
Print Assumptions C87_best_refuted.
(** "The parents of a child are individuals of the previous generation" is false: the children are written into the population
    that the next parents are selected from, under the fitness of their predecessors.  Individuals at 0, 1, 2; the individual 0
    survives; both parents of the second child are 0, both parents of the third are the individual 1, which is at 1, but the
    third child is at 0. *)
Theorem C87_parents_refuted : exists g g', zOptGARand first (fun _ i => [inject_Z (Z.of_nat i)]) 0%Q 3 = Ok g /\
  map gene (ind g) = [[0%Q]; [1%Q]; [2%Q]] /\ _zOptGASelect (ind g) (5 # 6)%Q = Ok 1%nat /\
  zOptGAReproduce first 1 (fun _ _ => [5%Q]) (fun _ i _ => match i with 2%nat => (5 # 6)%Q | _ => 0%Q end) (fun _ _ => 1%Q) qint 0%Q 1 (1 # 2)%Q 0%Q g = Ok g' /\
  forall c, In c (ind g') -> (first (gene c) == 0)%Q.
Proof.
  eexists _, _. split; [vm_compute; reflexivity|]. split; [reflexivity|]. split; [reflexivity|]. split; [vm_compute; reflexivity|].
  intros c [<-|[<-|[<-|[]]]]; reflexivity.
Qed.
Print Assumptions C87_parents_refuted.
(** "Every gene is in the box" is false if the random number 1 can be drawn: it selects the last individual, which has the
    fitness 0; the crossover of the last individual with itself divides 0 by 0. *)
Theorem C87_one_refuted : exists g g', zOptGARand (fun x : list float => nth 0 x 0%float) (fun _ i => [if (i =? 0)%nat then 0%float else 1%float]) 0%float 2 = Ok g /\
  zOptGAReproduce (fun x : list float => nth 0 x 0%float) 1 (fun _ _ => [0%float]) (fun _ _ _ => 1%float) (fun _ _ => 1%float) (fun _ => 1%Z) 0%float 1 0.5%float 0%float g = Ok g' /\
  exists c, In c (ind g') /\ gene c = [nan].
Proof.
  eexists _, _. split; [vm_compute; reflexivity|]. split; [vm_compute; reflexivity|]. first [eexists; split; [left; reflexivity|reflexivity]|eexists; split; [right; left; reflexivity|reflexivity]].
Qed.
Print Assumptions C87_one_refuted.
(** An empty population, bounds of different sizes and a negative rate of survival lead to accesses out of bounds. *)
Theorem C87_inputs_refuted : forall ans,
  zOptSolveGA first 1 (fun _ _ => [0%Q]) (fun _ _ _ => 0%Q) (fun _ _ => 0%Q) qint 0%Q 1 [0%Q] [1%Q] 1 0%Q 0 (1 # 2)%Q 0%Q ans = UB /\
  zOptSolveGA first 1 (fun _ _ => [0%Q]) (fun _ _ _ => 0%Q) (fun _ _ => 0%Q) qint 0%Q 1 [0%Q] [1%Q; 1%Q] 1 0%Q 2 (1 # 2)%Q 0%Q ans = UB /\
  zOptSolveGA first 1 (fun _ _ => [0%Q]) (fun _ _ _ => 0%Q) (fun _ _ => 0%Q) qint 0%Q 1 [0%Q] [1%Q] 1 0%Q 2 (-1)%Q 0%Q ans = UB.
Proof. intros ans. split; [reflexivity|]. split; vm_compute; reflexivity. Qed.
Print Assumptions C87_inputs_refuted.

(** the hypotheses hold for the box [0,4], all random numbers 1/2, four individuals and the rate of survival 1/2 *)
Example C87_ex_hyps : 0 <= 0 /\ length [4] = length [0] /\ (forall n i : nat, in_box [0] [4] ((fun _ _ => [2]) n i)) /\ (forall n i k : nat, 0 <= (fun _ _ _ => / 2) n i k < 1) /\ (0 < 4)%nat /\
  (0 <= up (INR 4 * / 2) - 1)%Z.
Proof.
  split; [lra|]. split; auto. split; [|split; [intros; lra|split; [lia|]]].
  - intros _ _. split; auto. intros [|j] Hj; cbn in *; [lra|lia].
  - assert (0 < up (INR 4 * / 2))%Z; [|lia]. apply lt_IZR. destruct (archimed (INR 4 * / 2)) as [A _]. cbn in *. lra.
Qed.
(** three generations of four individuals, with crossover and mutation *)
Example C87_ex_run : match zOptSolveGA (fun x : list Q => ((nth 0 x 0 - 3) * (nth 0 x 0 - 3))%Q) 1 (fun n i => [inject_Z (Z.of_nat (n + i))]) (fun _ i k => (Z.of_nat (i + k) # 8)%Q) (fun n i => if (i =? 3)%nat then 0%Q else 1%Q) qint 0%Q 1
  [0%Q] [8%Q] 3 0%Q 4 (1 # 2)%Q (1 # 2)%Q [0%Q] with Ok (_, e) => Qeq_bool e 0 | UB => false end = true.
Proof. vm_compute. reflexivity. Qed.
