(** C101: quadratic programming by the active set method (zQPSolveASM).  See Asm_Spec.v, Qp_Spec.v. *)
From Coq Require Import Reals Lra Lia List Permutation QArith.
From Verif Require Import Prelude Prelude_Proofs Scalar RealLib Fmat Fmat_Proofs LE_Model LE_Spec LE_Props IP_Model Vop Qp_Model Qp_Spec Qp_Proofs Lp_Model Asm_Model Asm_Spec Stab_Proofs Asm_Proofs Asm2_Proofs Asm3_Proofs.
Import ListNotations.
Local Open Scope R_scope.

Lemma st_chol m l idx : st (fun t => zMatDecompCholesky t m l idx).
Proof. unfold zMatDecompCholesky, zMatDecompCholeskyDST. stab. Qed.
Lemma check_ok Q c A b ans : exists f, ev (fun t => _zQPASMCheck t Q c A b ans) (Ok f).
Proof.
  unfold _zQPASMCheck. destruct (negb (zMatIsSymmetric_ Q)); [exists false; apply ev_const|]. destruct (negb _); [exists false; apply ev_const|].
  destruct (C26_safe 0 Q (zmat (nr Q) (nr Q)) (List.seq 0 (nr Q))) as (o & E). pose proof (st_chol Q (zmat (nr Q) (nr Q)) (List.seq 0 (nr Q))) as S. unfold st in S. rewrite E in S.
  eexists. eapply ev_bind; [exact S|]. apply ev_const.
Qed.

(** Every number of variables and of constraints with 0 < n <= m, every symmetric positive definite Q, every c, A and b,
    every bound on the number of systems solved: for all small tolerances the outcome is the same, no access leaves a
    buffer, and an answer is a minimiser, with its cost.  [ins] is the insertion into a list, at any place. *)
Theorem C101_optimal_partial m n (Q A : fmat R) (c b ans : fvec R) ins fuel : (0 < n)%nat -> (n <= m)%nat ->
  nr Q = n -> nc Q = n -> vlen c = n -> nr A = m -> nc A = n -> vlen b = m -> vlen ans = n ->
  symmetric n (el Q) -> pos_def n (el Q) -> (forall l v, Permutation (ins l v) (v :: l)) ->
  exists r d, 0 < d /\ (forall tol, 0 < tol <= d -> zQPSolveASM tol ins fuel Q c A b ans = Ok r) /\
    match r with
    | Done (x, cost) => vlen x = n /\ qp_optimal m n (el Q) (vel c) (el A) (vel b) (vel x) /\ cost = quad n (el Q) (vel c) (vel x)
    | _ => True
    end.
Proof.
  intros Hn Hnm Q1 Q2 C1 A1 A2 B1 AN SQ PQ Hins. unfold zQPSolveASM.
  cut (exists r, ev (fun tol => zQPSolveASM tol ins fuel Q c A b ans) (Ok r) /\ match r with
    | Done (x, cost) => vlen x = n /\ qp_optimal m n (el Q) (vel c) (el A) (vel b) (vel x) /\ cost = quad n (el Q) (vel c) (vel x)
    | _ => True end).
  { intros (r & (d & D & H) & P). exists r, d. auto. }
  unfold zQPSolveASM.
  destruct (check_ok Q c A b ans) as ([|] & EF). 2:{ exists Failed. split; auto. eapply ev_bind; [exact EF|]. cbn [negb]; apply ev_const. }
  destruct (init_ok m n Q A b c Q1 Q2 A1 A2 B1 C1 Hn PQ ins Hins) as (w & EW & W).
  destruct (init_base m n A b A1 A2 B1 Hn ins Hins) as (o & ES & I).
  destruct o as [s|].
  2:{ exists Failed. split; auto. eapply ev_bind; [exact EF|]. cbn [negb]. eapply ev_bind; [exact EW|]. rewrite C1. eapply ev_bind; [exact ES|]. cbv beta iota; apply ev_const. }
  destruct (loop_ok m n Q A b c Q1 Q2 A1 A2 B1 C1 Hn Hnm SQ PQ ins Hins w W fuel s ans I AN) as (r & EL & P).
  assert (X : forall r', (match r with Failed => Ok Failed | Running => Ok Running | Done x => cost <- zQuadraticValue Q c x ;; Ok (Done (x, cost)) end) = Ok r' ->
    ev (fun tol => ok <- _zQPASMCheck tol Q c A b ans ;; if negb ok then Ok Failed else w <- _zQPASMInit tol Q c A b ;; s <- _zQPASMInitBase tol ins (vlen c) A b ;;
      match s with None => Ok Failed | Some s => r <- asm_loop tol ins fuel w A b s ans ;; match r with Failed => Ok Failed | Running => Ok Running | Done x => cost <- zQuadraticValue Q c x ;; Ok (Done (x, cost)) end end) (Ok r')).
  { intros r' E. eapply ev_bind; [exact EF|]. cbn [negb]. eapply ev_bind; [exact EW|]. rewrite C1. eapply ev_bind; [exact ES|]. cbv beta iota. eapply ev_bind; [exact EL|]. cbv beta. rewrite E. apply ev_const. }
  destruct r as [|y|].
  - destruct P.
  - destruct P as (L & O). rewrite qv_ok in X by congruence. cbn [bind] in X. eexists. split; [apply X; reflexivity|]. cbv iota. rewrite L. auto.
  - exists Running. split; auto.
Qed.
(** when no point meets the constraints the code says so, for all small tolerances *)
Theorem C101_infeasible m n (Q A : fmat R) (c b ans : fvec R) ins fuel : (0 < n)%nat ->
  nr Q = n -> nc Q = n -> vlen c = n -> nr A = m -> nc A = n -> vlen b = m ->
  symmetric n (el Q) -> pos_def n (el Q) -> (forall l v, Permutation (ins l v) (v :: l)) ->
  ~ (exists x, above m n (el A) (vel b) x) -> exists d, 0 < d /\ forall tol, 0 < tol <= d -> zQPSolveASM tol ins fuel Q c A b ans = Ok Failed.
Proof.
  intros Hn Q1 Q2 C1 A1 A2 B1 SQ PQ Hins NF. unfold zQPSolveASM.
  change (ev (fun tol => zQPSolveASM tol ins fuel Q c A b ans) (Ok Failed)). unfold zQPSolveASM.
  destruct (check_ok Q c A b ans) as ([|] & EF); (eapply ev_bind; [exact EF|]); cbn [negb]; [|apply ev_const].
  destruct (init_ok m n Q A b c Q1 Q2 A1 A2 B1 C1 Hn PQ ins Hins) as (w & EW & W).
  destruct (init_base m n A b A1 A2 B1 Hn ins Hins) as (o & ES & I).
  eapply ev_bind; [exact EW|]. rewrite C1. eapply ev_bind; [exact ES|]. destruct o as [s|]; [|cbv beta iota; apply ev_const].
  exfalso. apply NF. exists (vel (xtmp s)). intros i Hi. destruct (inv_all m n A b s i I Hi) as [X|X].
  - rewrite (v_act _ _ _ _ _ I) by auto. lra.
  - now apply (v_in _ _ _ _ _ I).
Qed.
(** wrong sizes, and over the reals a Q that is not symmetric or not positive semidefinite, are refused *)
Theorem C101_rejects {T} {ST : Scalar T} tol ins fuel (Q A : fmat T) (c b ans : fvec T) :
  ~ (nr Q = nc Q /\ nr Q = vlen c /\ vlen c = vlen ans /\ nr A = vlen b /\ nc A = vlen ans) -> zQPSolveASM tol ins fuel Q c A b ans = Ok Failed.
Proof.
  intros H. unfold zQPSolveASM, _zQPASMCheck, zMatIsSymmetric_.
  destruct (Nat.eqb_spec (nr Q) (nc Q)); [|reflexivity]. destruct (negb (true && _)); [reflexivity|].
  destruct (Nat.eqb_spec (nr Q) (vlen c)); [|reflexivity]. destruct (Nat.eqb_spec (vlen c) (vlen ans)); [|reflexivity].
  destruct (Nat.eqb_spec (nr A) (vlen b)); [|reflexivity]. destruct (Nat.eqb_spec (nc A) (vlen ans)); [|reflexivity]. exfalso. apply H. auto.
Qed.
Theorem C101_not_symmetric tol ins fuel (Q A : fmat R) (c b ans : fvec R) : ~ symmetric (nr Q) (el Q) -> zQPSolveASM tol ins fuel Q c A b ans = Ok Failed.
Proof.
  intros H. unfold zQPSolveASM, _zQPASMCheck. destruct (zMatIsSymmetric_ Q) eqn:E; [|reflexivity]. exfalso. apply H.
  unfold zMatIsSymmetric_ in E. apply Bool.andb_true_iff in E. destruct E as (_ & E). rewrite forallb_forall in E.
  assert (K : forall i j, (i < j)%nat -> (j < nr Q)%nat -> el Q i j = el Q j i).
  { intros i j Hi Hj. specialize (E i ltac:(apply in_seq; lia)). rewrite forallb_forall in E. specialize (E j ltac:(apply in_seq; lia)). cbn in E. destruct (Reqb_spec (el Q i j) (el Q j i)); auto. discriminate. }
  intros i j Hi Hj. destruct (Nat.lt_trichotomy i j) as [L|[->|L]]; auto. symmetry. auto.
Qed.
Theorem C101_indefinite tol ins fuel n (Q A : fmat R) (c b ans : fvec R) : 0 <= tol -> nr Q = n -> ~ psd n (el Q) -> zQPSolveASM tol ins fuel Q c A b ans = Ok Failed.
Proof.
  intros Ht Q1 NP. destruct (Classical_Prop.classic (symmetric n (el Q))) as [SQ|]; [|apply C101_not_symmetric; now rewrite Q1].
  destruct (Nat.eq_dec (nr Q) (nc Q)) as [Q2|]; [|apply C101_rejects; tauto].
  unfold zQPSolveASM, _zQPASMCheck. destruct (zMatIsSymmetric_ Q); [|reflexivity]. cbn [negb]. destruct (negb _); [reflexivity|].
  destruct (C26_cholesky_partial tol n Q (zmat n n) (List.seq 0 n)) as (o & E & P); auto; try congruence; try (now rewrite seq_length).
  rewrite Q1, E. cbn [bind]. destruct o as [((L & idx) & rank)|]; [|reflexivity]. destruct P as (_ & LE & _ & _ & _ & F & _).
  destruct (Nat.ltb_spec rank n) as [|G]; cbn [negb bind]; [reflexivity|]. exfalso. apply NP. assert (rank = n) by lia. specialize (F (or_introl H)).
  intros v. unfold dot, mulv. rewrite (rsum_ext n _ (fun r => rsum n (fun t => v r * el L r t * rsum n (fun c => el L c t * v c)))).
  - rewrite rsum_swap. apply rsum_nonneg. intros t Htt. rewrite rsum_scal_r. rewrite (rsum_ext n (fun i => v i * el L i t) (fun c => el L c t * v c)) by (intros; ring). apply Rle_0_sqr.
  - intros r Hr. rewrite (rsum_ext n (fun j => el Q r j * v j) (fun j => rsum n (fun t => el L r t * el L j t * v j))).
    + rewrite rsum_swap. rewrite <- rsum_scal. apply rsum_ext. intros t Htt. rewrite <- !rsum_scal. apply rsum_ext. intros; ring.
    + intros j Hj. rewrite F by auto. now rewrite rsum_scal_r.
Qed.

(** ** what does not hold *)
(** With fewer constraints than variables a buffer of the workspace is overrun, unless the problem is refused:
    a run never ends with an answer. *)
Theorem C101_overflow_refuted {T} {ST : Scalar T} tol ins fuel (Q A : fmat T) (c b ans : fvec T) : (nr A < vlen ans)%nat ->
  zQPSolveASM tol ins (S fuel) Q c A b ans = Ok Failed \/ zQPSolveASM tol ins (S fuel) Q c A b ans = UB.
Proof.
  intros H. unfold zQPSolveASM. destruct (_zQPASMCheck _ _ _ _ _ _) as [[|]|]; cbn [bind negb]; auto.
  destruct (_zQPASMInit _ _ _ _ _) as [w|] eqn:EW; cbn [bind]; auto.
  assert (NW : ncell w = nr A).
  { unfold _zQPASMInit in EW. repeat (apply bind_ok in EW; destruct EW as (? & _ & EW)). now injection EW as <-. }
  destruct (_zQPASMInitBase _ _ _ _ _) as [[s|]|]; cbn [bind]; auto. right.
  assert (X : _zQPASMSolveEq tol w s A ans = UB); [|cbn [asm_loop]; now rewrite X].
  unfold _zQPASMSolveEq. destruct (for_ 0 (length (ia s)) _ (zmat _ _)) as [M|]; cbn [bind]; auto. destruct (for_ 0 (length (ia s)) _ (zvec _)) as [v|]; cbn [bind]; auto.
  destruct (zLESolveGaussDST _ _ _ _ _ _) as [r|]; cbn [bind]; auto.
  match goal with |- bind (for_ 0 _ ?f _) _ = UB => set (F := f) end.
  assert (U : forall k i v, (i + k = vlen ans)%nat -> (i <= ncell w)%nat -> loop k i F v = UB).
  { induction k as [|k IH]; intros i v' Hk Hi; [lia|]. cbn [loop]. unfold F at 1. destruct (Nat.ltb_spec i (ncell w)) as [L|L]; [|reflexivity].
    match goal with |- bind ?e _ = UB => destruct e; cbn [bind]; auto end. apply IH; lia. }
  unfold for_. rewrite (U _ O); auto; lia.
Qed.

(** the loop over the systems as the iteration of one step *)
Section Step.
  Context {T : Type} {ST : Scalar T} (tol : T) (ins : list nat -> nat -> list nat) (w : @work T) (a : fmat T) (b : fvec T).
  Definition asm_step (sx : @asm T * fvec T) : res ((@asm T * fvec T) + fvec T) :=
    '(x, s) <- _zQPASMSolveEq tol w (fst sx) a (snd sx) ;;
    r <- _zQPASMAddEq tol ins s a b x ;;
    match r with Some s => Ok (inl (s, x)) | None => '(s, f) <- _zQPASMDelEq ins s ;; if (f : bool) then Ok (inl (s, x)) else Ok (inr x) end.
  Lemma asm_loop_S fuel s x : asm_loop tol ins (S fuel) w a b s x =
    (r <- asm_step (s, x) ;; match r with inl (s, x) => asm_loop tol ins fuel w a b s x | inr x => Ok (Done x) end).
  Proof.
    cbn [asm_loop]. unfold asm_step. cbn [fst snd]. destruct (_zQPASMSolveEq tol w s a x) as [(y & s')|]; cbn [bind]; auto.
    destruct (_zQPASMAddEq tol ins s' a b y) as [[s2|]|]; cbn [bind]; auto. destruct (_zQPASMDelEq ins s') as [(s2 & [|])|]; reflexivity.
  Qed.
  Fixpoint steps (k : nat) (sx : @asm T * fvec T) : option (@asm T * fvec T) :=
    match k with O => Some sx | S k => match asm_step sx with Ok (inl sx) => steps k sx | _ => None end end.
  Lemma steps_loop k : forall s x s' x' fuel, steps k (s, x) = Some (s', x') -> asm_loop tol ins (k + fuel) w a b s x = asm_loop tol ins fuel w a b s' x'.
  Proof.
    induction k as [|k IH]; intros s x s' x' fuel H; cbn [steps Nat.add] in *; [congruence|]. rewrite asm_loop_S. destruct (asm_step (s, x)) as [[(s1 & x1)|]|]; try discriminate. cbn [bind]. auto.
  Qed.
  Lemma steps_short k : forall s x r fuel, steps k (s, x) = Some r -> (fuel <= k)%nat -> asm_loop tol ins fuel w a b s x = Ok Running.
  Proof.
    induction k as [|k IH]; intros s x r fuel H L; destruct fuel as [|fuel]; try lia; [reflexivity|reflexivity|]. cbn [steps] in H. rewrite asm_loop_S.
    destruct (asm_step (s, x)) as [[(s1 & x1)|]|]; try discriminate. cbn [bind]. eapply IH; eauto. lia.
  Qed.
  (** a state that returns *)
  Lemma endless k p s x s' x' : steps k (s, x) = Some (s', x') -> (0 < p)%nat -> steps p (s', x') = Some (s', x') -> forall fuel, asm_loop tol ins fuel w a b s x = Ok Running.
  Proof.
    intros H Hp Hc fuel. destruct (Nat.le_gt_cases fuel k) as [L|L]; [eapply steps_short; eauto|].
    replace fuel with (k + (fuel - k))%nat by lia. rewrite (steps_loop _ _ _ _ _ _ H). generalize (fuel - k)%nat as f. clear L. induction f as [f IH] using (well_founded_induction lt_wf).
    destruct (Nat.le_gt_cases f p) as [L|L]; [eapply steps_short; eauto|]. replace f with (p + (f - p))%nat by lia. rewrite (steps_loop _ _ _ _ _ _ Hc). apply IH. lia.
  Qed.
End Step.

Section Witness.
  Local Open Scope Q_scope.
  Definition tol_w : Q := 1 # 1000000000000.
  Definition I3 : fmat Q := mat_of 0 [[1; 0; 0]; [0; 1; 0]; [0; 0; 1]].
  Definition ins_last (l : list nat) (v : nat) : list nat := l ++ [v].
  Fixpoint ins_sorted (l : list nat) (v : nat) : list nat := match l with [] => [v] | x :: r => if (v <? x)%nat then v :: l else x :: ins_sorted r v end.
  Definition aw : fmat Q := mat_of 0 [[3; 3; 0]; [-(3); -(2); -(3)]; [-(3); -(3); -(1)]].
  Definition bw : fvec Q := vec_of 0 [-(1); -(2); 1].
  Definition cw : fvec Q := vec_of 0 [-(3); -(1); 2].
  Definition show (r : res (ended (fvec Q * Q))) : option (list Q * Q) := match r with Ok (Done (x, c)) => Some (to_list x, c) | _ => None end.
  (** three variables, three constraints: the method answers when new elements come first ... *)
  Example C101_case : show (zQPSolveASM tol_w (fun l v => v :: l) 40 I3 cw aw bw (zvec 3)) = Some ([24 # 19; -14 # 19; -49 # 19], -145 # 38).
  Proof. vm_compute. reflexivity. Qed.
  (** ... and never ends when they come last or in ascending order: the active set returns to what it was *)
  Definition get_ok {X} (r : res X) (d : X) : X := match r with Ok x => x | UB => d end.
  Definition w0 : @work Q := Work (zmat 0 0) (zmat 0 0) (zvec 0) (zvec 0) 0.
  Definition ww : @work Q := get_ok (_zQPASMInit tol_w I3 cw aw bw) w0.
  Definition sw (ins : list nat -> nat -> list nat) : @asm Q := match _zQPASMInitBase tol_w ins 3 aw bw with Ok (Some s) => s | _ => Asm (zvec 0) [] [] (zvec 0) end.
  Lemma endless_w ins k p s x : (0 < p)%nat -> _zQPASMInit tol_w I3 cw aw bw = Ok ww -> _zQPASMInitBase tol_w ins 3 aw bw = Ok (Some (sw ins)) ->
    _zQPASMCheck tol_w I3 cw aw bw (zvec 3) = Ok true ->
    steps tol_w ins ww aw bw k (sw ins, zvec 3) = Some (s, x) -> steps tol_w ins ww aw bw p (s, x) = Some (s, x) ->
    forall fuel, zQPSolveASM tol_w ins fuel I3 cw aw bw (zvec 3) = Ok Running.
  Proof.
    intros Hp E1 E2 E3 H1 H2 fuel. unfold zQPSolveASM. rewrite E3. cbn [bind negb]. rewrite E1. cbn [bind]. change (vlen cw) with 3%nat. rewrite E2. cbn [bind].
    rewrite (endless _ _ _ _ _ k p _ _ s x); auto.
  Qed.
  Theorem C101_endless_refuted : forall fuel, zQPSolveASM tol_w ins_last fuel I3 cw aw bw (zvec 3) = Ok Running /\
    zQPSolveASM tol_w ins_sorted fuel I3 cw aw bw (zvec 3) = Ok Running.
  Proof.
    intros fuel. split.
    - eapply (endless_w ins_last 6 5); [lia|vm_compute; reflexivity..].
    - eapply (endless_w ins_sorted 1 5); [lia|vm_compute; reflexivity..].
  Qed.
  (** one constraint on two variables: x_0 + x_1 >= 1, the square of the length to be minimised *)
  Example C101_overflow_case : zQPSolveASM tol_w ins_sorted 40 (mat_of 0 [[1; 0]; [0; 1]]) (zvec 2) (mat_of 0 [[1; 1]]) (vec_of 0 [1]) (zvec 2) = UB.
  Proof. vm_compute. reflexivity. Qed.
End Witness.
Print Assumptions C101_optimal_partial.
Print Assumptions C101_infeasible.
Print Assumptions C101_rejects.
Print Assumptions C101_not_symmetric.
Print Assumptions C101_indefinite.
Print Assumptions C101_overflow_refuted.
Print Assumptions C101_endless_refuted.
