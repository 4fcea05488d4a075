(** The whole flow: building a problem and solving it; small tolerances. *)
From Coq Require Import Reals Lra Permutation.
From Verif Require Import Prelude Scalar RealLib Complex_Model Mega_Model Mega_Spec Mega_Proofs Mega2_Proofs Mega3_Proofs Mega4_Proofs Stab_Proofs.
Local Open Scope R_scope.
Local Notation cell := (@cell R).
Local Notation pair := (@pair R).
Local Notation lp := (@lp R).
Local Notation side := (@side R).
Local Notation u p := (lst (up p)).
Local Notation l p := (lst (lo p)).

Lemma add_all_snoc (t : R) p cs a1 a2 b : add_all t p (cs ++ [(a1, a2, b)]) =
  (let '(ok, q) := add_constraint t (snd (add_all t p cs)) a1 a2 b in (fst (add_all t p cs) && ok, q)).
Proof. unfold add_all. rewrite fold_left_app. reflexivity. Qed.

(** the constraint added last is not vertical *)
Definition last_slanted (cs : list (R * R * R)) : Prop := forall cs' a1 a2 b, cs = cs' ++ [(a1, a2, b)] -> a2 <> 0.
Definition slanted (cs : list (R * R * R)) : Prop := forall a1 a2 b, In (a1, a2, b) cs -> a2 <> 0.

Lemma add_all_ok k1 k2 p0 : k2 <> 0 -> built k1 k2 [] p0 -> xmin p0 = None -> xmax p0 = None -> fpos p0 = pos_bounded p0 -> fneg p0 = neg_bounded p0 ->
  forall cs, match add_all 0 p0 cs with
  | (true, p) => built k1 k2 cs p /\ (slanted cs -> xmin p = None /\ xmax p = None) /\ (last_slanted cs -> fpos p = pos_bounded p /\ fneg p = neg_bounded p)
  | (false, _) => (exists b, In (0, 0, b) cs) \/ forall x1 x2, ~ feasible2 cs x1 x2
  end.
Proof.
  intros K2 B0 X1 X2 F1 F2. induction cs as [|[[a1 a2] b] cs IH] using rev_ind.
  - cbn. auto.
  - rewrite add_all_snoc. destruct (add_all 0 p0 cs) as [ok p]. cbn [fst snd]. destruct ok.
    + destruct IH as (B & NV & LS). pose proof (add_step k1 k2 cs p a1 a2 b K2 B) as A. destruct (add_constraint 0 p a1 a2 b) as [[|] q]; cbn [andb].
      * destruct A as (A1 & A2 & A3). split; auto. split.
        -- intros SL. assert (N : a2 <> 0) by (apply (SL a1 a2 b), in_app_iff; right; now left). destruct (A3 N) as (-> & ->). apply NV. intros c1 c2 c I. apply (SL c1 c2 c), in_app_iff. auto.
        -- intros L. apply A2. apply (L cs a1 a2 b eq_refl).
      * destruct A as [(-> & ->)|A]; auto. left. exists b. apply in_app_iff. right. now left.
    + destruct (add_constraint 0 p a1 a2 b) as [ok' q]. cbn [andb]. destruct IH as [(c & I)|N].
      * left. exists c. apply in_app_iff. auto.
      * right. intros x1 x2 F. apply feasible2_app in F. apply (N x1 x2). tauto.
Qed.

Lemma build_ok k1 k2 cs : k2 <> 0 ->
  match build 0 k1 k2 cs with
  | (true, p) => built k1 k2 cs p /\ (slanted cs -> xmin p = None /\ xmax p = None) /\ (last_slanted cs -> fpos p = pos_bounded p /\ fneg p = neg_bounded p)
  | (false, _) => (exists b, In (0, 0, b) cs) \/ forall x1 x2, ~ feasible2 cs x1 x2
  end.
Proof.
  intros K2. unfold build, set_cost. destruct (is_tol 0 k2) eqn:E; [apply is_tol_0 in E; contradiction|].
  match goal with |- context [add_all 0 ?p cs] => set (p0 := p) end.
  pose proof (add_all_ok k1 k2 p0 K2) as A.
  assert (B : built k1 k2 [] p0).
  { constructor; cbn; auto; try discriminate.
    - split; auto. split; auto. split; [constructor|intros c []].
    - split; auto. split; auto. split; [constructor|intros c []].
    - intros x1 x2. split; [|intros _ c1 c2 c []]. intros _. split; [split; discriminate|]. split; intros c [].
    - intros [H|[H|(c & [[]|[]] & _)]]; congruence. }
  specialize (A B eq_refl eq_refl eq_refl eq_refl cs). destruct (add_all 0 p0 cs) as [[|] q]; exact A.
Qed.

(** without vertical constraints no call fails *)
Lemma build_slanted k1 k2 cs : k2 <> 0 -> slanted cs -> fst (build 0 k1 k2 cs) = true.
Proof.
  intros K2. unfold build, set_cost. destruct (is_tol 0 k2) eqn:E; [apply is_tol_0 in E; contradiction|].
  match goal with |- context [add_all 0 ?p cs] => set (p0 := p) end. intros SL.
  assert (A : fst (add_all 0 p0 cs) = true /\ c2 (snd (add_all 0 p0 cs)) = k2).
  { induction cs as [|[[a1 a2] b] cs IH] using rev_ind; [auto|]. rewrite add_all_snoc. destruct IH as (I1 & I2); [intros c1 c2 c I; apply (SL c1 c2 c), in_app_iff; auto|].
    rewrite I1. unfold add_constraint. assert (N : a2 <> 0) by (apply (SL a1 a2 b), in_app_iff; right; now left).
    destruct (is_tol 0 a2) eqn:E2; [apply is_tol_0 in E2; contradiction|]. rewrite I2, E. cbn [fst snd andb]. split; auto. cbn [c2]. destruct (slt _ _); reflexivity. }
  destruct (add_all 0 p0 cs) as [ok q]. cbn in A. destruct A as (-> & _). reflexivity.
Qed.

(** ** what the answers mean *)
Definition meaning (k1 k2 : R) (cs : list (R * R * R)) (a : @answer R) : Prop :=
  match a with
  | Found x1 x2 cost => optimal2 k1 k2 cs x1 x2 /\ cost = k1 * x1 + k2 * x2
  | InfiniteSolution => endless2 k1 k2 cs
  | Unsolvable => forall x1 x2, ~ feasible2 cs x1 x2
  | NonUnique | OutOfFuel => False
  end.

Section Final.
  Variable k1 k2 : R.
  Hypothesis K2 : k2 <> 0.
  Variable cs : list (R * R * R).
  Variable p : lp.
  Hypothesis B : built k1 k2 cs p.

  Lemma y_x2 x y : k1 * x + k2 * ((y - k1 * x) / k2) = y. Proof. field. exact K2. Qed.

  Lemma endless_pos : pos_bounded p = false -> endless2 k1 k2 cs.
  Proof.
    destruct B as [C1 C2 BU BL SEM MU ML POS NEG DET]. intros F.
    assert (NB : ~ (l p <> [] /\ bpos (u p) (l p) (xmax p))) by (intros H; apply pos_bounded_spec in H; auto; congruence).
    destruct (l p) as [|c0 r] eqn:EL.
    - exists 0, (- / k2). split; [right; apply Ropp_neq_0_compat, Rinv_neq_0_compat, K2|]. split; [replace (k1 * 0 + k2 * - / k2) with (-1) by (field; auto); lra|].
      intros x1 x2 t FE T. apply SEM in FE. apply SEM. destruct FE as (A & FU & FL). replace (x1 + t * 0) with x1 by ring. split; auto.
      replace (k1 * x1 + k2 * (x2 + t * - / k2)) with (k1 * x1 + k2 * x2 - t) by (field; auto). split; [intros c I; specialize (FU c I); lra|intros c []].
    - rewrite <- EL in *. assert (NL : l p <> []) by (rewrite EL; discriminate). destruct (min_exists (fun c => - cm c) (l p) NL) as (c & I & M).
      assert (NX : xmax p = None) by (destruct (xmax p); auto; exfalso; apply NB; split; auto; left; discriminate).
      exists 1, ((cm c - k1) / k2). split; [left; lra|]. split.
      + replace (k1 * 1 + k2 * ((cm c - k1) / k2)) with (cm c) by (field; auto). destruct (Rle_lt_dec (cm c) 0); auto. exfalso. apply NB. split; auto. right. left. exists c. split; auto. lra.
      + intros x1 x2 t FE T. apply SEM in FE. apply SEM. destruct FE as ((A1 & A2) & FU & FL). split; [split; [intros v V; specialize (A1 v V); lra|intros v V; congruence]|].
        replace (k1 * (x1 + t * 1) + k2 * (x2 + t * ((cm c - k1) / k2))) with (k1 * x1 + k2 * x2 + t * cm c) by (field; auto). split.
        * intros c' I'. specialize (FU c' I'). assert (cm c <= cm c').
          { destruct (Rle_lt_dec (cm c) (cm c')); auto. exfalso. apply NB. split; auto. right. right. exists c', c. split; auto. split; auto. lra. }
          unfold ht in *. nra.
        * intros c' I'. specialize (FL c' I'). specialize (M c' I'). cbn in M. unfold ht in *. nra.
  Qed.
  Lemma endless_neg : neg_bounded p = false -> endless2 k1 k2 cs.
  Proof.
    destruct B as [C1 C2 BU BL SEM MU ML POS NEG DET]. intros F.
    assert (NB : ~ (l p <> [] /\ bneg (u p) (l p) (xmin p))) by (intros H; apply neg_bounded_spec in H; auto; congruence).
    destruct (l p) as [|c0 r] eqn:EL.
    - exists 0, (- / k2). split; [right; apply Ropp_neq_0_compat, Rinv_neq_0_compat, K2|]. split; [replace (k1 * 0 + k2 * - / k2) with (-1) by (field; auto); lra|].
      intros x1 x2 t FE T. apply SEM in FE. apply SEM. destruct FE as (A & FU & FL). replace (x1 + t * 0) with x1 by ring. split; auto.
      replace (k1 * x1 + k2 * (x2 + t * - / k2)) with (k1 * x1 + k2 * x2 - t) by (field; auto). split; [intros c I; specialize (FU c I); lra|intros c []].
    - rewrite <- EL in *. assert (NL : l p <> []) by (rewrite EL; discriminate). destruct (min_exists (fun c => cm c) (l p) NL) as (c & I & M).
      assert (NX : xmin p = None) by (destruct (xmin p); auto; exfalso; apply NB; split; auto; left; discriminate).
      exists (-1), ((k1 - cm c) / k2). split; [left; lra|]. split.
      + replace (k1 * -1 + k2 * ((k1 - cm c) / k2)) with (- cm c) by (field; auto). destruct (Rle_lt_dec (- cm c) 0); auto. exfalso. apply NB. split; auto. right. left. exists c. split; auto. lra.
      + intros x1 x2 t FE T. apply SEM in FE. apply SEM. destruct FE as ((A1 & A2) & FU & FL). split; [split; [intros v V; congruence|intros v V; specialize (A2 v V); lra]|].
        replace (k1 * (x1 + t * -1) + k2 * (x2 + t * ((k1 - cm c) / k2))) with (k1 * x1 + k2 * x2 - t * cm c) by (field; auto). split.
        * intros c' I'. specialize (FU c' I'). assert (cm c' <= cm c).
          { destruct (Rle_lt_dec (cm c') (cm c)); auto. exfalso. apply NB. split; auto. right. right. exists c', c. split; auto. split; auto. lra. }
          unfold ht in *. nra.
        * intros c' I'. specialize (FL c' I'). specialize (M c' I'). cbn in M. unfold ht in *. nra.
  Qed.

  Lemma check_ok : match check_feasibility p with
    | None => l p <> [] /\ bpos (u p) (l p) (xmax p) /\ bneg (u p) (l p) (xmin p)
    | Some InfiniteSolution => fpos p = false \/ fneg p = false
    | Some _ => False
    end.
  Proof.
    destruct B as [C1 C2 BU BL SEM MU ML POS NEG DET]. unfold check_feasibility. destruct (fpos p); cbn [andb negb]; auto. destruct (fneg p); cbn [negb]; auto.
    specialize (POS eq_refl). specialize (NEG eq_refl). apply pos_bounded_spec in POS; auto. apply neg_bounded_spec in NEG; auto. destruct POS as (NL & BP). destruct NEG as (_ & BN).
    rewrite DET; cbn; auto. destruct BP as [H|[(c & I & H)|(c & c' & I & I' & H)]]; auto.
    - right. right. exists c. split; auto. lra.
    - right. right. destruct (Req_dec (cm c) 0) as [Z|Z]; [exists c'|exists c]; split; auto. lra.
  Qed.

  Lemma direct_final : meaning k1 k2 cs (zLPMegiddoDyerSolveDirect 0 p) \/
    (zLPMegiddoDyerSolveDirect 0 p = InfiniteSolution /\ (fpos p = false \/ fneg p = false)).
  Proof.
    pose proof check_ok as C. unfold zLPMegiddoDyerSolveDirect. destruct (check_feasibility p) as [a|]; [destruct a; try contradiction; auto|]. left.
    destruct C as (NL & BP & BN). pose proof (direct_spec p NL BP BN) as D. destruct B as [C1 C2 BU BL SEM MU ML POS NEG DET].
    unfold solve_direct_part. destruct (direct 0 p) as [[x y]|]; cbn [meaning found].
    - destruct D as (I & F & M). unfold xy_to_x2. rs. rewrite C1, C2. rewrite y_x2. split; auto. split.
      + apply SEM. rewrite y_x2. auto.
      + intros z1 z2 Z. apply SEM in Z. rewrite y_x2. apply (M z1); tauto.
    - intros x1 x2 F. apply SEM in F. apply (D x1 (k1 * x1 + k2 * x2)); tauto.
  Qed.

  Variable median : list pair -> option (pair * list pair).
  Hypothesis MED : median_ok median.
  Hypothesis X1 : xmin p = None.
  Hypothesis X2 : xmax p = None.

  Lemma solve_final : exists a q, zLPMegiddoDyerSolve 0 median p = Ok (a, q) /\ (meaning k1 k2 cs a \/ (a = InfiniteSolution /\ (fpos p = false \/ fneg p = false))).
  Proof.
    pose proof check_ok as C. unfold zLPMegiddoDyerSolve. destruct (check_feasibility p) as [a|].
    { exists a, p. split; auto. right. destruct a; try contradiction; auto. }
    destruct C as (NL & BP & BN). destruct B as [C1 C2 BU BL SEM MU ML POS NEG DET].
    assert (I : inv (u p) (l p) p).
    { destruct BU as (U1 & U2 & U3 & _). destruct BL as (L1 & L2 & L3 & _). constructor; auto.
      - split; auto. rewrite U1, U2. split; [cbn; rewrite app_nil_r; apply Permutation_refl|constructor].
      - split; auto. rewrite L1, L2. split; [cbn; rewrite app_nil_r; apply Permutation_refl|constructor].
      - apply same_refl.
      - intros v V. congruence.
      - intros v V. congruence. }
    destruct (loop_ok median MED (u p) (l p) _ p I (le_n _)) as (a & q & E & A & Q1 & Q2). exists a, q. split; auto. left.
    assert (SEM' : forall x1 x2, feasible2 cs x1 x2 <-> feas (u p) (l p) x1 (k1 * x1 + k2 * x2)).
    { intros x1 x2. rewrite SEM, X1, X2. split; [tauto|]. intros H. split; auto. split; discriminate. }
    destruct a as [x1 x2 cost| | | |]; cbn [answer_ok meaning] in *; try contradiction.
    - destruct A as ((F & M) & ->). unfold xy_to_x2. rs. rewrite Q1, Q2, C1, C2, y_x2. split; auto. split.
      + apply SEM'. now rewrite y_x2.
      + intros z1 z2 Z. apply SEM' in Z. rewrite y_x2. now apply (M z1).
    - intros x1 x2 F. apply SEM' in F. now apply (A x1 (k1 * x1 + k2 * x2)).
  Qed.
End Final.

(** ** small tolerances *)
Lemma st_comp {X Y} (F : R -> X) (G : R -> X -> Y) : st F -> (forall x, st (fun t => G t x)) -> st (fun t => G t (F t)).
Proof.
  intros H K. unfold st in *. specialize (K (F 0)). destruct (ev_both _ _ _ _ H K) as (d & D & P). exists d. split; auto. intros t T. destruct (P t T) as (-> & E). exact E.
Qed.
Lemma st_fold {X A} (f : R -> X -> A -> X) : (forall x a, st (fun t => f t x a)) -> forall la x, st (fun t => fold_left (f t) la x).
Proof.
  intros H. induction la as [|a la IH]; intros x; cbn [fold_left]; [apply st_const|]. apply (st_comp (fun t => f t x a) (fun t x => fold_left (f t) la x)); auto.
Qed.
Lemma st_le_sub v x : st (fun t => sle (v - t) x).
Proof.
  unfold st. cbn. rewrite Rminus_0_r. destruct (Rleb_spec v x) as [H|H].
  - exists 1. split; [lra|]. intros t T. destruct (Rleb_spec (v - t) x); auto; lra.
  - exists ((v - x) / 2). split; [lra|]. intros t T. destruct (Rleb_spec (v - t) x); auto; lra.
Qed.
Lemma st_le_add v x : st (fun t => sle x (v + t)).
Proof.
  unfold st. cbn. rewrite Rplus_0_r. destruct (Rleb_spec x v) as [H|H].
  - exists 1. split; [lra|]. intros t T. destruct (Rleb_spec x (v + t)); auto; lra.
  - exists ((x - v) / 2). split; [lra|]. intros t T. destruct (Rleb_spec x (v + t)); auto; lra.
Qed.
Lemma st_zEqual (x y : R) : st (fun t => zEqual x y t).
Proof.
  unfold zEqual. set (M := smax s1 _). assert (M1 : 1 <= M) by (unfold M, smax; rs; match goal with |- context [Rltb 1 ?z] => destruct (Rltb_spec 1 z); lra | |- context [Rltb ?z 1] => destruct (Rltb_spec z 1); lra end).
  clearbody M. unfold st, is_tol. rs. rewrite Rmult_0_l. pose proof (Rabs_pos (x - y)). destruct (Rleb_spec (Rabs (x - y)) 0) as [H0|H0].
  - exists 1. split; [lra|]. intros t T. destruct (Rleb_spec (Rabs (x - y)) (t * M)); auto. nra.
  - exists (Rabs (x - y) / (2 * M)). assert (Z : Rabs (x - y) / (2 * M) * (2 * M) = Rabs (x - y)) by (field; lra). assert (P : 0 < Rabs (x - y) / (2 * M)) by (apply Rdiv_lt_0_compat; lra).
    split; auto. intros t T. destruct (Rleb_spec (Rabs (x - y)) (t * M)); auto. nra.
Qed.

Ltac stm := repeat (cbv beta; first [apply st_const | apply st_is_tol | apply st_le_sub | apply st_le_add | apply st_zEqual | apply st_if]).

Lemma st_intersection (a b : cell) : st (fun t => intersection t a b).
Proof. unfold intersection. stm. Qed.
Lemma st_listvalgrad (ll : list cell) x cmp : st (fun t => listvalgrad t ll x cmp).
Proof. unfold listvalgrad. apply (st_fold (fun t val c => _)). intros [[[v mn] mx]|] c; stm. Qed.
Lemma st_pair_create rule : forall fuel (s : side), st (fun t => pair_create t rule fuel s).
Proof.
  induction fuel as [|fuel IH]; intros s; cbn [pair_create]; destruct (pool s) as [|a [|b r]]; try apply st_const.
  apply (st_comp (fun t => intersection t a b) (fun t i => match i with None => let '(d, k) := if rule (cy0 a) (cy0 b) then (a, b) else (b, a) in pair_create t rule fuel (Side (purge (lst s) d) (k :: r) (prs s))
    | Some (x, y) => pair_create t rule fuel (Side (lst s) r (Pair a b x y :: prs s)) end)); [apply st_intersection|].
  intros [[x y]|]; auto. destruct (rule (cy0 a) (cy0 b)); auto.
Qed.
Lemma st_and (F G : R -> bool) : st F -> st G -> st (fun t => F t && G t).
Proof. intros A B. apply (st_if F G (fun _ => false)); auto. apply st_const. Qed.
Lemma st_feasible (p : lp) x y : st (fun t => is_feasible t p x y).
Proof. unfold is_feasible. repeat apply st_and; [destruct (xmin p)|destruct (xmax p)|destruct (upval p x)|destruct (loval p x)]; stm. Qed.
Lemma st_test (p : lp) t0 cur : st (fun t => test_update t p t0 cur).
Proof.
  unfold test_update. apply st_if; [|apply st_const|apply st_const].
  apply (st_map (fun b => negb b || match cur with Some c => slt (snd c) (snd t0) | None => false end)). apply st_feasible.
Qed.
Lemma st_test_opt (p : lp) t0 cur : st (fun t => test_opt t p t0 cur).
Proof. destruct t0; cbn [test_opt]; [apply st_test|apply st_const]. Qed.
Lemma st_test_int (p : lp) a b cur : st (fun t => test_opt t p (intersection t a b) cur).
Proof. apply (st_comp (fun t => intersection t a b) (fun t i => test_opt t p i cur)); [apply st_intersection|]. intros i. apply st_test_opt. Qed.
Lemma st_low (p : lp) : forall ll cur, st (fun t => low_pairs t p ll cur).
Proof.
  induction ll as [|a ll IH]; intros cur; cbn [low_pairs]; [apply st_const|].
  apply (st_comp (fun t => fold_left (fun cur b => test_opt t p (intersection t a b) cur) ll cur) (fun t cur => low_pairs t p ll cur)); auto.
  apply (st_fold (fun t cur b => test_opt t p (intersection t a b) cur)). intros. apply st_test_int.
Qed.
Lemma st_direct (p : lp) : st (fun t => direct t p).
Proof.
  unfold direct.
  apply (st_comp (fun t => fold_left (fun cur a => fold_left (fun cur b => test_opt t p (intersection t a b) cur) (rev (l p)) cur) (rev (u p)) None)
    (fun t cur => test_opt t p (at_bound p (xmax p)) (test_opt t p (at_bound p (xmin p)) (low_pairs t p (rev (l p)) cur)))).
  - apply (st_fold (fun t cur a => fold_left (fun cur b => test_opt t p (intersection t a b) cur) (rev (l p)) cur)). intros cur a.
    apply (st_fold (fun t cur b => test_opt t p (intersection t a b) cur)). intros. apply st_test_int.
  - intros cur. apply (st_comp (fun t => test_opt t p (at_bound p (xmin p)) (low_pairs t p (rev (l p)) cur)) (fun t c => test_opt t p (at_bound p (xmax p)) c)); [|intros; apply st_test_opt].
    apply (st_comp (fun t => low_pairs t p (rev (l p)) cur) (fun t c => test_opt t p (at_bound p (xmin p)) c)); [apply st_low|intros; apply st_test_opt].
Qed.
Lemma st_direct_part (p : lp) : st (fun t => solve_direct_part t p).
Proof. unfold solve_direct_part. apply (st_map (fun d => match d with Some (x, y) => found p x y | None => Unsolvable end)). apply st_direct. Qed.
Lemma st_decide (p : lp) x : st (fun t => decide t p x).
Proof.
  unfold decide, upvalgrad, lovalgrad.
  match goal with |- st (fun t => match listvalgrad t ?a x less with _ => _ end) => idtac end.
  apply (st_comp (fun t => (listvalgrad t (u p) x less, listvalgrad t (l p) x greater)) (fun t z => match fst z, snd z with
    | Some (yu, mumin, mumax), Some (yl, mlmin, mlmax) =>
        if slt yu yl then
          if slt mlmax mumin then UpdateXMin x else if slt mumax mlmin then UpdateXMax x else UnsolvableCode
        else if slt yl yu then
          if slt mlmax s0 then UpdateXMin x else if slt s0 mlmin then UpdateXMax x else FoundOptimum x yl
        else if slt mlmax s0 && sle mlmax mumin then UpdateXMin x
        else if slt s0 mlmin && sle mumax mlmin then UpdateXMax x
        else FoundOptimum x yl
    | _, None => UpdateXMin x
    | None, Some (yl, mlmin, mlmax) =>
        if slt mlmax s0 then UpdateXMin x else if slt s0 mlmin then UpdateXMax x else FoundOptimum x yl
    end)).
  - apply (st_comp (fun t => listvalgrad t (u p) x less) (fun t a => (a, listvalgrad t (l p) x greater))); [apply st_listvalgrad|].
    intros a. apply (st_map (fun b => (a, b))). apply st_listvalgrad.
  - intros z. apply st_const.
Qed.
Lemma st_region median (p : lp) : st (fun t => update_xregion t median p).
Proof.
  unfold update_xregion. apply st_bind; [apply st_pair_create|]. intros us. apply st_bind; [apply st_pair_create|]. intros ls.
  destruct (median (prs ls)) as [[m pl]|].
  - cbv beta zeta; match goal with |- st (fun t => Ok (decide t ?q0 _, _)) => apply (st_map (fun d => Ok (d, q0))) end. apply st_decide.
  - destruct (median (prs us)) as [[m pu]|]; [|apply st_const].
    cbv beta zeta; match goal with |- st (fun t => Ok (decide t ?q0 _, _)) => apply (st_map (fun d => Ok (d, q0))) end. apply st_decide.
Qed.
Lemma st_solve_loop median : forall fuel (p : lp), st (fun t => solve_loop t median fuel p).
Proof.
  induction fuel as [|fuel IH]; intros p; cbn [solve_loop]; destruct (_ <=? 4)%nat; try apply st_const.
  1,2: apply (st_map (fun d => Ok (d, p))), st_direct_part.
  apply st_bind; [apply st_region|]. intros [c q]. destruct c; auto; try apply st_const. apply (st_map (fun d => Ok (d, q))), st_direct_part.
Qed.
Lemma st_solve median (p : lp) : st (fun t => zLPMegiddoDyerSolve t median p).
Proof. unfold zLPMegiddoDyerSolve. destruct (check_feasibility p); [apply st_const|apply st_solve_loop]. Qed.
Lemma st_solve_direct (p : lp) : st (fun t => zLPMegiddoDyerSolveDirect t p).
Proof. unfold zLPMegiddoDyerSolveDirect. destruct (check_feasibility p); [apply st_const|apply st_direct_part]. Qed.
Lemma st_add (p : lp) a1 a2 b : st (fun t => add_constraint t p a1 a2 b).
Proof.
  unfold add_constraint. apply st_if; [apply st_is_tol|unfold add_vertical; stm|]. apply st_if; [apply st_is_tol|apply st_const|].
  cbv zeta. match goal with |- st (fun t => (true, ?F t)) => idtac | _ => idtac end.
  apply (st_comp (fun t => is_tol t (c1 p - a1 / (a2 / c2 p))%S) (fun t bt =>
      let c := Cell (next p) (c1 p - a1 / (a2 / c2 p))%S (b / (a2 / c2 p))%S in
      let ins s := Side (c :: lst s) (c :: pool s) (prs s) in
      let q :=
        if slt s0 (a2 / c2 p)%S then LP (c1 p) (c2 p) (xmin p) (xmax p) (ins (up p)) (lo p) (widen (mu p) (cm c)) (ml p) (fpos p) (fneg p) (fdet p || negb bt) (S (next p))
        else LP (c1 p) (c2 p) (xmin p) (xmax p) (up p) (ins (lo p)) (mu p) (widen (ml p) (cm c)) (fpos p) (fneg p) (fdet p || negb bt) (S (next p)) in
      (true, LP (c1 q) (c2 q) (xmin q) (xmax q) (up q) (lo q) (mu q) (ml q) (fpos q || pos_bounded q) (fneg q || neg_bounded q) (fdet q) (next q)))).
  - apply st_is_tol.
  - intros bt. apply st_const.
Qed.
Lemma st_build k1 k2 cs : st (fun t => build t k1 k2 cs).
Proof.
  unfold build. apply (st_comp (fun t => set_cost t init k1 k2) (fun t s => let '(ok, p) := s in let '(ok', q) := add_all t p cs in (ok && ok', q))).
  - unfold set_cost. stm.
  - intros [ok p]. apply (st_map (fun s : bool * lp => let '(ok', q) := s in (ok && ok', q))). unfold add_all.
    apply (st_fold (fun t (s : bool * lp) (c : R * R * R) => let '(a1, a2, b) := c in let '(ok, q) := add_constraint t (snd s) a1 a2 b in (fst s && ok, q))).
    intros s [[a1 a2] b]. apply (st_map (fun z : bool * lp => let '(ok, q) := z in (fst s && ok, q))). apply st_add.
Qed.
