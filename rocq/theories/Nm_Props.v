(** C86: Nelder-Mead's method. *)
From Coq Require Import List Arith Lia Reals Lra Permutation Sorted Floats.
From Verif Require Import Prelude Prelude_Proofs Scalar RealLib Nm_Model Nm_Spec Nm_Proofs.
Import ListNotations.
Local Open Scope R_scope.

(** the contract of the sorting of an index: the index is permuted so that the values ascend *)
Definition sorts_index (sortix : list R -> list nat -> list nat) : Prop :=
  forall ev l, Permutation (sortix ev l) l /\ StronglySorted (fun a b => nth a ev 0 <= nth b ev 0) (sortix ev l).

Section C86.
  Variables (f : list R -> R) (sortix : list R -> list nat -> list nat) (mn mx : list R).
  Hypothesis Hsort : sorts_index sortix.
  Hypothesis Lmx : length mx = length mn.
  Let dim := length mn.

  (** For every function and every box: every simplex comes from the centre of the box and its neighbours by moves of the method;
      an answer is the best vertex of a simplex whose vertices are all within the tolerance of the first, found in less than
      iter iterations, and its value is reported. *)
  Theorem C86_solve : forall fuel zmax iter tol, exists o, zOptSolveNM f dim sortix fuel zmax mn mx iter tol = Ok o /\
    let n := match iter with O => zmax | _ => iter end in
    match o with
    | Running => True
    | Failed => exists v, run f dim (start dim mn mx) n v
    | Found j ans e => (j < n)%nat /\ e = f ans /\
        exists v, run f dim (start dim mn mx) j v /\ small dim tol v /\ In ans v /\ forall x, In x v -> f ans <= f x
    end.
  Proof using Hsort Lmx.
    intros fuel zmax iter tol. unfold zOptSolveNM. rewrite Lmx. fold dim. rewrite Nat.eqb_refl. cbn [negb andb].
    set (n := match iter with O => zmax | _ => iter end).
    destruct (try_ok f dim sortix Hsort fuel tol n 0 (_zOptNMEvalAll f sortix (_zOptNMInit dim mn mx)) (start dim mn mx)) as [o [A B]].
    - apply init_good. exact Hsort.
    - cbn [_zOptNMEvalAll vs]. rewrite start_ok. constructor.
    - exists o. split; auto. destruct o; auto. destruct B as [B1 B2]. split; auto. lia.
  Qed.

  (** The answer is not worse than any vertex of the start. *)
  Theorem C86_not_worse : forall fuel zmax iter tol j ans e, zOptSolveNM f dim sortix fuel zmax mn mx iter tol = Ok (Found j ans e) ->
    forall v, In v (start dim mn mx) -> e <= f v.
  Proof using Hsort Lmx.
    intros fuel zmax iter tol j ans e H v Hv. destruct (C86_solve fuel zmax iter tol) as [o [A B]]. rewrite A in H. injection H as ->. cbv zeta in B.
    destruct B as [_ [-> [vf [R [_ [_ M]]]]]]. destruct (run_best f dim _ _ _ R) as [_ RB].
    - intros x [<-|Hx]. { rewrite midpoint_vec. apply nvec_length. } apply in_map_iff in Hx. destruct Hx as [i [<- _]]. now rewrite map_length, seq_length.
    - destruct (RB v Hv) as [v' [A1 A2]]. specialize (M v' A1). lra.
  Qed.

  (** Sizes that differ are rejected. *)
  Theorem C86_sizes : forall f fuel zmax iter tol d, d <> dim -> zOptSolveNM f d sortix fuel zmax mn mx iter tol = Ok Failed.
  Proof using.
    clear Hsort Lmx. intros f0 fuel zmax iter tol d Hd. unfold zOptSolveNM. fold dim. replace (dim =? d)%nat with false by (symmetry; apply Nat.eqb_neq; auto). reflexivity.
  Qed.
End C86.
Print Assumptions C86_solve.
Print Assumptions C86_not_worse.
Print Assumptions C86_sizes.

(** "The number of iterations bounds the run" is false: minus x has no minimum, and the first expansion goes on for ever, whatever
    the limit of iterations. *)
Theorem C86_terminates_refuted : forall sortix fuel, sorts_index sortix ->
  zOptSolveNM (fun x => - nth 0 x 0) 1 sortix fuel 1 [0] [1] 1 (/ 2) = Ok Running.
Proof.
  intros sortix fuel Hs. unfold zOptSolveNM. cbn [length Nat.eqb negb andb]. set (f := fun x : list R => - nth 0 x 0).
  set (s := _zOptNMEvalAll f sortix (_zOptNMInit 1 [0] [1])). assert (G : good f 1 s) by (apply init_good; exact Hs).
  cbn [_zOptNMTry]. destruct (check_ok f 1 s (/2) G) as [b [Eb Hb]]. rewrite Eb. cbn [bind].
  assert (Ev : vs s = [[/2]; [3/2]]).
  { unfold s. cbn [_zOptNMEvalAll vs]. rewrite start_ok. unfold start, midpoint. cbn. f_equal; [f_equal; lra|]. f_equal. f_equal. lra. }
  destruct b.
  - exfalso. assert (small 1 (/2) (vs s)) as [v0 [l [E S]]] by (apply Hb; auto). rewrite Ev in E. injection E as <- <-. specialize (S [3/2] (or_introl eq_refl)).
    unfold distance in S. cbn in S. replace ((/ 2 - 3 / 2) * ((/ 2 - 3 / 2) * 1) + 0) with (1 * 1) in S by field. rewrite sqrt_square in S; lra.
  - destruct (step_ok f 1 sortix Hs fuel s G ltac:(lia)) as [r [R1 R2]]. rewrite R1. cbn [bind]. destruct r as [s'|]; auto. exfalso. destruct R2 as [_ M]. rewrite Ev in M.
    destruct M as (h & w & others & b & z & M1 & M2 & M3 & M4 & M5 & M6 & M).
    assert (Ew : w = [/2]).
    { destruct h as [|[|h]]; cbn in M1.
      - now injection M1 as <-.
      - injection M1 as <-. destruct (M3 [/2] ltac:(now left)) as [_ C]. unfold f in C. cbn in C. lra.
      - destruct h; discriminate. }
    subst w. apply Permutation_cons_inv, Permutation_sym, Permutation_length_1_inv in M2. subst others.
    destruct M4 as [<-|[]]. cbv zeta in M. unfold along, minus, centroid, f in M. cbn [nth map List.seq fold_right length] in M.
    set (c := (3 / 2 + 0) / INR 1) in *. assert (Ec : c = 3 / 2) by (unfold c; cbn; field).
    destruct M as [[k [_ [_ [M _]]]]|[[[M _] _]|[[M _]|[M _]]]].
    + cbn [pow] in M. assert (0 < 2 ^ k) by (apply pow_lt; lra). rewrite Ec in M. lra.
    + lra.
    + destruct M5 as [<-|[]]. cbn [nth] in M. lra.
    + destruct M5 as [<-|[]]. cbn [nth] in M. lra.
Qed.
Print Assumptions C86_terminates_refuted.

(** insertion sort, on any scalars *)
Fixpoint ins {T} {ST : Scalar T} (ev : list T) (x : nat) (l : list nat) : list nat :=
  match l with [] => [x] | y :: t => if sle (nth x ev s0) (nth y ev s0) then x :: l else y :: ins ev x t end.
Definition isort {T} {ST : Scalar T} (ev : list T) (l : list nat) : list nat := fold_right (ins ev) [] l.

(** "The answer is in the box" is false: |x-5| on [0,1] gives 5. *)
Definition vee (x : list float) : float := PrimFloat.abs (nth 0 x 0%float - 5)%float.
Theorem C86_box_refuted : zOptSolveNM vee 1 isort 100 100 [0%float] [1%float] 0 0.5%float = Ok (Found 4 [5%float] 0%float).
Proof. vm_compute. reflexivity. Qed.
Print Assumptions C86_box_refuted.

(** the contract of the sorting can be met *)
Example C86_ex_sort : sorts_index isort.
Proof.
  intros ev l. assert (I : forall x l, Permutation (ins ev x l) (x :: l)).
  { induction l0 as [|y l0 IH]; cbn; auto. destruct (Rleb (nth x ev 0) (nth y ev 0)); auto. eapply Permutation_trans; [apply perm_skip, IH|apply perm_swap]. }
  induction l as [|x l [P S]]; cbn [isort fold_right]. { split; constructor. } split. { eapply Permutation_trans; [apply I|]. constructor. exact P. }
  change (fold_right (ins ev) [] l) with (isort ev l). clear P. induction S as [|y t S IH F]; cbn [ins]. { repeat constructor. }
  change (sle (nth x ev s0) (nth y ev s0)) with (Rleb (nth x ev 0) (nth y ev 0)). destruct (Rleb_spec (nth x ev 0) (nth y ev 0)).
  - constructor; [constructor; auto|]. constructor; auto. eapply Forall_impl; [|exact F]. cbn. intros; lra.
  - constructor; auto. apply Forall_forall. intros u Hu. apply (Permutation_in _ (I x t)) in Hu. destruct Hu as [<-|Hu]; [lra|]. rewrite Forall_forall in F. auto.
Qed.
(** a run of the method in two dimensions with reflections, expansions, contractions and crunches *)
Example C86_ex_run : match zOptSolveNM (fun x : list float => (nth 0 x 0%float - 3) * (nth 0 x 0%float - 3) + (nth 1 x 0%float + 1) * (nth 1 x 0%float + 1))%float 2 isort 100 100 [0%float; 0%float] [1%float; 1%float] 0 0.125%float with
  | Ok (Found j ans e) => PrimFloat.ltb e 0.015625%float | _ => false end = true.
Proof. vm_compute. reflexivity. Qed.
