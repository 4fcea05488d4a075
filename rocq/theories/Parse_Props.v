(** C42: the parser of mathematical expressions. *)
From Coq Require Import Reals ZArith List Bool Lia Lra String Ascii.
From Verif Require Import Prelude Scalar RealLib Parse_Model Parse_Spec Parse_Proofs Parse2_Proofs.
Import ListNotations.

Section C42.
  Local Open Scope R_scope.
  Variables (ztol huge pi_ e_ : R) (powf : R -> R -> R) (modf : R -> R -> res R) (fct : R -> res R) (libm : string -> R -> R).
  Local Notation means := (means ztol pi_ e_ powf libm builtin (fun x y r => modf x y = Ok r) (fun x y => fct x = Ok y)).
  Local Notation run := (run ztol huge pi_ e_ powf modf fct libm).
  Local Notation run_string := (run_string ztol huge pi_ e_ powf modf fct libm).

  (** Every expression that is written according to the precedence (operators of equal rank group from the left), where
      a sign or a function begins the input or follows two opening parentheses, is parsed and evaluated to what it
      means.  Missing: signs and functions elsewhere, for which it is refuted below. *)
  Theorem C42_standard_precedence_partial e v : wellformed e -> guarded Start e -> means e v ->
    exists N, forall n, (N <= n)%nat -> run n (written e) = Done v.
  Proof. apply run_value. Qed.

  (** an empty text is zero *)
  Theorem C42_empty scan_num n : (0 < n)%nat -> run n [] = Done 0 /\ run_string scan_num n [] = Done 0.
  Proof. intros Hn. destruct n; [lia|]. split; reflexivity. Qed.

  (** the same from the characters *)
  Theorem C42_standard_precedence_string_partial numeral scan_num e v s :
    scans numeral scan_num -> spelled numeral (written e) s -> wellformed e -> guarded Start e -> means e v ->
    exists N, forall n, (N <= n)%nat -> run_string scan_num n s = Done v.
  Proof.
    intros SC SP W G M. destruct (run_value _ huge _ _ _ _ _ _ e v W G M) as [N HN]. exists N. intros n Hn. unfold Parse_Model.run_string.
    rewrite (lex_spelled numeral scan_num SC _ _ SP); [now apply HN|]. eapply spelled_length; eauto.
  Qed.

  (** Every term of numbers, variables, operators, signs, factorials and functions can be written in this way, without
      a change of its meaning. *)
  Theorem C42_every_term_can_be_written (t : term R) : infix_only t ->
    wellformed (write t) /\ guarded Start (write t) /\ erase (write t) = t /\ (forall e v, erase e = t -> means e v -> means (write t) v).
  Proof.
    intros H. split; [now apply write_wf|]. split; [apply write_guarded|]. split; [apply erase_write|].
    intros e v <- M. now apply erase_means.
  Qed.
  Theorem C42_every_term_evaluated t e v : infix_only t -> erase e = t -> means e v ->
    exists N, forall n, (N <= n)%nat -> run n (written (write t)) = Done v.
  Proof.
    intros H E M. destruct (C42_every_term_can_be_written t H) as (W & G & _ & P). apply C42_standard_precedence_partial; auto. now apply (P e).
  Qed.
End C42.

(** ** refutations *)
Section Refuted.
  Local Open Scope R_scope.
  Definition lib (f : string) (x : R) : R := if String.eqb f "abs" then Rabs x else x.
  Local Notation means := (means 0 PI (exp 1) Rpower lib builtin (fun x y r => (fun _ _ => UB) x y = Ok r) (fun x y => (fun _ => UB) x = Ok y)).
  Local Notation run := (run 0 0 PI (exp 1) Rpower (fun _ _ => UB) (fun _ => UB) lib).

  Lemma chunk_hangs l ps c t o s1 n : plain c ->
    tok_op (Tok c l t :: s1) = None -> (exists u s', s1 = u :: s' /\ cl u = COp o) ->
    @in_loop R n (l - 1) ps (Tok c l t :: s1) = Running.
  Proof.
    intros P E (u & s' & -> & Eu). induction n; [reflexivity|]. rewrite in_loop_S. unfold _zmParseStack, tok_spec. rewrite E. cbn [option_map].
    destruct u as [cu lu tu]. cbn in Eu. subst cu. destruct c; cbn in P; try tauto; cbn [in_after cl]; exact IHn.
  Qed.

  (** 2*(-1): the closing parenthesis is searched for ever *)
  Theorem C42_sign_in_parentheses_refuted : exists e v, wellformed e /\ means e v /\ forall n, run n (written e) = Running.
  Proof.
    exists (EBin OMul (ENum 2) (EPar Par (ESign true (ENum 1)))), (2 * - 1). split; [cbn; repeat split; try lia; discriminate|].
    split; [repeat econstructor|]. intros [|n]; [reflexivity|]. unfold Parse_Model.run, zmParse_tokens. cbn [written app].
    cbn -[in_loop]. rewrite in_loop_S. cbn -[in_loop].
    change 0%Z with (1 - 1)%Z at 1. rewrite (chunk_hangs 1 _ _ _ OMul); auto; cbn; eauto.
  Qed.
  (** 1+abs(): the same for a function without an argument *)
  Theorem C42_no_argument_hangs_refuted : forall n, run n [TNum 1; TOp OAdd; TFunc "abs"; TClose Par] = Running.
  Proof.
    intros [|n]; [reflexivity|]. unfold Parse_Model.run, zmParse_tokens. cbn -[in_loop]. rewrite in_loop_S. cbn -[in_loop].
    change 0%Z with (1 - 1)%Z at 1. rewrite (chunk_hangs 1 _ _ _ OAdd); auto; cbn; eauto.
  Qed.

  Ltac loops n k := destruct n as [|n]; [exfalso; lia|]; match k with O => idtac | S ?k => loops n k end.
  (** abs(-1) is abs(0) - 1 *)
  Theorem C42_sign_of_argument_refuted : exists e v w, wellformed e /\ means e v /\ v <> w /\
    forall n, (5 <= n)%nat -> run n (written e) = Done w.
  Proof.
    exists (EFun "abs" (ESign true (ENum 1))), (Rabs (- 1)), (Rabs 0 - 1). split; [cbn; lia|].
    split; [change (Rabs (-1)) with (lib "abs" (- 1)); repeat econstructor; cbn; tauto|].
    split; [rewrite Rabs_R0, (Rabs_left (- 1)) by lra; lra|].
    intros n Hn. loops n 4%nat. reflexivity.
  Qed.
  (** 1+abs(2)*3 is (1+abs(2))*3 *)
  Theorem C42_function_precedence_refuted : exists e v w, wellformed e /\ means e v /\ v <> w /\
    forall n, (5 <= n)%nat -> run n (written e) = Done w.
  Proof.
    exists (EBin OAdd (ENum 1) (EBin OMul (EFun "abs" (ENum 2)) (ENum 3))), (1 + Rabs 2 * 3), ((1 + Rabs 2) * 3).
    split; [cbn; repeat split; try lia; discriminate|].
    split; [change (Rabs 2) with (lib "abs" 2); repeat econstructor; cbn; tauto|].
    split; [rewrite (Rabs_pos_eq 2) by lra; lra|].
    intros n Hn. loops n 4%nat. reflexivity.
  Qed.
  (** (abs(1)+2)*3 is abs(1)+2: what follows the parenthesis is ignored *)
  Theorem C42_function_in_parentheses_refuted : exists e v w, wellformed e /\ means e v /\ v <> w /\
    forall n, (5 <= n)%nat -> run n (written e) = Done w.
  Proof.
    exists (EBin OMul (EPar Par (EBin OAdd (EFun "abs" (ENum 1)) (ENum 2))) (ENum 3)), ((Rabs 1 + 2) * 3), (Rabs 1 + 2).
    split; [cbn; repeat split; try lia; discriminate|].
    split; [change (Rabs 1) with (lib "abs" 1); repeat econstructor; cbn; tauto|].
    split; [rewrite Rabs_R1; lra|].
    intros n Hn. loops n 4%nat. reflexivity.
  Qed.
  (** 2^3^2 is (2^3)^2 *)
  Theorem C42_power_groups_from_the_left_refuted n : (5 <= n)%nat ->
    run n [TNum 2; TOp OPow; TNum 3; TOp OPow; TNum 2] = Done (Rpower (Rpower 2 3) 2).
  Proof. intros Hn. loops n 4%nat. reflexivity. Qed.
  (** A missing operand before a closing parenthesis, and a function that is not builtin, f(1) *)
  Theorem C42_syntax_error_crashes_refuted n : (5 <= n)%nat ->
    run n [TOpen Par; TNum 2; TOp OMul; TClose Par] = Crash /\ run n [TFunc "f"; TNum 1; TClose Par] = Crash.
  Proof. intros Hn. loops n 4%nat. split; reflexivity. Qed.

  (** digits as numerals *)
  Local Open Scope char_scope.
  Definition digit (c : ascii) : bool := let n := nat_of_ascii c in ((48 <=? n) && (n <=? 57))%nat.
  Definition numeral1 (w : list ascii) (x : R) : Prop := exists c, w = [c] /\ digit c = true /\ x = INR (nat_of_ascii c - 48).
  Definition scan1 (s : list ascii) : option (R * list ascii) :=
    match s with c :: r => if digit c then Some (INR (nat_of_ascii c - 48), r) else None | [] => None end.
  Lemma scan1_ok : scans numeral1 scan1.
  Proof.
    assert (D : forall c, digit c = true -> is_delim c = false /\ is_opchar c = false /\ is_alpha c = false).
    { intros c. destruct c as [[] [] [] [] [] [] [] []]; vm_compute; intros; repeat split; congruence. }
    assert (A : forall c, is_alpha c = true -> digit c = false).
    { intros c. destruct c as [[] [] [] [] [] [] [] []]; vm_compute; intros; congruence. }
    repeat split.
    - intros w x c r (d & -> & Hd & ->) _. cbn [app scan1]. now rewrite Hd.
    - intros w x (d & -> & Hd & ->). exists d, []. split; [reflexivity|]. now apply D.
    - intros c r [H|[k [->| ->]]]; cbn [scan1]; [now rewrite A|destruct k; reflexivity|destruct k; reflexivity].
  Qed.
  (** 3!+2: the two operators are read as one and dropped, then there is no operator between 3 and 2 *)
  Theorem C42_adjacent_operators_refuted n : (5 <= n)%nat ->
    lex scan1 10 (list_ascii_of_string "3!+2") = [TNum (INR 3); TNum (INR 2)] /\
    run_string 0 0 PI (exp 1) Rpower (fun _ _ => UB) (fun x => Ok 6%R) lib scan1 n (list_ascii_of_string "3!+2") = Done 0%R.
  Proof. intros Hn. loops n 4%nat. split; reflexivity. Qed.
End Refuted.

(** ** the hypotheses can be met *)
Section Examples.
  Local Open Scope R_scope.
  (** -2*3+{4-1}/((abs(5-7))) *)
  Example e1 : expr R :=
    EBin OAdd (ESign true (EBin OMul (ENum 2) (ENum 3)))
      (EBin ODiv (EPar Brace (EBin OSub (ENum 4) (ENum 1))) (EPar Par (EPar Par (EFun "abs" (EBin OSub (ENum 5) (ENum 7)))))).
  Ltac mean := repeat (first [eapply mn_num|eapply mn_bin|eapply mn_neg|eapply mn_fun|eapply mn_par|apply m_add|apply m_sub|apply m_mul|apply m_div]).
  Lemma e1_divisor : 0 < Rabs (lib "abs" (5 - 7)).
  Proof. change (lib "abs" (5 - 7)) with (Rabs (5 - 7)). rewrite Rabs_Rabsolu, Rabs_left by lra. lra. Qed.
  Example e1_wellformed : wellformed e1. Proof. cbn. repeat split; try lia; discriminate. Qed.
  Example e1_guarded : guarded Start e1. Proof. cbn. auto. Qed.
  Example e1_means : means 0 PI (exp 1) Rpower lib builtin (fun _ _ _ => False) (fun _ _ => False) e1 (- (2 * 3) + (4 - 1) / lib "abs" (5 - 7)).
  Proof.
    mean; try exact e1_divisor; cbn; tauto.
  Qed.
  Example e1_evaluated : exists N, forall n, (N <= n)%nat ->
    run 0 0 PI (exp 1) Rpower (fun _ _ => UB) (fun _ => UB) lib n (written e1) = Done (- (2 * 3) + (4 - 1) / lib "abs" (5 - 7)).
  Proof.
    apply C42_standard_precedence_partial; [exact e1_wellformed|exact e1_guarded|].
    mean; try exact e1_divisor; cbn; tauto.
  Qed.
  (** the characters "( 4 - 1 ) * 2 " *)
  Definition e2 : expr R := EBin OMul (EPar Par (EBin OSub (ENum (INR 4)) (ENum (INR 1)))) (ENum (INR 2)).
  Example e2_spelled : spelled numeral1 (written e2) (list_ascii_of_string "( 4 - 1 ) * 2 ").
  Proof.
    assert (B : Forall (fun c => is_delim c = true) [" "%char]) by (repeat constructor).
    assert (N : [" "%char] <> []) by discriminate.
    apply (sd_cons _ (TOpen Par) _ ["("%char] [" "%char]); auto; [constructor|].
    apply (sd_cons _ (TNum (INR 4)) _ ["4"%char] [" "%char]); auto; [constructor; exists "4"%char; auto|].
    apply (sd_cons _ (TOp OSub) _ ["-"%char] [" "%char]); auto; [apply (sp_op _ OSub)|].
    apply (sd_cons _ (TNum (INR 1)) _ ["1"%char] [" "%char]); auto; [constructor; exists "1"%char; auto|].
    apply (sd_cons _ (TClose Par) _ [")"%char] [" "%char]); auto; [apply (sp_close _ Par)|].
    apply (sd_cons _ (TOp OMul) _ ["*"%char] [" "%char]); auto; [apply (sp_op _ OMul)|].
    apply (sd_cons _ (TNum (INR 2)) _ ["2"%char] [" "%char] []); auto; [constructor; exists "2"%char; auto|].
    constructor.
  Qed.
  Example e2_evaluated : exists N, forall n, (N <= n)%nat ->
    run_string 0 0 PI (exp 1) Rpower (fun _ _ => UB) (fun _ => UB) lib scan1 n (list_ascii_of_string "( 4 - 1 ) * 2 ") = Done ((INR 4 - INR 1) * INR 2).
  Proof.
    apply (C42_standard_precedence_string_partial _ _ _ _ _ _ _ _ numeral1 scan1 e2); auto using scan1_ok, e2_spelled.
    - cbn. repeat split; try lia; discriminate.
    - cbn. auto.
    - repeat econstructor.
  Qed.
End Examples.

Print Assumptions C42_standard_precedence_partial.
Print Assumptions C42_standard_precedence_string_partial.
Print Assumptions C42_every_term_can_be_written.
Print Assumptions C42_every_term_evaluated.
Print Assumptions C42_empty.
Print Assumptions C42_sign_in_parentheses_refuted.
Print Assumptions C42_function_precedence_refuted.
