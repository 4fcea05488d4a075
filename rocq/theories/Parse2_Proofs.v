(** The value of the cell of an expression, and the scanner. *)
From Coq Require Import Reals ZArith List Bool Lia Lra String Ascii.
From Verif Require Import Prelude Scalar RealLib Parse_Model Parse_Spec Parse_Proofs.
Import ListNotations.

Section Value.
  Local Open Scope R_scope.
  Variables (ztol huge pi_ e_ : R) (powf : R -> R -> R) (modf : R -> R -> res R) (fct : R -> res R) (libm : string -> R -> R).
  Local Notation ev := (ev ztol huge pi_ e_ powf modf fct libm).
  Local Notation means := (means ztol pi_ e_ powf libm builtin (fun x y r => modf x y = Ok r) (fun x y => fct x = Ok y)).

  Lemma builtin_in f : In f builtin -> is_builtin f = true.
  Proof. intros H. apply existsb_exists. exists f. split; [exact H|apply String.eqb_refl]. Qed.
  Lemma op_eval o x y z : op_means ztol powf (fun x y r => modf x y = Ok r) o x y z ->
    _zmParseOpEval ztol huge powf modf fct o x y = Ok z.
  Proof.
    intros H. inversion H; subst; cbn [_zmParseOpEval]; try reflexivity; try assumption;
      rewrite is_tol_R; destruct (Rleb_spec (Rabs y) ztol); try lra; reflexivity.
  Qed.
  Definition not_comma (c : cell R) : Prop := match c with CChunk OComma _ _ => False | _ => True end.
  Lemma opener_value p : match hd_error (opener p) with None => Ok 0 | Some a => fst (ev a) end = Ok 0.
  Proof. destruct p; reflexivity. Qed.
  Lemma cell_value e v : means e v -> forall p, fst (ev (cellof p e)) = Ok v /\ not_comma (cellof p e).
  Proof.
    induction 1 as [x|x|o a b x y z Ha IHa Hb IHb Ho|a x y Ha IHa Hf|a x Ha IHa|a x Ha IHa|f a x Hf Ha IHa|k a x Ha IHa]; intros p; cbn [cellof].
    - split; [reflexivity|exact Logic.I].
    - split; [reflexivity|exact Logic.I].
    - split; [|inversion Ho; exact Logic.I]. cbn [ev fst]. rewrite (proj1 (IHa p)), (proj1 (IHb Inner)). cbn [bind]. now apply op_eval.
    - split; [|exact Logic.I]. cbn [ev fst]. rewrite (proj1 (IHa p)). cbn [bind]. exact Hf.
    - split; [|exact Logic.I]. cbn [ev fst sign_op]. rewrite opener_value, (proj1 (IHa Inner)). cbn [bind _zmParseOpEval]. f_equal. rs. lra.
    - split; [|exact Logic.I]. cbn [ev fst sign_op]. rewrite opener_value, (proj1 (IHa Inner)). cbn [bind _zmParseOpEval]. f_equal. rs. lra.
    - split; [|exact Logic.I]. destruct (IHa Inner) as [V C]. cbn [ev fst]. unfold func_argc. rewrite (builtin_in f Hf). cbn [repeat].
      assert (E : snd (ev (cellof Inner a)) [0] = Ok ([x], 1%nat)).
      { destruct (cellof Inner a) as [| | | | |o ? ?] eqn:Ec; try destruct o; cbn in C; try tauto; cbn [ev snd fst] in V |- *; rewrite V; reflexivity. }
      change (@s0 R _) with 0. rewrite E. reflexivity.
    - apply IHa.
  Qed.
  Theorem run_value e v : wellformed e -> guarded Start e -> means e v ->
    exists N, forall n, (N <= n)%nat -> run ztol huge pi_ e_ powf modf fct libm n (written e) = Done v.
  Proof.
    intros W G M. destruct (parse_expr e W G) as [N HN]. exists N. intros n Hn. destruct (HN n Hn) as (p & E & S).
    unfold run. rewrite E. unfold zmParseEval. rewrite S. cbn [cl]. unfold _zmParseCellEval. now rewrite (proj1 (cell_value e v M Start)).
  Qed.

  Lemma erase_means e v : means e v -> means (write (erase e)) v.
  Proof.
    induction 1; cbn [erase write]; repeat (first [eassumption|econstructor]).
  Qed.
End Value.

Section Terms.
  Context {T : Type}.
  Lemma rank_par (e : expr T) o : (rank (EPar Par e) <= op_prio o)%nat /\ (rank (EPar Par e) < op_prio o)%nat.
  Proof. cbn [rank]. destruct o; cbn; lia. Qed.
  Lemma write_wf (t : term T) : infix_only t -> wellformed (write t).
  Proof.
    induction t; cbn [infix_only write wellformed]; auto.
    - intros (Ho & A & B). repeat split; auto; apply rank_par.
    - intros A. split; [cbn; lia|auto].
    - intros A. split; [cbn; lia|auto].
  Qed.
  Lemma write_guarded (t : term T) : forall p, guarded p (write t).
  Proof.
    induction t; intros p; cbn [write guarded]; auto.
    - destruct p; cbn [enter sign_allowed]; auto.
    - destruct p; cbn [enter fun_allowed]; auto.
  Qed.
  Lemma erase_write (t : term T) : erase (write t) = t.
  Proof. induction t; cbn [write erase]; congruence. Qed.
End Terms.

Section Lex.
  Context {T : Type}.
  Variables (numeral : list ascii -> T -> Prop) (scan_num : list ascii -> option (T * list ascii)).
  Hypothesis SC : scans numeral scan_num.
  Local Notation lex1 := (lex1 scan_num). Local Notation lex := (lex scan_num).

  Lemma delim_props c : is_delim c = true -> is_opchar c = false /\ is_alnum c = false /\ is_alpha c = false /\ Ascii.eqb c "("%char = false.
  Proof. clear. destruct c as [[] [] [] [] [] [] [] []]; vm_compute; intros; repeat split; congruence. Qed.
  Lemma alpha_props c : is_alpha c = true -> is_delim c = false /\ is_opchar c = false /\ is_alnum c = true.
  Proof. clear. destruct c as [[] [] [] [] [] [] [] []]; vm_compute; intros; repeat split; congruence. Qed.

  Lemma span_all f a c r : Forall (fun x => f x = true) a -> f c = false -> span f (a ++ c :: r) = (a, c :: r).
  Proof. clear. intros H Hc. induction H; cbn; [now rewrite Hc|]. now rewrite H, IHForall. Qed.
  Lemma skip_blank b s : Forall (fun c => is_delim c = true) b -> skip_delim (b ++ s) = skip_delim s.
  Proof.
    clear. intros H. unfold skip_delim. induction H; cbn [span app]; [reflexivity|]. rewrite H. destruct (span is_delim (l ++ s)). exact IHForall.
  Qed.
  Lemma skip_none c s : is_delim c = false -> skip_delim (c :: s) = c :: s.
  Proof. clear. intros H. unfold skip_delim. cbn [span]. now rewrite H. Qed.
  Lemma lex1_blank b s : Forall (fun c => is_delim c = true) b -> lex1 (b ++ s) = lex1 s.
  Proof. intros H. unfold lex1. now rewrite skip_blank. Qed.
  Lemma span_none f c s : f c = false -> span f (c :: s) = ([], c :: s).
  Proof. clear. intros H. cbn. now rewrite H. Qed.

  Lemma name_string v : name (list_ascii_of_string v) = v.
  Proof. clear. apply string_of_list_ascii_of_string. Qed.

  Lemma lex1_name v c s r d : list_ascii_of_string v = c :: s -> is_alpha c = true -> Forall (fun c => is_alnum c = true) s -> is_alnum d = false ->
    lex1 (list_ascii_of_string v ++ d :: r) = if Ascii.eqb d "("%char then Some (TFunc v, r) else Some (TVar v, d :: r).
  Proof.
    intros E A F D. destruct (alpha_props c A) as (A1 & A2 & A3). unfold lex1. rewrite E. cbn [app]. rewrite skip_none by exact A1.
    rewrite span_none by exact A2. cbn [find_op]. rewrite A.
    change (c :: s ++ d :: r) with ((c :: s) ++ d :: r). rewrite span_all by (try constructor; auto).
    rewrite <- E, name_string, E.
    assert (N : scan_num ((c :: s) ++ d :: r) = None) by (apply SC; auto). rewrite N.
    destruct (Ascii.eqb d "("%char) eqn:Ed.
    - apply Ascii.eqb_eq in Ed. subst. reflexivity.
    - destruct d as [[] [] [] [] [] [] [] []]; try reflexivity; discriminate.
  Qed.
  Lemma lex1_token t w c r : spells numeral t w -> is_delim c = true -> lex1 (w ++ c :: r) = Some (t, c :: r).
  Proof.
    intros H Hc. destruct (delim_props c Hc) as (C1 & C2 & C3 & C4). inversion H; subst.
    - destruct SC as (S1 & S2 & _). destruct (S2 w x H0) as (d & s & -> & D1 & D2 & D3). specialize (S1 _ _ c r H0 Hc).
      unfold lex1. cbn [app] in *. rewrite skip_none, span_none by auto. cbn [find_op]. rewrite D3. now rewrite S1.
    - destruct H0 as (d & s & E & A & F). rewrite (lex1_name v d s) by auto. now rewrite C4.
    - unfold lex1. cbn [app]. rewrite skip_none by (destruct o; reflexivity).
      change (op_char o :: c :: r) with ([op_char o] ++ c :: r). rewrite span_all; [|repeat constructor; destruct o; reflexivity|exact C1].
      assert (F : find_op [op_char o] = Some o) by (destruct o; reflexivity). now rewrite F.
    - destruct H0 as (d & s & E & A & F). rewrite <- app_assoc. cbn [app]. rewrite (lex1_name f d s) by auto. reflexivity.
    - assert (N : scan_num (open_char k :: c :: r) = None) by (apply SC; eauto).
      unfold lex1. cbn [app]. rewrite skip_none, span_none by (destruct k; reflexivity). cbn [find_op].
      replace (is_alpha (open_char k)) with false by (destruct k; reflexivity). rewrite N. destruct k; reflexivity.
    - assert (N : scan_num (close_char k :: c :: r) = None) by (apply SC; eauto).
      unfold lex1. cbn [app]. rewrite skip_none, span_none by (destruct k; reflexivity). cbn [find_op].
      replace (is_alpha (close_char k)) with false by (destruct k; reflexivity). rewrite N. destruct k; reflexivity.
  Qed.
  Lemma lex_blank m b s : Forall (fun c => is_delim c = true) b -> lex m (b ++ s) = lex m s.
  Proof. intros H. destruct m; cbn [Parse_Model.lex]; [reflexivity|]. now rewrite lex1_blank. Qed.
  Lemma lex_spelled ts s : spelled numeral ts s -> forall m, (length ts <= m)%nat -> lex m s = ts.
  Proof.
    induction 1 as [|t ts w b s Hw Hb Fb H IH]; intros m Hm.
    - destruct m; [reflexivity|]. cbn [Parse_Model.lex]. unfold lex1. cbn. now rewrite (proj2 (proj2 (proj2 SC))).
    - destruct m as [|m]; [cbn in Hm; lia|]. cbn [Parse_Model.lex]. destruct b as [|c b]; [congruence|]. inversion Fb; subst.
      cbn [app]. rewrite (lex1_token t w c) by auto. f_equal. change (c :: b ++ s) with ((c :: b) ++ s). rewrite lex_blank by auto. apply IH. cbn in Hm. lia.
  Qed.
  Lemma spelled_length ts s : spelled numeral ts s -> (length ts <= length s)%nat.
  Proof. clear. induction 1 as [|t ts w b s Hw Hb Fb H IH]; cbn; [lia|]. rewrite !app_length. destruct b; [congruence|cbn; lia]. Qed.
End Lex.
