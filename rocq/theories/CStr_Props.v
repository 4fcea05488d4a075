(** C123: a complex number printed and read back.

    printf, atof and ZEDA's zSNumToken are parameters.  What is assumed of them, for the numerals in
    question only, is [reads] below. *)
From Coq Require Import Reals Lra Lia Ascii String.
From Verif Require Import Prelude Scalar RealLib CStr_Model.
Local Open Scope R_scope.
Local Open Scope string_scope.

Definition stops (r : string) : Prop := r = "" \/ exists a r', r = String a r' /\ (a = "i" \/ a = "+" \/ a = "-")%char.
Definition no_null (s : string) : Prop := forall n, String.get n s <> Some Ascii.zero.
(** the numeral of the positive number [y] is read back with or without a sign, up to an i, a sign or
    the end, as the number printed *)
Record reads (fmt : R -> string) (atof : string -> R) (numtok : string -> string * string) (y : R) : Prop := {
  r_head : exists a r, fmt y = String a r /\ a <> "i"%char /\ a <> "+"%char /\ a <> "-"%char;
  r_null : no_null (fmt y);
  r_neg : fmt (- y) = "-" ++ fmt y;
  r_tok : forall sg r, sg = "" \/ sg = "+" \/ sg = "-" -> stops r -> numtok (sg ++ fmt y ++ r) = (sg ++ fmt y, r);
  r_val : atof (fmt y) = y /\ atof ("+" ++ fmt y) = y /\ atof ("-" ++ fmt y) = - y }.

Lemma app_assoc_s a b c : (a ++ b) ++ c = a ++ b ++ c.
Proof. induction a; cbn; congruence. Qed.
Lemma app_nil_s a : a ++ "" = a.
Proof. induction a; cbn; congruence. Qed.
Lemma cstr_app a b : no_null a -> cstr (a ++ b) = a ++ cstr b.
Proof.
  induction a as [|x a IH]; intros H; auto. cbn [append cstr]. destruct (Ascii.eqb_spec x Ascii.zero) as [->|].
  - exfalso. apply (H O). reflexivity.
  - f_equal. apply IH. intros k. apply (H (S k)).
Qed.

Section Main.
  Variable fmt : R -> string.
  Variable atof : string -> R.
  Variable numtok : string -> string * string.
  Variable bufsiz : nat.
  Hypothesis tok_nil : numtok "" = ("", "").
  Local Notation parse := (zComplexFromStr atof numtok bufsiz).
  Local Notation reads := (reads fmt atof numtok).
  (** a signed numeral *)
  Definition signed (sg : string) (y : R) : string := sg ++ fmt y.
  Definition sval (sg : string) (y : R) : R := if String.eqb sg "-" then - y else y.
  Definition sign (sg : string) : Prop := sg = "" \/ sg = "+" \/ sg = "-".

  Lemma not_i sg y r : sign sg -> reads y ->
    chr (sg ++ fmt y ++ r) 0 <> "i"%char /\ (chr (sg ++ fmt y ++ r) 0 = "+"%char \/ chr (sg ++ fmt y ++ r) 0 = "-"%char -> chr (sg ++ fmt y ++ r) 1 <> "i"%char).
  Proof.
    intros S [ (a & q & E & A1 & A2 & A3) _ _ _ _ ]. rewrite E.
    destruct S as [->|[->| ->]]; cbn; unfold chr; cbn; split; try congruence. intros [?|?]; congruence.
  Qed.
  Lemma sval_ok sg y : sign sg -> reads y -> atof (signed sg y) = sval sg y.
  Proof. intros S [_ _ _ _ (A & B & C)]. destruct S as [->|[->| ->]]; auto. Qed.
  Lemma no_null_sg sg y : sign sg -> reads y -> no_null (signed sg y).
  Proof.
    intros S [_ N _ _ _]. unfold signed. destruct S as [->|[->| ->]]; [exact N| |]; intros [|n]; cbn; try discriminate; apply N.
  Qed.
  Lemma eqb_f a b : a <> b -> Ascii.eqb a b = false.
  Proof. apply Ascii.eqb_neq. Qed.
  Ltac heads H := let H1 := fresh in let H2 := fresh in destruct H as [H1 H2]; rewrite (eqb_f _ _ H1);
    match type of H2 with (?a = _ \/ _) -> ?b <> _ =>
      replace (Ascii.eqb a "+" && Ascii.eqb b "i")%bool with false
        by (symmetry; destruct (Ascii.eqb_spec a "+"); auto; cbn; apply eqb_f; auto);
      replace (Ascii.eqb a "-" && Ascii.eqb b "i")%bool with false
        by (symmetry; destruct (Ascii.eqb_spec a "-"); auto; cbn; apply eqb_f; auto) end.

  Lemma parse_head sg y r : sign sg -> reads y -> stops r -> no_null r -> (String.length (signed sg y ++ r) < bufsiz)%nat ->
    parse (signed sg y ++ r) =
      let re := sval sg y in
      if Ascii.eqb (chr r 0) "i" then Ok (0, re)
      else if (Ascii.eqb (chr r 0) "+" && Ascii.eqb (chr r 1) "i")%bool then Ok (re, 1)
      else if (Ascii.eqb (chr r 0) "-" && Ascii.eqb (chr r 1) "i")%bool then Ok (re, - 1)
      else let '(tkn, buf) := numtok r in Ok (re, if Ascii.eqb (chr buf 0) "i" then atof tkn else 0).
  Proof.
    intros S Ry St Nn L. unfold zComplexFromStr.
    assert (cstr (signed sg y ++ r) = signed sg y ++ r) as ->.
    { rewrite cstr_app by now apply no_null_sg. f_equal. rewrite <- (app_nil_s r) at 1. rewrite cstr_app by auto. apply app_nil_s. }
    replace (bufsiz <=? String.length (signed sg y ++ r))%nat with false by (symmetry; apply Nat.leb_gt; lia).
    unfold signed at 1 2 3 4 5 6. rewrite app_assoc_s. pose proof (not_i sg y r S Ry) as H. heads H.
    rewrite (r_tok _ _ _ _ Ry sg r S St). fold (signed sg y). rewrite (sval_ok sg y S Ry). rs. cbv zeta.
    destruct (Ascii.eqb (chr r 0) "i"); reflexivity.
  Qed.
  Lemma nn_i : no_null "i".
  Proof. intros [|[|n]]; cbn; discriminate. Qed.
  Lemma nn_app a b : no_null a -> no_null b -> no_null (a ++ b).
  Proof.
    intros Ha Hb. induction a as [|x a IH]; auto. intros [|n]; cbn; [exact (Ha O)|]. apply IH. intros k. apply (Ha (S k)).
  Qed.

  (** the forms y, y i, x + y i, x - y i with any sign in front *)
  Theorem C123_real sg y : sign sg -> reads y -> (String.length (signed sg y) < bufsiz)%nat -> parse (signed sg y) = Ok (sval sg y, 0).
  Proof.
    intros S Ry L. rewrite <- (app_nil_s (signed sg y)). rewrite parse_head; auto; [|now left|intros [|n]; discriminate|now rewrite app_nil_s].
    cbn. rewrite tok_nil. reflexivity.
  Qed.
  Theorem C123_imaginary sg y : sign sg -> reads y -> (String.length (signed sg y ++ "i") < bufsiz)%nat ->
    parse (signed sg y ++ "i") = Ok (0, sval sg y).
  Proof. intros S Ry L. rewrite parse_head; auto; [right; exists "i"%char, ""; auto|apply nn_i]. Qed.
  Theorem C123_complex sg x sg' y : sign sg -> reads x -> sg' = "+" \/ sg' = "-" -> reads y ->
    (String.length (signed sg x ++ signed sg' y ++ "i") < bufsiz)%nat ->
    parse (signed sg x ++ signed sg' y ++ "i") = Ok (sval sg x, sval sg' y).
  Proof.
    intros S Rx S' Ry L. assert (sign sg') as Sg' by (destruct S'; subst; unfold sign; auto).
    rewrite parse_head; auto.
    - unfold signed at 1 2 3 4 5 6. rewrite app_assoc_s. pose proof (not_i sg' y "i" Sg' Ry) as H. cbv zeta. heads H.
      rewrite (r_tok _ _ _ _ Ry sg' "i" Sg'); [|right; exists "i"%char, ""; auto]. fold (signed sg' y). rewrite (sval_ok sg' y Sg' Ry). reflexivity.
    - right. unfold signed. destruct S'; subst; cbn; eauto 6.
    - apply nn_app; [now apply no_null_sg|apply nn_i].
  Qed.
  Theorem C123_unit sg x sg' : sign sg -> reads x -> sg' = "+" \/ sg' = "-" -> (String.length (signed sg x ++ sg' ++ "i") < bufsiz)%nat ->
    parse (signed sg x ++ sg' ++ "i") = Ok (sval sg x, sval sg' 1).
  Proof.
    intros S Rx S' L. rewrite parse_head; auto.
    - destruct S'; subst; reflexivity.
    - right. destruct S'; subst; cbn; eauto 6.
    - destruct S'; subst; intros [|[|[|n]]]; cbn; discriminate.
  Qed.

  Lemma fmt_signed x : x <> 0 -> reads (Rabs x) -> exists sg, sign sg /\ fmt x = signed sg (Rabs x) /\ sval sg (Rabs x) = x.
  Proof.
    intros N Rx. destruct (Rlt_le_dec x 0) as [H|H].
    - exists "-". rewrite Rabs_left in * by auto. split; [unfold sign; auto|]. split; [|unfold sval; cbn; lra].
      unfold signed. rewrite <- (r_neg _ _ _ _ Rx). f_equal. lra.
    - exists "". rewrite Rabs_right in * by lra. split; [unfold sign; auto|]. split; reflexivity.
  Qed.
  (** what is printed is read back, except for imaginary numbers above zero *)
  Theorem C123_roundtrip_partial re im :
    (re <> 0 -> reads (Rabs re)) -> (im <> 0 -> Rabs im <> 1 -> reads (Rabs im)) ->
    numtok "0" = ("0", "") -> atof "0" = 0 -> (String.length (zComplexPrint fmt re im) < bufsiz)%nat ->
    ~ (re = 0 /\ 0 < im) -> parse (zComplexPrint fmt re im) = Ok (re, im).
  Proof.
    intros Hre Him T0 A0. unfold zComplexPrint, zComplexImPrint. rs. intros L N.
    destruct (Reqb_spec re 0) as [->|Nre].
    - destruct (Reqb_spec im 0) as [->|Nim].
      + unfold zComplexFromStr. cbn [cstr Ascii.eqb]. cbn in L |- *. replace (bufsiz <=? 1)%nat with false by (symmetry; apply Nat.leb_gt; lia).
        rewrite T0. cbn. rewrite tok_nil, A0. reflexivity.
      + destruct (Rltb_spec 0 im); [exfalso; apply N; auto|]. destruct (Reqb_spec (Rabs im) 1) as [E|E].
        * cbn in L |- *. unfold zComplexFromStr. cbn. replace (bufsiz <=? 2)%nat with false by (symmetry; apply Nat.leb_gt; lia).
          rs. f_equal. f_equal. rewrite Rabs_left in E by lra. lra.
        * change (String "-" (fmt (Rabs im) ++ "i")) with ("-" ++ fmt (Rabs im) ++ "i") in *. rewrite <- app_assoc_s in *.
          fold (signed "-" (Rabs im)) in *. rewrite C123_imaginary; auto; [|unfold sign; auto].
          f_equal. f_equal. unfold sval. cbn. rewrite Rabs_left; lra.
    - destruct (fmt_signed re Nre (Hre Nre)) as (sg & S & E & V). rewrite E in *.
      destruct (Reqb_spec im 0) as [->|Nim].
      + rewrite app_nil_s in *. rewrite C123_real; auto. now rewrite V.
      + assert (exists sg', (sg' = "+" \/ sg' = "-") /\ (if Rltb 0 im then "+" else "-")%char = chr sg' 0 /\ String (chr sg' 0) "" = sg' /\ sval sg' (Rabs im) = im) as (sg' & S' & C1 & C2 & V').
        { destruct (Rltb_spec 0 im); [exists "+"|exists "-"]; repeat split; auto; unfold sval; cbn; [apply Rabs_right|rewrite Rabs_left]; lra. }
        rewrite C1 in *. destruct (Reqb_spec (Rabs im) 1) as [E1|E1].
        * change (String (chr sg' 0) ("" ++ "i")) with (String (chr sg' 0) "" ++ "i") in *. rewrite C2 in *.
          rewrite C123_unit; auto. now rewrite V, <- E1, V'.
        * change (String (chr sg' 0) (fmt (Rabs im) ++ "i")) with (String (chr sg' 0) "" ++ fmt (Rabs im) ++ "i") in *. rewrite C2 in *.
          rewrite <- (app_assoc_s sg') in *. fold (signed sg' (Rabs im)) in *. rewrite C123_complex; auto. now rewrite V, V'.
  Qed.
  (** an imaginary number above zero is printed with a null character in front, and the string read back is empty *)
  Theorem C123_null_refuted im : 0 < im -> atof "" = 0 -> (0 < bufsiz)%nat -> parse (zComplexPrint fmt 0 im) = Ok (0, 0).
  Proof.
    intros H A B. unfold zComplexPrint, zComplexImPrint. rs. destruct (Reqb_spec 0 0); [|lra]. destruct (Reqb_spec im 0); [lra|].
    destruct (Rltb_spec 0 im); [|lra]. unfold zComplexFromStr. cbn. destruct bufsiz; [lia|]. rewrite tok_nil. cbn. rewrite tok_nil. cbn. now rewrite A.
  Qed.
  (** a string of BUFSIZ characters or more is copied beyond the end of the buffer *)
  Theorem C123_overflow_refuted str : no_null str -> (bufsiz <= String.length str)%nat -> parse str = UB.
  Proof.
    intros N L. unfold zComplexFromStr. assert (cstr str = str) as ->.
    { rewrite <- (app_nil_s str) at 1. rewrite cstr_app by auto. apply app_nil_s. }
    now replace (bufsiz <=? String.length str)%nat with true by (symmetry; now apply Nat.leb_le).
  Qed.
End Main.

(** ** a case that meets the hypotheses: the numerals of 3 and 4 *)
Definition fmt0 (y : R) : string := if Reqb y 3 then "3" else "4".
Definition fmt_ex (x : R) : string := if Rltb x 0 then "-" ++ fmt0 (- x) else fmt0 x.
Definition val0 (s : string) : R := if String.eqb s "3" then 3 else if String.eqb s "4" then 4 else 0.
Definition atof_ex (s : string) : R :=
  match s with String a r => if Ascii.eqb a "-" then - val0 r else if Ascii.eqb a "+" then val0 r else val0 s | _ => 0 end.
Fixpoint upto (s : string) : string * string :=
  match s with
  | String a r => if (Ascii.eqb a "i" || Ascii.eqb a "+" || Ascii.eqb a "-")%bool then ("", s) else let '(t, q) := upto r in (String a t, q)
  | _ => ("", "")
  end.
Definition numtok_ex (s : string) : string * string :=
  match s with
  | String a r => if (Ascii.eqb a "+" || Ascii.eqb a "-")%bool then let '(t, q) := upto r in (String a t, q) else upto s
  | _ => ("", "")
  end.
Lemma upto_stops r : stops r -> upto r = ("", r).
Proof. intros [->|(a & q & -> & [->|[->| ->]])]; reflexivity. Qed.
Example C123_case : reads fmt_ex atof_ex numtok_ex 3 /\ reads fmt_ex atof_ex numtok_ex 4 /\
  numtok_ex "" = ("", "") /\ numtok_ex "0" = ("0", "") /\ atof_ex "0" = 0 /\ atof_ex "" = 0 /\
  zComplexPrint fmt_ex 3 (-4) = "3-4i" /\ zComplexFromStr atof_ex numtok_ex 80 "3-4i" = Ok (3, -4).
Proof.
  assert (fmt_ex 3 = "3") as E3. { unfold fmt_ex, fmt0. destruct (Rltb_spec 3 0); [lra|]. destruct (Reqb_spec 3 3); [auto|lra]. }
  assert (fmt_ex 4 = "4") as E4. { unfold fmt_ex, fmt0. destruct (Rltb_spec 4 0); [lra|]. destruct (Reqb_spec 4 3); [lra|auto]. }
  assert (fmt_ex (- 3) = "-3") as M3. { unfold fmt_ex, fmt0. destruct (Rltb_spec (- 3) 0); [|lra]. destruct (Reqb_spec (- - 3) 3); [auto|lra]. }
  assert (fmt_ex (- 4) = "-4") as M4. { unfold fmt_ex, fmt0. destruct (Rltb_spec (- 4) 0); [|lra]. destruct (Reqb_spec (- - 4) 3); [lra|auto]. }
  split; [|split; [|repeat split]].
  - split; rewrite ?E3, ?M3; auto.
    + exists "3"%char, "". repeat split; discriminate.
    + intros [|[|n]]; cbn; discriminate.
    + intros sg r [->|[->| ->]] St; cbn; rewrite (upto_stops r St); reflexivity.
  - split; rewrite ?E4, ?M4; auto.
    + exists "4"%char, "". repeat split; discriminate.
    + intros [|[|n]]; cbn; discriminate.
    + intros sg r [->|[->| ->]] St; cbn; rewrite (upto_stops r St); reflexivity.
  - unfold zComplexPrint, zComplexImPrint. rs. destruct (Reqb_spec 3 0); [lra|]. destruct (Reqb_spec (-4) 0); [lra|].
    destruct (Rltb_spec 0 (-4)); [lra|]. rewrite Rabs_left by lra. replace (- -4) with 4 by lra. destruct (Reqb_spec 4 1); [lra|].
    rewrite E3, E4. reflexivity.
Qed.

Print Assumptions C123_real.
Print Assumptions C123_imaginary.
Print Assumptions C123_complex.
Print Assumptions C123_unit.
Print Assumptions C123_roundtrip_partial.
Print Assumptions C123_null_refuted.
Print Assumptions C123_overflow_refuted.
