(** Theorems for C68: the printed expression of a polynomial. *)
From Coq Require Import Reals Lra QArith.
Close Scope Q_scope.
From Verif Require Import Prelude Prelude_Proofs Scalar RealLib Complex_Model Complex_Spec Complex_Props Pex_Spec PexStr_Model.
Local Open Scope R_scope.

(** Reading the string as an expression in x: signed terms, a term being an optional
    number, an optional variable with an optional power.  [acc]: terms read so far, [s]:
    sign of the current term, [cur]: its value (None: nothing read yet). *)
Definition cval (o : option R) : R := match o with None => 0 | Some v => v end.
Definition cone (o : option R) : R := match o with None => 1 | Some v => v end.
Fixpoint read (l : list (piece R)) (x acc s : R) (cur : option R) : R :=
  match l with
  | [] => acc + s * cval cur
  | PZero :: r => read r x acc s (Some 0)
  | PPlus :: r => read r x (acc + s * cval cur) 1 None
  | PMinus :: r => read r x (acc + s * cval cur) (-1) None
  | PNum k :: r => read r x acc s (Some (cone cur * k))
  | PVar :: PPow n :: r => read r x acc s (Some (cone cur * x ^ n))
  | PVar :: r => read r x acc s (Some (cone cur * x))
  | PPow _ :: r => read r x acc s cur
  end.
Definition value (l : list (piece R)) (x : R) : R := read l x 0 1 None.

Section Str.
  Variables (tol : R) (p : list R) (dim : nat).
  Hypothesis TOL : 0 <= tol.
  Hypothesis ONE : forall i, zEqual (T := R) (Rabs (coef p i)) 1 tol = true -> Rabs (coef p i) = 1.
  Definition body (i : nat) : list (piece R) :=
    let c := coef p i in
    if Reqb c 0 then [] else (if zEqual (T := R) (Rabs c) 1 tol then [] else [PNum (Rabs c)]) ++ PVar :: (if (1 <? i)%nat then [PPow i] else []).
  Definition sign (i : nat) : list (piece R) :=
    if ((i <? dim)%nat && Rltb 0 (coef p i))%bool then [PPlus] else if Rltb (coef p i) 0 then [PMinus] else [].
  (** terms n-1 .. 1 *)
  Fixpoint terms (n : nat) : list (piece R) :=
    match n with O => [] | S O => [] | S n => (sign n ++ body n) ++ terms n end.
  Lemma term_ok i str k : (0 < i < length p)%nat -> exists k', term tol p dim i (str, k) = Ok (str ++ sign i ++ body i, k').
  Proof.
    intros H. unfold term. rewrite (get_ok p i 0) by lia. cbn [bind fst snd]. unfold sign, body, coef. rs.
    destruct (Reqb_spec (nth i p 0) 0) as [E|N].
    - rewrite E. destruct (Rltb_spec 0 0); [lra|]. rewrite andb_false_r, !app_nil_r. eauto.
    - destruct (Nat.eqb_spec i 0); [lia|]. cbn [bind]. destruct (Nat.ltb_spec 0 i); [|lia].
      change (Rabs (nth i p 0)) with (sabs (nth i p 0)).
      exists (Some (sabs (nth i p 0))). f_equal. f_equal.
      destruct (((i <? dim)%nat && Rltb 0 (nth i p 0))%bool), (Rltb (nth i p 0) 0), (zEqual (sabs (nth i p 0)) 1 tol), (1 <? i)%nat; rewrite <- ?app_assoc, ?app_nil_r; reflexivity.
  Qed.
  Lemma terms_ok n : (n <= length p)%nat -> (0 < n)%nat -> forall str k, exists k',
    for_down n (term tol p dim) (str, k) = (s' <- Ok (str ++ terms n, k') ;; term tol p dim 0 s').
  Proof.
    induction n as [|n IH]; intros L P str k; [lia|]. cbn [for_down]. destruct n as [|n].
    - exists k. cbn [terms for_down bind]. rewrite app_nil_r. destruct (term tol p dim 0 (str, k)); reflexivity.
    - destruct (term_ok (S n) str k) as (k1 & E); [lia|]. rewrite E. cbn [bind].
      destruct (IH ltac:(lia) ltac:(lia) (str ++ sign (S n) ++ body (S n)) k1) as (k2 & E2). exists k2.
      cbn [bind] in E2 |- *. rewrite E2. cbn [terms]. now rewrite <- app_assoc.
  Qed.
  Lemma sgn_abs c : c < 0 -> -1 * Rabs c = c. Proof. intros. rewrite Rabs_left by auto. ring. Qed.
  Lemma read_body i rest x acc s : (0 < i)%nat -> coef p i <> 0 -> (forall n r, rest <> PPow n :: r) ->
    read (body i ++ rest) x acc s None = read rest x acc s (Some (Rabs (coef p i) * x ^ i)).
  Proof.
    intros H N NP. unfold body. destruct (Reqb_spec (coef p i) 0); [tauto|].
    assert (V : forall cur, read (PVar :: (if (1 <? i)%nat then [PPow i] else []) ++ rest) x acc s cur = read rest x acc s (Some (cone cur * x ^ i))).
    { intros cur. destruct (Nat.ltb_spec 1 i); cbn [app read]; [reflexivity|]. replace i with 1%nat by lia. rewrite pow_1.
      destruct rest as [|[] r]; auto. exfalso. eapply NP; reflexivity. }
    destruct (zEqual (Rabs (coef p i)) 1 tol) eqn:E.
    - apply ONE in E. cbn [app]. rewrite V, E. cbn [cone]. reflexivity.
    - transitivity (read (PVar :: (if (1 <? i)%nat then [PPow i] else []) ++ rest) x acc s (Some (1 * Rabs (coef p i)))); [reflexivity|].
      rewrite V. cbn [cone]. now rewrite Rmult_1_l.
  Qed.
  Lemma terms_nopow n k r : terms n <> PPow k :: r.
  Proof.
    induction n as [|n IH]; [discriminate|]. destruct n as [|n]; [discriminate|]. cbn [terms].
    unfold sign, body. destruct (_ && _)%bool; [discriminate|]. destruct (Rltb_spec (coef p (S n)) 0); [discriminate|]. cbn [app].
    destruct (Reqb_spec (coef p (S n)) 0); auto. destruct (zEqual _ _ _); discriminate.
  Qed.
  Lemma read_terms n : (n <= dim)%nat -> (0 < n)%nat -> forall x acc s cur,
    read (terms n) x acc s cur = acc + s * cval cur + rsum (n - 1) (fun i => coef p (S i) * x ^ (S i)).
  Proof.
    induction n as [|n IH]; intros L P x acc s cur; [lia|]. destruct n as [|n]. { cbn. ring. }
    cbn [terms]. replace (S (S n) - 1)%nat with (S n) by lia. cbn [rsum].
    rewrite <- app_assoc. unfold sign. destruct (Nat.ltb_spec (S n) dim); [|lia]. cbn [andb].
    assert (NP := terms_nopow (S n)).
    destruct (Rltb_spec 0 (coef p (S n))) as [G|G]; [|destruct (Rltb_spec (coef p (S n)) 0) as [G'|G']].
    - cbn [app read]. rewrite read_body by (auto; try lra; lia). rewrite IH by lia. cbn [cval]. rewrite Rabs_right by lra. replace (S n - 1)%nat with n by lia. ring.
    - cbn [app read]. rewrite read_body by (auto; try lra; lia). rewrite IH by lia. cbn [cval]. rewrite <- Rmult_assoc, sgn_abs by auto. replace (S n - 1)%nat with n by lia. ring.
    - assert (Z : coef p (S n) = 0) by lra. unfold body. rewrite Z. destruct (Reqb_spec 0 0); [|lra]. cbn [app]. rewrite IH by lia. replace (S n - 1)%nat with n by lia. ring.
  Qed.
End Str.

(** no constant term: the string denotes the polynomial.  [ONE]: the coefficients that
    are equal to one within the tolerance are exactly one. *)
Theorem C68_expression_partial tol p x : 0 <= tol -> (2 <= length p)%nat -> coef p 0 = 0 ->
  (forall i, zEqual (T := R) (Rabs (coef p i)) 1 tol = true -> Rabs (coef p i) = 1) ->
  exists l, zPexSExpr tol p = Ok l /\ value l x = peval p x.
Proof.
  intros TOL L Z ONE. unfold zPexSExpr. destruct (length p) as [|dim] eqn:EL; [lia|].
  destruct (terms_ok tol p dim ONE (S dim)) with (str := @nil (piece R)) (k := @None R) as (k & E); [lia|lia|]. rewrite E. cbn [bind app].
  unfold term. rewrite (get_ok p 0 0) by lia. cbn [bind fst snd]. fold (coef p 0). rewrite Z. rs.
  destruct (Rltb_spec 0 0); [lra|]. rewrite andb_false_r. destruct (Reqb_spec 0 0); [|lra]. cbn [rmap fst]. eexists; split; [reflexivity|].
  destruct dim as [|dim]; [lia|]. unfold value, peval. rewrite EL. rewrite rsum_S_l. rewrite Z, Rmult_0_l, Rplus_0_l. cbn [rsum].
  change (terms tol p (S dim) (S (S dim))) with ((sign p (S dim) (S dim) ++ body tol p (S dim)) ++ terms tol p (S dim) (S dim)).
  rewrite <- app_assoc. unfold sign at 1. rewrite Nat.ltb_irrefl. cbn [andb].
  assert (NP := terms_nopow tol p (S dim) (S dim)).
  destruct (Rltb_spec (coef p (S dim)) 0) as [G|G].
  - cbn [app read]. rewrite (read_body tol p) by (auto; try lra; lia). rewrite (read_terms tol p (S dim)) by (auto; lia). cbn [cval].
    rewrite <- Rmult_assoc, sgn_abs by auto. replace (S dim - 1)%nat with dim by lia. ring.
  - destruct (Reqb_spec (coef p (S dim)) 0) as [Z'|N].
    + unfold body at 1. rewrite Z'. destruct (Reqb_spec 0 0); [|lra]. cbn [app]. rewrite (read_terms tol p (S dim)) by (auto; lia). cbn [cval]. replace (S dim - 1)%nat with dim by lia. ring.
    + cbn [app]. rewrite (read_body tol p) by (auto; try lra; lia). rewrite (read_terms tol p (S dim)) by (auto; lia). cbn [cval].
      rewrite Rabs_right by lra. replace (S dim - 1)%nat with dim by lia. ring.
Qed.
Theorem C68_null tol : zPexSExpr (T := R) tol [] = Ok [PZero].
Proof. reflexivity. Qed.
Definition ex68 : list R := [0; 2; -3].
Example C68_case : (2 <= length ex68)%nat /\ coef ex68 0 = 0 /\
  forall i, zEqual (T := R) (Rabs (coef ex68 i)) 1 (1/10) = true -> Rabs (coef ex68 i) = 1.
Proof.
  split; [cbn; lia|]. split; auto. intros i E. exfalso. apply zEqual_R in E. unfold near in E.
  assert (K : forall a, 0 <= a -> Rabs (a - 1) <= 1 / 10 * Rmax 1 (Rmax (Rabs a) (Rabs 1)) -> 10 * (a - 1) <= Rmax 1 a /\ 10 * (1 - a) <= Rmax 1 a).
  { intros a Ha H. rewrite (Rabs_pos_eq a), (Rabs_pos_eq 1) in H by lra. replace (Rmax 1 (Rmax a 1)) with (Rmax 1 a) in H.
    - assert (G1 := Rle_abs (a - 1)). assert (G2 := Rle_abs (- (a - 1))). rewrite Rabs_Ropp in G2. split; lra.
    - unfold Rmax. destruct (Rle_dec a 1), (Rle_dec 1 a), (Rle_dec 1 1), (Rle_dec a a); destruct (Rle_dec 1 a); lra. }
  assert (J : forall a, a = 0 \/ a = 2 \/ a = 3 -> ~ Rabs (a - 1) <= 1 / 10 * Rmax 1 (Rmax (Rabs a) (Rabs 1))).
  { intros a Ha H. destruct (K a) as (K1 & K2); auto. { lra. } revert K1 K2. unfold Rmax. destruct (Rle_dec 1 a); intros; lra. }
  apply J in E; auto. unfold coef, ex68. destruct i as [|[|[|[|i]]]]; cbn [nth]; rewrite ?Rabs_R0; auto.
  - rewrite Rabs_pos_eq by lra. auto.
  - rewrite Rabs_left by lra. right; right. ring.
Qed.
(** with a constant term the number printed for it is that of another term: 2 x + 3 is
    printed as "2 x + 2" *)
Theorem C68_constant_term_refuted :
  zPexSExpr (T := Q) 0%Q [3%Q; 2%Q] = Ok [PNum 2%Q; PVar; PPlus; PNum 2%Q] /\
  (forall x, value [PNum 2; PVar; PPlus; PNum 2] x = 2 * x + 2) /\ (forall x, peval [3; 2] x = 3 + 2 * x).
Proof. split; [reflexivity|]. split; intros x; [unfold value; cbn; ring|unfold peval, coef; cbn; ring]. Qed.
(** a constant: an uninitialised variable is printed *)
Theorem C68_constant_refuted tol c : c <> 0 -> zPexSExpr tol [c] = UB.
Proof.
  intros N. unfold zPexSExpr. cbn [length for_down]. unfold term. cbn [get nth_error bind fst snd]. rs.
  destruct (Reqb_spec c 0); [tauto|]. reflexivity.
Qed.
Print Assumptions C68_expression_partial.
Print Assumptions C68_constant_term_refuted.
