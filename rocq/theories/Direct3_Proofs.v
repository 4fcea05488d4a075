(** Proofs about the rounds of the DIRECT method. *)
From Coq Require Import List Arith Lia Reals Lra Permutation Sorted.
From Verif Require Import Prelude Prelude_Proofs Scalar RealLib Direct_Model Direct_Spec Direct_Proofs Direct2_Proofs.
Import ListNotations.
Local Open Scope R_scope.
Local Notation rect := (Direct_Model.rect R).
Local Notation lists := (Direct_Model.lists R).

Lemma first_ok (s : lists) : concat s <> [] -> forall k, exists j c L, first_nonempty s k = Ok (k + j)%nat /\ nth_error s j = Some (c :: L) /\
  forall j' c' L', nth_error s j' = Some (c' :: L') -> (j <= j')%nat.
Proof.
  induction s as [|[|c L] s IH]; intros H k; cbn in H; [congruence| |].
  - destruct (IH H (S k)) as [j [c [L [E [A B]]]]]. exists (S j), c, L. split; [cbn; rewrite E; f_equal; lia|]. split; auto.
    intros [|j'] c' L' E'; cbn in E'; [discriminate|]. specialize (B j' c' L' E'). lia.
  - exists 0%nat, c, L. split; [cbn; f_equal; lia|]. split; auto. intros; lia.
Qed.

Lemma in_concat_nth {A} (s : list (list A)) x : In x (concat s) -> exists l L, nth_error s l = Some L /\ In x L.
Proof. intros H. apply in_concat in H. destruct H as [L [A1 A2]]. apply In_nth_error in A1. destruct A1 as [l E]. eauto. Qed.
Lemma nth_in_concat {A} (s : list (list A)) l L x : nth_error s l = Some L -> In x L -> In x (concat s).
Proof. intros E H. apply in_concat. exists L. split; auto. eapply nth_error_In; eauto. Qed.

Definition somes {A} (l : list (option A)) : list A := flat_map (fun o => match o with Some c => [c] | None => [] end) l.
Lemma somes_upd {A} (l : list (option A)) i c : nth_error l i = Some None -> Permutation (somes (upd l i (Some c))) (c :: somes l).
Proof.
  revert i. induction l as [|a l IH]; intros [|i] H; cbn in H; try discriminate.
  - inversion H; subst. cbn. auto.
  - cbn. destruct a as [a|]; cbn; [|apply IH; auto]. eapply perm_trans; [apply perm_skip, IH; auto|apply perm_swap].
Qed.
Lemma somes_none {A B} (l : list B) : somes (map (fun _ => @None A) l) = [].
Proof. induction l; cbn; auto. Qed.
Lemma skipn_nth {A} (l : list A) k d : (k < length l)%nat -> skipn k l = nth k l d :: skipn (S k) l.
Proof. revert k. induction l as [|a l IH]; intros [|k] H; cbn in *; try lia; auto. rewrite IH by lia. reflexivity. Qed.

Section Sec.
  Variables (f : list R -> R) (dim : nat) (mn mx : list R) (lmax : nat).
  Hypothesis Hdim : (0 < dim)%nat.
  Local Notation F x := (f (to_domain dim mn mx x)).
  Local Notation tiles := (tiles f dim mn mx).
  Local Notation wf := (wf f dim mn mx).
  Local Notation good := (good dim lmax).
  Local Notation at_level := (at_level dim lmax).

  Definition best (s : lists) (m : nat) : Prop :=
    exists c L, nth_error s m = Some (c :: L) /\ forall r, In r (concat s) -> rval c <= rval r.

  Lemma find_min_ok s : good s -> concat s <> [] -> exists v m, _zOptDIRECTRectSetFindMin s = Ok (v, m) /\ best s m /\
    (forall j c L, first_nonempty s 0 = Ok j -> nth_error s j = Some (c :: L) -> (j <= m)%nat).
  Proof.
    intros [Ln G] NE. unfold _zOptDIRECTRectSetFindMin. destruct (first_ok s NE 0) as [i [c0 [L0 [E [A B]]]]]. rewrite E. cbn [bind Nat.add].
    unfold tail_of at 1, get at 1. rewrite A. cbn [bind].
    assert (Hi : (i < length s)%nat) by (apply nth_error_Some; congruence).
    match goal with |- context [for_ i (length s) ?g ?z] => destruct (for_inv (fun k (st : R * nat) => exists c L, nth_error s (snd st) = Some (c :: L) /\ rval c = fst st /\ (i <= snd st)%nat /\
      forall k' c' L', (k' < k)%nat -> nth_error s k' = Some (c' :: L') -> fst st <= rval c') i (length s) g z) as [[v m] [E1 [c [L [H1 [H2 [H3 H4]]]]]]] end.
    - lia.
    - cbn. exists c0, L0. split; auto. split; auto. split; auto. intros k' c' L' Hk E'. specialize (B _ _ _ E'). lia.
    - intros k [v m] Hk [c [L [H1 [H2 [H3 H4]]]]]. cbn in *. rewrite (get_ok _ _ []) by lia. cbn [bind]. eexists. split; [reflexivity|].
      pose proof (nth_error_nth' s [] (n := k) ltac:(lia)) as Ek. destruct (nth k s []) as [|ck Lk].
      + cbn. exists c, L. split; auto. split; auto. split; auto. intros k' c' L' Hk' E'. apply (H4 k' c' L'); auto. assert (k' <> k) by (intros ->; congruence). lia.
      + rs. destruct (Rltb_spec (rval ck) v) as [V|V]; cbn.
        * exists ck, Lk. split; auto. split; auto. split; [lia|]. intros k' c' L' Hk' E'. destruct (Nat.eq_dec k' k) as [->|N].
          -- rewrite Ek in E'. inversion E'; subst. lra.
          -- specialize (H4 k' c' L' ltac:(lia) E'). lra.
        * exists c, L. split; auto. split; auto. split; auto. intros k' c' L' Hk' E'. destruct (Nat.eq_dec k' k) as [->|N].
          -- rewrite Ek in E'. inversion E'; subst. lra.
          -- apply (H4 k' c' L'); auto. lia.
    - cbn in *. exists v, m. split; [exact E1|]. split.
      + exists c, L. split; auto. intros r Hr. destruct (in_concat_nth _ _ Hr) as [l [M [Em Ir]]]. destruct M as [|c' L']; [destruct Ir|].
        assert (l < length s)%nat by (apply nth_error_Some; congruence). specialize (H4 l c' L' ltac:(lia) Em). rewrite H2.
        destruct (G _ _ Em) as [_ S]. destruct Ir as [<-|Ir]; auto. inversion S as [|? ? _ Fs]; subst. rewrite Forall_forall in Fs. specialize (Fs r Ir). unfold le_val in Fs. lra.
      + intros j c' L' Ej _. inversion Ej; subst. auto.
  Qed.

  Definition rate (i : nat) (c : rect) (k : nat) (t : rect) : R := 3 ^ i * (rval c - rval t) / (1 - / 3 ^ (k - i)).
  Lemma next_max s i m c cm L : (i < m)%nat -> nth_error s m = Some (cm :: L) -> rval cm <= rval c ->
    exists j cj Lj, next_level s i m c = Ok j /\ (i < j <= m)%nat /\ nth_error s j = Some (cj :: Lj) /\
      forall k t Lk, (i < k <= m)%nat -> nth_error s k = Some (t :: Lk) -> rate i c k t <= rate i c j cj.
  Proof.
    intros Him E Hv. assert (Hm : (m < length s)%nat) by (apply nth_error_Some; congruence). unfold next_level.
    match goal with |- context [for_ (S i) (S m) ?g ?z] => destruct (for_inv (fun k (st : R * nat) => 0 <= fst st /\
       ((k <= m)%nat /\ fst st = 0 /\ snd st = S i \/ (i < snd st < k)%nat /\ exists cj Lj, nth_error s (snd st) = Some (cj :: Lj) /\ fst st = rate i c (snd st) cj) /\
       forall k' t Lk, (i < k' < k)%nat -> nth_error s k' = Some (t :: Lk) -> rate i c k' t <= fst st) (S i) (S m) g z) as [[gm j] [E1 [H1 [H2 H3]]]] end.
    - lia.
    - cbn. split; [lra|]. split; [left; split; [lia|auto]|]. intros; lia.
    - intros k [gm j] Hk [H1 [H2 H3]]. cbn [fst snd] in *. rewrite (get_ok _ _ []) by lia. cbn [bind]. eexists. split; [reflexivity|].
      pose proof (nth_error_nth' s [] (n := k) ltac:(lia)) as Ek. destruct (nth k s []) as [|ck Lk].
      + cbn [fst snd]. split; auto. assert (k <> m) by (intros ->; congruence). split.
        * destruct H2 as [[A [B C]]|[A B]]; [left; split; [lia|auto]|right; split; [lia|auto]].
        * intros k' t Lk Hk' E'. apply (H3 k' t Lk); auto. assert (k' <> k) by (intros ->; congruence). lia.
      + rs. rewrite !pow3_R. replace (3 ^ i * (rval c - rval ck) / (1 - 1 / 3 ^ (k - i))) with (rate i c k ck) by (unfold rate, Rdiv; rewrite Rmult_1_l; reflexivity).
        destruct (Rleb_spec gm (rate i c k ck)) as [V|V]; cbn [fst snd].
        * split; [lra|]. split; [right; split; [lia|]; eauto|]. intros k' t Lk' Hk' E'. destruct (Nat.eq_dec k' k) as [->|N]; [rewrite Ek in E'; inversion E'; subst; lra|].
          specialize (H3 k' t Lk' ltac:(lia) E'). lra.
        * split; auto. split.
          -- destruct H2 as [[A [B C]]|[A B]]; [|right; split; [lia|auto]].
             destruct (Nat.eq_dec k m) as [->|N]; [|left; split; [lia|auto]]. exfalso. rewrite E in Ek. inversion Ek; subst ck Lk.
             assert (0 <= rate i c m cm); [|lra]. unfold rate. pose proof (pow3_pos i) as P. assert (1 < 3 ^ (m - i)). { apply Rlt_pow_R1; [lra|lia]. }
             apply Rmult_le_pos; [apply Rmult_le_pos; lra|]. apply Rlt_le, Rinv_0_lt_compat.
             assert (/ 3 ^ (m - i) < 1); [|lra]. rewrite <- Rinv_1. apply Rinv_lt_contravar; lra.
          -- intros k' t Lk' Hk' E'. destruct (Nat.eq_dec k' k) as [->|N]; [rewrite Ek in E'; inversion E'; subst; lra|]. apply (H3 k' t Lk'); auto. lia.
    - cbn [fst snd] in *. rewrite E1. cbn [bind]. destruct H2 as [[A _]|[A [cj [Lj [B C]]]]]; [lia|]. exists j, cj, Lj. split; auto. split; [lia|]. split; auto.
      intros k t Lk Hk Et. rewrite <- C. apply (H3 k t Lk); auto. lia.
  Qed.
  Lemma next_ok s i m c cm L : (i < m)%nat -> nth_error s m = Some (cm :: L) -> rval cm <= rval c ->
    exists j, next_level s i m c = Ok j /\ (i < j <= m)%nat /\ exists cj Lj, nth_error s j = Some (cj :: Lj).
  Proof. intros H1 H2 H3. destruct (next_max s i m c cm L H1 H2 H3) as [j [cj [Lj [A [B [C _]]]]]]. exists j. split; auto. split; auto. exists cj, Lj. auto. Qed.

  Lemma ident_ok k : forall s por i m c L cm Lm, good s -> length por = S lmax -> (i <= m)%nat -> (m - i < k)%nat ->
    nth_error s i = Some (c :: L) -> nth_error s m = Some (cm :: Lm) -> (forall r, In r (concat s) -> rval cm <= rval r) ->
    (forall l, (i <= l < S lmax)%nat -> nth_error por l = Some None) ->
    (forall l r, nth_error por l = Some (Some r) -> at_level l r /\ (l <= m)%nat) ->
    exists s' por', ident_loop k s por i m = Ok (s', por') /\ good s' /\ length por' = S lmax /\
      Permutation (concat s' ++ somes por') (concat s ++ somes por) /\
      (forall l r, nth_error por' l = Some (Some r) -> at_level l r /\ (l <= m)%nat) /\ somes por' <> [].
  Proof.
    induction k as [|k IH]; intros s por i m c L cm Lm G Lp Him Hk Ei Em Hb Hn Ha; [lia|]. cbn [ident_loop].
    destruct (delete_ok f dim mn lmax s i c L G Ei) as [s' [E [G' [P Es]]]]. rewrite E. cbn [bind].
    assert (Hi : (i < length s)%nat) by (apply nth_error_Some; congruence). destruct G as [Ln G].
    rewrite set_ok by lia. cbn [bind].
    pose proof (Hn i ltac:(lia)) as Ni. pose proof (somes_upd por i c Ni) as Q.
    assert (Ha' : forall l r, nth_error (upd por i (Some c)) l = Some (Some r) -> at_level l r /\ (l <= m)%nat).
    { intros l r El. apply nth_error_upd_some in El; [|lia]. destruct El as [[-> El]|[_ El]]; [|apply Ha; auto]. inversion El; subst. split; auto.
      destruct (G i (c :: L) Ei) as [Fa _]. inversion Fa; auto. }
    assert (PP : Permutation (concat s' ++ somes (upd por i (Some c))) (concat s ++ somes por)).
    { rewrite P, Q. cbn. apply Permutation_sym, Permutation_middle. }
    destruct (Nat.eqb_spec i m) as [->|N].
    - exists s', (upd por m (Some c)). split; auto. split; auto. split; [rewrite upd_length; auto|]. split; auto. split; auto.
      intros Z. rewrite Z in Q. apply Permutation_nil in Q. discriminate.
    - assert (Em' : nth_error s' m = Some (cm :: Lm)) by (rewrite Es, nth_error_upd_neq by auto; auto).
      assert (Hv : rval cm <= rval c) by (apply Hb; apply (nth_in_concat s i (c :: L)); [exact Ei|left; auto]).
      destruct (next_ok s' i m c cm Lm ltac:(lia) Em' Hv) as [j [Ej [Hj [cj [Lj Ecj]]]]].
      rewrite Ej. cbn [bind]. destruct (IH s' (upd por i (Some c)) j m cj Lj cm Lm) as [s2 [por2 [E2 [G2 [L2 [P2 [A2 N2]]]]]]]; auto; try lia.
      + rewrite upd_length; auto.
      + intros r Hr. apply Hb. eapply Permutation_in; [apply Permutation_sym, P|]. right; auto.
      + intros l Hl. rewrite nth_error_upd_neq by lia. apply Hn. lia.
      + exists s2, por2. split; auto. split; auto. split; auto. split; [rewrite P2; auto|]. auto.
  Qed.

  (** the cells chosen *)
  Lemma ident_sel k : forall s por i m c L cm Lm s' por', length por = S lmax -> length s = S lmax -> (i <= m)%nat ->
    nth_error s i = Some (c :: L) -> nth_error s m = Some (cm :: Lm) -> (forall r, In r (concat s) -> rval cm <= rval r) ->
    (forall l, (i <= l < S lmax)%nat -> nth_error por l = Some None) ->
    ident_loop k s por i m = Ok (s', por') ->
    (forall l, (l < i)%nat -> nth_error por' l = nth_error por l) /\ nth_error por' i = Some (Some c) /\ nth_error por' m = Some (Some cm) /\
    forall l d, (i <= l)%nat -> nth_error por' l = Some (Some d) -> (l <= m)%nat /\ (exists Ld, nth_error s l = Some (d :: Ld)) /\
      ((l < m)%nat -> exists j e, (l < j <= m)%nat /\ nth_error por' j = Some (Some e) /\ (forall l', (l < l' < j)%nat -> nth_error por' l' = Some None) /\
        forall q t Lq, (l < q <= m)%nat -> nth_error s q = Some (t :: Lq) -> rate l d q t <= rate l d j e).
  Proof.
    induction k as [|k IH]; intros s por i m c L cm Lm s' por' Lp Ls Him Ei Em Hb Hn; [discriminate|]. cbn [ident_loop].
    assert (Hi : (i < length s)%nat) by (apply nth_error_Some; congruence).
    assert (Hm : (m < length s)%nat) by (apply nth_error_Some; congruence).
    unfold _zOptDIRECTRectSetDeleteCell, get. rewrite Ei. cbn [bind]. rewrite set_ok by auto. cbn [bind]. rewrite set_ok by lia. cbn [bind].
    destruct (Nat.eqb_spec i m) as [->|N].
    - intros H. injection H as <- <-. assert (Ec : c = cm) by congruence. subst cm. split; [intros l Hl; rewrite nth_error_upd_neq by lia; auto|].
      rewrite nth_error_upd_eq by lia. split; auto. split; auto. intros l d Hl El.
      apply nth_error_upd_some in El; [|lia]. destruct El as [[-> El]|[N El]].
      + injection El as ->. split; [lia|]. split; [eauto|lia].
      + assert (l < S lmax)%nat by (rewrite <- Lp; apply nth_error_Some; congruence). rewrite Hn in El by lia. discriminate.
    - assert (Em' : nth_error (upd s i L) m = Some (cm :: Lm)) by (rewrite nth_error_upd_neq by auto; auto).
      assert (Hv : rval cm <= rval c) by (apply Hb; apply (nth_in_concat s i (c :: L)); [exact Ei|left; auto]).
      destruct (next_max (upd s i L) i m c cm Lm ltac:(lia) Em' Hv) as [j [cj [Lj [Ej [Hj [Ecj Hmax]]]]]]. rewrite Ej. cbn [bind]. intros H.
      assert (Hb' : forall r, In r (concat (upd s i L)) -> rval cm <= rval r).
      { intros r Hr. apply Hb. destruct (concat_upd s i L Hi) as [a [b [E1 E2]]]. rewrite E2 in Hr. rewrite E1, (nth_error_nth _ _ _ Ei).
        rewrite !in_app_iff in *. cbn [In]. tauto. }
      destruct (IH (upd s i L) (upd por i (Some c)) j m cj Lj cm Lm s' por') as [I1 [I2 [I3 I4]]]; auto; try lia; try (rewrite upd_length; auto).
      { intros l Hl. rewrite nth_error_upd_neq by lia. apply Hn. lia. }
      assert (Pi : nth_error por' i = Some (Some c)) by (rewrite I1 by lia; apply nth_error_upd_eq; lia).
      assert (Mid : forall l', (i < l' < j)%nat -> nth_error por' l' = Some None) by (intros l' Hl'; rewrite I1 by lia; rewrite nth_error_upd_neq by lia; apply Hn; lia).
      split; [intros l Hl; rewrite I1 by lia; apply nth_error_upd_neq; lia|]. split; auto. split; auto. intros l d Hl El.
      destruct (Nat.eq_dec l i) as [->|Nl].
      + rewrite Pi in El. injection El as <-. split; auto. split; [eauto|]. intros _. exists j, cj. split; [lia|]. split; auto. split; auto.
        intros q t Lq Hq Eq. apply (Hmax q t Lq); [lia|]. rewrite nth_error_upd_neq by lia. auto.
      + destruct (Nat.lt_ge_cases l j) as [Hlj|Hlj]; [rewrite Mid in El by lia; discriminate|]. destruct (I4 l d Hlj El) as [J1 [[Ld J2] J3]].
        rewrite nth_error_upd_neq in J2 by lia. split; auto. split; [eauto|]. intros Hlm. destruct (J3 Hlm) as [j' [e [K1 [K2 [K3 K4]]]]]. exists j', e. split; auto. split; auto. split; auto.
        intros q t Lq Hq Eq. apply (K4 q t Lq); [lia|]. rewrite nth_error_upd_neq by lia. auto.
  Qed.

  Lemma por_divide_ok s por : good s -> length por = S lmax -> (forall l r, nth_error por l = Some (Some r) -> at_level l r /\ (l < lmax)%nat) ->
    tiles (concat s ++ somes por) -> somes por <> [] ->
    exists s', _zOptDIRECTRectPORSetDivide f dim mn mx por s = Ok s' /\ good s' /\ tiles (concat s') /\ (length (concat s ++ somes por) + 2 <= length (concat s'))%nat.
  Proof.
    intros G Lp Ha HT NE. unfold _zOptDIRECTRectPORSetDivide.
    match goal with |- context [for_ 0 (length s - 1) ?g ?z] => destruct (for_inv (fun k s' => good s' /\ tiles (concat s' ++ somes (skipn k por)) /\
      (length (concat s ++ somes por) + 2 * (length (somes por) - length (somes (skipn k por))) <= length (concat s' ++ somes (skipn k por)))%nat /\
      (length (somes (skipn k por)) <= length (somes por))%nat) 0 (length s - 1) g z) as [s' [E [G' [T' [C' _]]]]] end.
    - lia.
    - rewrite skipn_O. split; auto. split; auto. split; lia.
    - intros k s' Hk [G' [T' [C' M']]]. destruct (G) as [Ln _]. assert (Hkp : (k < length por)%nat) by lia.
      rewrite (get_ok _ _ None) by auto. cbn [bind]. rewrite (skipn_nth por k None Hkp) in T', C', M'. pose proof (nth_error_nth' por None Hkp) as Ek.
      destruct (nth k por None) as [c|].
      + cbn [somes flat_map app] in T', C', M'. fold (somes (skipn (S k) por)) in T', C', M'. destruct (Ha k c Ek) as [Hc Hkl].
        assert (T2 : tiles (c :: concat s' ++ somes (skipn (S k) por))). { eapply tiles_perm; [exact T'|]. apply Permutation_sym, Permutation_middle. }
        pose proof (tiles_wf _ _ _ _ _ T2) as W. apply Forall_inv in W.
        destruct (divide_ok f dim mn mx lmax s' k c (somes (skipn (S k) por)) G' Hkl W Hc T2) as [s2 [E2 [G2 [T3 C3]]]].
        exists s2. split; auto. split; auto. split; auto. rewrite !app_length in *. cbn [length] in *. lia.
      + exists s'. split; auto.
    - destruct G as [Ln _]. replace (length s - 1)%nat with lmax in * by lia.
      assert (Z : somes (skipn lmax por) = []).
      { rewrite (skipn_nth por lmax None), (skipn_all2 (n := S lmax)) by lia. destruct (nth lmax por None) as [c|] eqn:En.
        - pose proof (nth_error_nth' por None (n := lmax) ltac:(lia)) as Ek. rewrite En in Ek. destruct (Ha _ _ Ek). lia.
        - reflexivity. }
      rewrite Z in T', C'. rewrite app_nil_r in T', C'. exists s'. split; auto. split; auto. split; auto. cbn [length] in C'.
      destruct (somes por) as [|c l]; [congruence|]. cbn [length] in C'. lia.
  Qed.

  (** one round *)
  Lemma round_ok s : good s -> tiles (concat s) -> concat s <> [] ->
    exists m, best s m /\ (m <= lmax)%nat /\
      (m = lmax /\ _zOptDIRECTRectPORIdent s = Ok (m, None) \/
       (m < lmax)%nat /\ exists s1 por s2, _zOptDIRECTRectPORIdent s = Ok (m, Some (s1, por)) /\ _zOptDIRECTRectPORSetDivide f dim mn mx por s1 = Ok s2 /\
         good s2 /\ tiles (concat s2) /\ (length (concat s) + 2 <= length (concat s2))%nat).
  Proof.
    intros G HT NE. destruct (find_min_ok s G NE) as [v [m [E [B Hf]]]]. exists m. split; auto. pose proof G as [Ln Gs]. destruct B as [cm [Lm [Em Hb]]].
    assert (Hm : (m < length s)%nat) by (apply nth_error_Some; congruence). split; [lia|].
    unfold _zOptDIRECTRectPORIdent. rewrite E. cbn [bind]. destruct (Nat.eqb_spec (S m) (length s)) as [D|D]; [left; split; [lia|auto]|]. right. split; [lia|].
    destruct (first_ok s NE 0) as [i [c [L [Ef [Ei _]]]]]. cbn [Nat.add] in Ef. rewrite Ef. cbn [bind]. specialize (Hf i c L Ef Ei).
    destruct (ident_ok (length s) s (map (fun _ => None) s) i m c L cm Lm) as [s1 [por [E1 [G1 [L1 [P1 [A1 N1]]]]]]]; auto; try lia.
    - rewrite map_length; auto.
    - intros l Hl. rewrite nth_error_map. destruct (nth_error s l) eqn:El; [reflexivity|]. apply nth_error_None in El. lia.
    - intros l r. rewrite nth_error_map. destruct (nth_error s l); cbn; discriminate.
    - rewrite somes_none, app_nil_r in P1. rewrite E1. cbn [bind].
      destruct (por_divide_ok s1 por) as [s2 [E2 [G2 [T2 C2]]]]; auto.
      + intros l r El. destruct (A1 l r El). split; auto. lia.
      + eapply tiles_perm; [exact HT|]. apply Permutation_sym; auto.
      + exists s1, por, s2. split; auto. split; auto. split; auto. split; auto. rewrite (Permutation_length P1) in C2. auto.
  Qed.

  Lemma levels_bound s : good s -> Forall (fun r => length (rlev r) = dim) (concat s) -> Forall (fun r => (lsum (rlev r) <= dim * lmax)%nat) (concat s).
  Proof.
    intros [Ln G] W. rewrite Forall_forall in *. intros r Hr. specialize (W r Hr). destruct (in_concat_nth _ _ Hr) as [l [L [El Il]]].
    assert (Hl : (l < length s)%nat) by (apply nth_error_Some; congruence).
    destruct (G l L El) as [Fa _]. rewrite Forall_forall in Fa. destruct (Fa r Il) as [A1 [_ A3]].
    assert (B : forall i, (i < dim)%nat -> (nth i (rlev r) 0 <= lmax)%nat).
    { intros i Hi. destruct (Nat.eq_dec l lmax) as [->|N]; [rewrite A3; auto|]. destruct (A1 i Hi); lia. }
    rewrite <- W in B |- *. clear - B. induction (rlev r) as [|a l IH]; cbn [lsum length]; [lia|]. pose proof (B 0%nat ltac:(cbn; lia)) as B0. cbn in B0.
    specialize (IH (fun i Hi => B (S i) ltac:(cbn; lia))). cbn. lia.
  Qed.

  Lemma loop_ok k : forall i s m, good s -> tiles (concat s) -> concat s <> [] ->
    exists i' s' m', direct_loop f dim mn mx k i s m = Ok (i', s', m') /\ good s' /\ tiles (concat s') /\ concat s' <> [] /\
      (length (concat s) + 2 * (i' - i) <= length (concat s'))%nat /\ (i <= i' <= i + k)%nat /\
      ((i' < i + k)%nat -> m' = lmax /\ best s' lmax).
  Proof.
    induction k as [|k IH]; intros i s m G HT NE; cbn [direct_loop].
    - exists i, s, m. split; auto. split; auto. split; auto. split; auto. split; [lia|]. split; [lia|]. lia.
    - destruct (round_ok s G HT NE) as [m1 [B [Hm [[-> E]|[Hlt [s1 [por [s2 [E [E2 [G2 [T2 C2]]]]]]]]]]]]; rewrite E; cbn [bind].
      + exists i, s, lmax. split; auto. split; auto. split; auto. split; auto. split; [lia|]. split; [lia|]. auto.
      + rewrite E2. cbn [bind]. destruct (IH (S i) s2 m1) as [i' [s' [m' [E3 [G3 [T3 [N3 [C3 [B3 D3]]]]]]]]]; auto.
        * destruct (concat s2); [cbn in C2; lia|discriminate].
        * exists i', s', m'. split; auto. split; auto. split; auto. split; auto. split; [lia|]. split; [lia|]. intros H. apply D3. lia.
  Qed.

  Lemma init_ok : exists s, _zOptDIRECTRectSetInit f dim mn mx lmax = Ok s /\ good s /\ tiles (concat s) /\ length (concat s) = 1%nat.
  Proof.
    unfold _zOptDIRECTRectSetInit, _zOptDIRECTRectSetInsert. rewrite (get_ok _ _ []) by (rewrite map_length, seq_length; lia). cbn [bind].
    rewrite set_ok by (rewrite map_length, seq_length; lia). rewrite nth_const by lia. cbn [_zOptDIRECTRectListInsert].
    eexists. split; [reflexivity|]. set (r := _zOptDIRECTRectEval _ _ _ _ _).
    assert (E : concat (upd (map (fun _ => []) (List.seq 0 (S lmax))) 0 [r]) = [r]).
    { cbn. f_equal. clear. generalize 1%nat. induction lmax; intros; cbn; auto. }
    split; [|split].
    - split; [rewrite upd_length, map_length, seq_length; auto|]. intros l L El. apply nth_error_upd_some in El; [|rewrite map_length, seq_length; lia].
      destruct El as [[-> ->]|[N El]].
      + split; [|repeat constructor]. constructor; auto. unfold at_level, r. cbn [rlev _zOptDIRECTRectEval]. split; [intros i Hi; rewrite nth_const by auto; auto|].
        split; [exists 0%nat; rewrite nth_const by auto; auto|]. intros E0 i Hi. rewrite nth_const by auto. auto.
      + rewrite nth_error_map in El. destruct (nth_error (List.seq 0 (S lmax)) l); [|discriminate]. inversion El. repeat constructor.
    - rewrite E. apply tiles_init; auto. unfold r. cbn [rx _zOptDIRECTRectEval]. apply map_ext. intros _. rs. simpl. lra.
    - rewrite E. reflexivity.
  Qed.
End Sec.

(** * The order of the cuts *)
Section Order.
  Variables (f : list R -> R) (dim : nat) (mn mx : list R).
  Definition le_w (a b : pattern (T := R)) : Prop := pw a <= pw b.
  Lemma pinsert_sorted l (p : pattern (T := R)) : StronglySorted le_w l -> StronglySorted le_w (pattern_insert l p).
  Proof.
    induction 1 as [|c l Hs IH Hc]; cbn [pattern_insert]; [repeat constructor|]. rs. destruct (Rltb_spec (pw p) (pw c)) as [H|H].
    - constructor; [constructor; auto|]. constructor; [unfold le_w; lra|]. eapply Forall_impl; [|exact Hc]. unfold le_w. intros; lra.
    - constructor; auto. eapply Permutation_Forall; [apply Permutation_sym, pinsert_perm|]. constructor; auto. unfold le_w. lra.
  Qed.
  Lemma directions_sorted r lv idx : directions f dim mn mx lv r = Ok idx ->
    StronglySorted le_w idx /\ Forall (fun p => pw p = Rmin (rval (pos p)) (rval (neg p))) idx.
  Proof.
    unfold directions, for_. generalize (dim - 0)%nat. intros n. generalize 0%nat. intros k.
    assert (H0 : StronglySorted le_w [] /\ Forall (fun p : pattern (T := R) => pw p = Rmin (rval (pos p)) (rval (neg p))) []) by (split; constructor).
    revert H0. generalize (@nil (pattern (T := R))) as l. revert k. induction n as [|n IH]; intros k l [H1 H2] E; cbn [loop] in E; [injection E as <-; auto|].
    destruct (get (rlev r) k) as [x|]; [|discriminate]. cbn [bind] in E. destruct (x =? lv)%nat; [|apply (IH (S k) l); auto].
    unfold _zOptDIRECTRectPatternCreate in E. destruct (get (rx r) k) as [y|]; [|discriminate]. cbn [bind] in E.
    destruct (set (rx r) k _) as [xp|]; [|discriminate]. cbn [bind] in E. destruct (set (rx r) k _) as [xn|]; [|discriminate]. cbn [bind] in E.
    eapply IH; [|exact E]. split; [apply pinsert_sorted; auto|]. eapply Permutation_Forall; [apply Permutation_sym, pinsert_perm|]. constructor; auto.
    cbn [pw pos neg]. rs. unfold Rmin. match goal with |- (if Rltb ?a ?b then _ else _) = _ => destruct (Rltb_spec a b), (Rle_dec a b); lra end.
  Qed.

  Lemma insert_in (s s' : lists) lv r : _zOptDIRECTRectSetInsert s lv r = Ok s' -> forall q, In q (concat s') <-> q = r \/ In q (concat s).
  Proof.
    unfold _zOptDIRECTRectSetInsert. destruct (get s lv) as [l|] eqn:E; [|discriminate]. cbn [bind]. apply get_inv in E. destruct E as [Hl E]. rewrite set_ok by auto. intros H. injection H as <-. intros q.
    destruct (concat_upd s lv (_zOptDIRECTRectListInsert l r) Hl) as [a [b [E1 E2]]]. rewrite E1, E2, (nth_error_nth _ _ _ E). rewrite !in_app_iff.
    pose proof (insert_perm l r) as P. split.
    - intros [H|[H|H]]; auto. apply (Permutation_in _ P) in H. destruct H as [<-|H]; auto.
    - intros [->|[H|[H|H]]]; auto; right; left; apply (Permutation_in _ (Permutation_sym P)); cbn; auto.
  Qed.

  Lemma divide_keep idx : forall s lv r s', divide_loop idx s lv r = Ok s' -> forall q, In q (concat s) -> In q (concat s').
  Proof.
    induction idx as [|p idx IH]; intros s lv r s' H q Hq; cbn [divide_loop] in H.
    - apply (insert_in _ _ _ _ H). auto.
    - destruct (set (rlev r) (dir p) (S lv)) as [lev|]; [|discriminate]. cbn [bind] in H.
      destruct (_zOptDIRECTRectSetInsert s _ _) as [s1|] eqn:E1; [|discriminate]. cbn [bind] in H.
      destruct (_zOptDIRECTRectSetInsert s1 _ _) as [s2|] eqn:E2; [|discriminate]. cbn [bind] in H.
      eapply IH; [exact H|]. apply (insert_in _ _ _ _ E2). right. apply (insert_in _ _ _ _ E1). auto.
  Qed.

  (** the pieces of a direction are not cut in the directions that come later *)
  Lemma divide_order a : forall p b s lv r s', divide_loop (a ++ p :: b) s lv r = Ok s' ->
    exists lev, In (Rect (rx (pos p)) (rval (pos p)) lev) (concat s') /\ In (Rect (rx (neg p)) (rval (neg p)) lev) (concat s') /\
      forall d, ~ In d (map dir (a ++ [p])) -> nth d lev 0%nat = nth d (rlev r) 0%nat.
  Proof.
    induction a as [|p0 a IH]; intros p b s lv r s' H; cbn [app divide_loop] in H.
    - destruct (set (rlev r) (dir p) (S lv)) as [lev|] eqn:El; [|discriminate]. cbn [bind] in H. apply set_inv in El. destruct El as [_ ->].
      destruct (_zOptDIRECTRectSetInsert s _ _) as [s1|] eqn:E1; [|discriminate]. cbn [bind] in H.
      destruct (_zOptDIRECTRectSetInsert s1 _ _) as [s2|] eqn:E2; [|discriminate]. cbn [bind] in H.
      eexists. split; [|split].
      + apply (divide_keep _ _ _ _ _ H). apply (insert_in _ _ _ _ E2). right. apply (insert_in _ _ _ _ E1). left; reflexivity.
      + apply (divide_keep _ _ _ _ _ H). apply (insert_in _ _ _ _ E2). left; reflexivity.
      + intros d Hd. apply nth_upd_neq. intros E. apply Hd. left. exact E.
    - destruct (set (rlev r) (dir p0) (S lv)) as [lev|] eqn:El; [|discriminate]. cbn [bind] in H. apply set_inv in El. destruct El as [_ ->].
      destruct (_zOptDIRECTRectSetInsert s _ _) as [s1|] eqn:E1; [|discriminate]. cbn [bind] in H.
      destruct (_zOptDIRECTRectSetInsert s1 _ _) as [s2|] eqn:E2; [|discriminate]. cbn [bind] in H.
      destruct (a ++ p :: b) eqn:Eab; [destruct a; discriminate|]. rewrite <- Eab in H.
      destruct (IH _ _ _ _ _ _ H) as [lev [I1 [I2 I3]]]. exists lev. split; auto. split; auto. intros d Hd. rewrite I3 by (intros I; apply Hd; right; exact I).
      cbn [rlev]. apply nth_upd_neq. intros E. apply Hd. left. exact E.
  Qed.
End Order.
