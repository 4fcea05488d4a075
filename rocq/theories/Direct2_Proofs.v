(** Proofs about the operations of the DIRECT method. *)
From Coq Require Import List Arith Lia Reals Lra Permutation Sorted.
From Verif Require Import Prelude Prelude_Proofs Scalar RealLib Direct_Model Direct_Spec Direct_Proofs.
Import ListNotations.
Local Open Scope R_scope.
Local Notation rect := (Direct_Model.rect R).
Local Notation lists := (Direct_Model.lists R).

Lemma concat_upd {A} (s : list (list A)) i l : (i < length s)%nat -> exists a b, concat s = a ++ nth i s [] ++ b /\ concat (upd s i l) = a ++ l ++ b.
Proof.
  revert i. induction s as [|x s IH]; intros [|i] H; cbn in *; try lia.
  - exists [], (concat s). auto.
  - destruct (IH i ltac:(lia)) as [a [b [E1 E2]]]. exists (x ++ a), b. rewrite E1, E2, <- !app_assoc. auto.
Qed.

Section Sec.
  Variables (f : list R -> R) (dim : nat) (mn mx : list R) (lmax : nat).
  Local Notation F x := (f (to_domain dim mn mx x)).
  Local Notation tiles := (tiles f dim mn mx).
  Local Notation shift := (shift f dim mn mx).
  Local Notation wf := (wf f dim mn mx).

  (** what the list of a level holds *)
  Definition at_level (l : nat) (r : rect) : Prop :=
    (forall i, (i < dim)%nat -> nth i (rlev r) 0%nat = l \/ nth i (rlev r) 0%nat = S l) /\
    (exists i, (i < dim)%nat /\ nth i (rlev r) 0%nat = l) /\
    (l = lmax -> forall i, (i < dim)%nat -> nth i (rlev r) 0%nat = lmax).
  Definition le_val (a b : rect) : Prop := rval a <= rval b.
  Definition good (s : lists) : Prop :=
    length s = S lmax /\ forall l L, nth_error s l = Some L -> Forall (at_level l) L /\ StronglySorted le_val L.

  Lemma insert_perm l (r : rect) : Permutation (_zOptDIRECTRectListInsert l r) (r :: l).
  Proof.
    induction l as [|c l IH]; cbn [_zOptDIRECTRectListInsert]; auto. destruct (slt (rval r) (rval c)); auto.
    eapply perm_trans; [apply perm_skip, IH|apply perm_swap].
  Qed.
  Lemma insert_sorted l (r : rect) : StronglySorted le_val l -> StronglySorted le_val (_zOptDIRECTRectListInsert l r).
  Proof.
    induction 1 as [|c l Hs IH Hc]; cbn [_zOptDIRECTRectListInsert]; [repeat constructor|]. rs. destruct (Rltb_spec (rval r) (rval c)) as [H|H].
    - constructor; [constructor; auto|]. constructor; [unfold le_val; lra|]. eapply Forall_impl; [|exact Hc]. unfold le_val. intros; lra.
    - constructor; auto. eapply Permutation_Forall; [apply Permutation_sym, insert_perm|]. constructor; auto. unfold le_val. lra.
  Qed.

  Lemma nth_error_upd_some {A} (s : list A) i j x y : nth_error (upd s i x) j = Some y -> (i < length s)%nat -> j = i /\ y = x \/ j <> i /\ nth_error s j = Some y.
  Proof.
    intros H Hi. destruct (Nat.eq_dec j i) as [->|N].
    - rewrite nth_error_upd_eq in H by auto. left. inversion H; auto.
    - rewrite nth_error_upd_neq in H by auto. auto.
  Qed.

  Lemma set_insert_ok s lv r : good s -> (lv <= lmax)%nat -> at_level lv r ->
    exists s', _zOptDIRECTRectSetInsert s lv r = Ok s' /\ good s' /\ Permutation (concat s') (r :: concat s).
  Proof.
    intros [L H] Hl A. unfold _zOptDIRECTRectSetInsert. rewrite (get_ok _ _ []) by lia. cbn [bind]. rewrite set_ok by lia. eexists. split; [reflexivity|].
    split.
    - split; [rewrite upd_length; auto|]. intros l M E. apply nth_error_upd_some in E; [|lia]. destruct E as [[-> ->]|[N E]]; [|apply H; auto].
      assert (Hs : (lv < length s)%nat) by lia. destruct (H lv _ (nth_error_nth' s [] Hs)) as [H1 H2]. split; [|apply insert_sorted; auto].
      eapply Permutation_Forall; [apply Permutation_sym, insert_perm|]. constructor; auto.
    - destruct (concat_upd s lv (_zOptDIRECTRectListInsert (nth lv s []) r) ltac:(lia)) as [a [b [E1 E2]]]. rewrite E1, E2.
      eapply perm_trans; [apply Permutation_app_head, Permutation_app_tail, insert_perm|]. cbn. apply Permutation_sym, Permutation_middle.
  Qed.

  Lemma delete_ok s lv c L : good s -> nth_error s lv = Some (c :: L) ->
    exists s', _zOptDIRECTRectSetDeleteCell s lv = Ok (c, s') /\ good s' /\ Permutation (concat s) (c :: concat s') /\ s' = upd s lv L.
  Proof.
    intros [Ln H] E. assert (Hl : (lv < length s)%nat) by (apply nth_error_Some; congruence).
    unfold _zOptDIRECTRectSetDeleteCell, get. rewrite E. cbn [bind]. rewrite set_ok by auto. cbn [bind]. eexists. split; [reflexivity|]. split; [|split; auto].
    - split; [rewrite upd_length; auto|]. intros l M Em. apply nth_error_upd_some in Em; [|lia]. destruct Em as [[-> ->]|[N Em]]; [|apply H; auto].
      destruct (H _ _ E) as [H1 H2]. inversion H1; inversion H2; subst. auto.
    - destruct (concat_upd s lv L Hl) as [a [b [E1 E2]]]. rewrite E1, E2. rewrite (nth_error_nth _ _ _ E). cbn. apply Permutation_sym, Permutation_middle.
  Qed.

  (** * The division of a cell *)
  Definition pattern_of (r : rect) (lv : nat) (p : pattern (T := R)) : Prop :=
    (dir p < dim)%nat /\ nth (dir p) (rlev r) 0%nat = lv /\
    rx (pos p) = rx (shift r (dir p) (third r (dir p))) /\ rval (pos p) = rval (shift r (dir p) (third r (dir p))) /\
    rx (neg p) = rx (shift r (dir p) (- third r (dir p))) /\ rval (neg p) = rval (shift r (dir p) (- third r (dir p))).

  Lemma create_ok r lv i : wf r -> (i < dim)%nat -> nth i (rlev r) 0%nat = lv ->
    exists p, _zOptDIRECTRectPatternCreate f dim mn mx i lv r = Ok p /\ pattern_of r lv p /\ dir p = i.
  Proof.
    intros [W1 [W2 _]] Hi E. unfold _zOptDIRECTRectPatternCreate. rewrite (get_ok _ _ 0) by lia. cbn [bind]. rewrite !set_ok by lia. cbn [bind].
    eexists. split; [reflexivity|]. split; [|reflexivity]. unfold pattern_of. cbn [dir pos neg _zOptDIRECTRectEval rx rval].
    rewrite pow3_R. split; auto. split; auto. unfold shift, third. cbn [rx rval]. rewrite E. rs. unfold Rdiv. rewrite Rmult_1_l. rewrite !zVecScale_R. split; auto.
  Qed.

  Lemma pinsert_perm l (p : pattern (T := R)) : Permutation (pattern_insert l p) (p :: l).
  Proof.
    induction l as [|c l IH]; cbn [pattern_insert]; auto. destruct (slt (pw p) (pw c)); auto. eapply perm_trans; [apply perm_skip, IH|apply perm_swap].
  Qed.

  Lemma directions_ok r lv : wf r -> exists idx, directions f dim mn mx lv r = Ok idx /\ Forall (pattern_of r lv) idx /\ NoDup (map dir idx) /\
    forall i, (i < dim)%nat -> nth i (rlev r) 0%nat = lv -> In i (map dir idx).
  Proof.
    intros W. unfold directions.
    destruct (for_inv (fun k idx => Forall (pattern_of r lv) idx /\ NoDup (map dir idx) /\ (forall p, In p idx -> (dir p < k)%nat) /\
      forall i, (i < k)%nat -> nth i (rlev r) 0%nat = lv -> In i (map dir idx)) 0 dim
      (fun i idx => l <- get (rlev r) i ;; if (l =? lv)%nat then p <- _zOptDIRECTRectPatternCreate f dim mn mx i lv r ;; Ok (pattern_insert idx p) else Ok idx) []) as [idx [E [H1 [H2 [_ H3]]]]].
    - lia.
    - split; [constructor|]. split; [constructor|]. split; [intros p []|intros; lia].
    - intros k idx Hk [H1 [H2 [H3 H4]]]. destruct (W) as [W1 [W2 _]]. rewrite (get_ok _ _ 0%nat) by lia. cbn [bind]. destruct (Nat.eqb_spec (nth k (rlev r) 0%nat) lv) as [E|E].
      + destruct (create_ok r lv k W ltac:(lia) E) as [p [Ep [Pp Dp]]]. rewrite Ep. cbn [bind]. eexists. split; [reflexivity|].
        pose proof (pinsert_perm idx p) as P. pose proof (Permutation_map dir P) as Q. cbn in Q. split; [|split; [|split]].
        * eapply Permutation_Forall; [apply Permutation_sym, P|]. auto.
        * eapply Permutation_NoDup; [apply Permutation_sym, Q|]. constructor; auto. intros I. apply in_map_iff in I. destruct I as [q [I1 I2]].
          specialize (H3 q I2). lia.
        * intros q Hq. apply (Permutation_in _ P) in Hq. destruct Hq as [<-|Hq]; [lia|]. specialize (H3 q Hq). lia.
        * intros i Hi Ei. apply (Permutation_in _ (Permutation_sym Q)). destruct (Nat.eq_dec i k) as [->|N]; [left; lia|right; apply H4; auto; lia].
      + eexists. split; [reflexivity|]. split; auto. split; auto. split; [intros p Hp; specialize (H3 p Hp); lia|].
        intros i Hi Ei. apply H4; auto. assert (i <> k) by (intros ->; auto). lia.
    - exists idx. auto.
  Qed.

  Lemma tiles_app_perm L L' M : Permutation L L' -> tiles (L ++ M) -> tiles (L' ++ M).
  Proof. intros P H. eapply tiles_perm; [exact H|]. apply Permutation_app_tail; auto. Qed.

  (** the cells at hand are those of the lists, the one being cut, and others [M] *)
  Lemma divide_loop_ok idx : forall s lv r M, good s -> (lv < lmax)%nat -> wf r ->
    (forall i, (i < dim)%nat -> nth i (rlev r) 0%nat = lv \/ nth i (rlev r) 0%nat = S lv) ->
    Forall (pattern_of r lv) idx -> NoDup (map dir idx) -> idx <> [] ->
    (forall i, (i < dim)%nat -> nth i (rlev r) 0%nat = lv -> In i (map dir idx)) ->
    tiles (r :: concat s ++ M) ->
    exists s', divide_loop idx s lv r = Ok s' /\ good s' /\ tiles (concat s' ++ M) /\ (length (concat s) + 3 <= length (concat s'))%nat.
  Proof.
    induction idx as [|p idx IH]; intros s lv r M G Hl W HL HP ND NE HC HT; [congruence|]. pose proof (Forall_inv HP) as [Pd [Pl [Px [Pv [Nx Nv]]]]]. pose proof (Forall_inv_tail HP) as HP'. clear HP.
    cbn [divide_loop]. pose proof W as [W1 [W2 W3]]. rewrite set_ok by lia. cbn [bind].
    set (d := dir p) in *. set (lv' := match idx with [] => S lv | _ :: _ => lv end).
    assert (EL : upd (rlev r) d (S lv) = cut_lev r d) by (unfold cut_lev; rewrite Pl; reflexivity).
    rewrite EL, Px, Pv, Nx, Nv.
    change (Rect (rx (shift r d (third r d))) (rval (shift r d (third r d))) (cut_lev r d)) with (shift r d (third r d)).
    change (Rect (rx (shift r d (- third r d))) (rval (shift r d (- third r d))) (cut_lev r d)) with (shift r d (- third r d)).
    set (c := Rect (rx r) (rval r) (cut_lev r d)).
    pose proof (tiles_cut _ _ _ _ r _ d HT Pd) as HT'. fold c in HT'.
    assert (NC : forall j, nth j (cut_lev r d) 0%nat = if (j =? d)%nat then S lv else nth j (rlev r) 0%nat).
    { intros j. rewrite (nth_cut f dim mn) by auto. rewrite Pl. reflexivity. }
    assert (Hlv' : (lv' <= lmax)%nat) by (unfold lv'; destruct idx; lia).
    assert (AL : forall q : rect, rlev q = cut_lev r d -> at_level lv' q).
    { intros q Eq. unfold at_level. rewrite Eq. destruct idx as [|p' idx'].
      - (* the last direction *) assert (AllS : forall i, (i < dim)%nat -> nth i (cut_lev r d) 0%nat = S lv).
        { intros i Hi. rewrite NC. destruct (Nat.eqb_spec i d) as [->|N]; auto. destruct (HL i Hi) as [E|E]; auto.
          destruct (HC i Hi E) as [E'|[]]. exfalso; apply N; symmetry; exact E'. }
        subst lv'. cbn iota. split; [intros i Hi; left; auto|]. split; [exists d; split; auto|]. intros E i Hi. rewrite AllS by auto. auto.
      - subst lv'. cbn iota. split.
        { intros i Hi. rewrite NC. destruct (Nat.eqb_spec i d) as [->|N]; auto. }
        split; [|intros; lia]. exists (dir p'). inversion HP' as [|? ? [Qd [Ql _]] _]; subst. split; auto. rewrite NC.
        destruct (Nat.eqb_spec (dir p') d) as [E|N]; auto. exfalso. cbn in ND. inversion ND as [|? ? N1 N2]; subst. apply N1. left. auto. }
    destruct (set_insert_ok s lv' (shift r d (third r d)) G Hlv' (AL (shift r d (third r d)) eq_refl)) as [s1 [E1 [G1 P1]]]. rewrite E1. cbn [bind].
    destruct (set_insert_ok s1 lv' (shift r d (- third r d)) G1 Hlv' (AL (shift r d (- third r d)) eq_refl)) as [s2 [E2 [G2 P2]]]. rewrite E2. cbn [bind].
    assert (HT2 : tiles (c :: concat s2 ++ M)).
    { eapply tiles_perm; [exact HT'|]. apply perm_skip. rewrite P2, P1. cbn. apply perm_swap. }
    pose proof (Permutation_length P1) as L1. pose proof (Permutation_length P2) as L2. cbn in L1, L2.
    destruct idx as [|p' idx'].
    - cbn [divide_loop]. destruct (set_insert_ok s2 lv' c G2 Hlv' (AL c eq_refl)) as [s3 [E3 [G3 P3]]]. subst lv'. cbn iota in *.
      exists s3. split; auto. split; auto. split; [|pose proof (Permutation_length P3) as L3; cbn in L3; lia].
      eapply tiles_perm; [exact HT2|]. change (c :: concat s2 ++ M) with ((c :: concat s2) ++ M). apply Permutation_app_tail, Permutation_sym; auto.
    - assert (Wc : wf c). { unfold wf. cbn. unfold cut_lev. rewrite upd_length. auto. }
      assert (Fx : rx c = rx r) by reflexivity. assert (Fl : rlev c = cut_lev r d) by reflexivity.
      apply (NoDup_cons_iff d (map dir (p' :: idx'))) in ND. destruct ND as [N1 N2].
      destruct (IH s2 lv c M) as [s3 [E3 [G3 [T3 L3]]]]; auto; try discriminate.
      + intros i Hi. rewrite Fl, NC. destruct (Nat.eqb_spec i d) as [->|N]; auto.
      + rewrite Forall_forall in HP'. rewrite Forall_forall. intros q Hq. destruct (HP' q Hq) as [Q1 [Q2 [Q3 [Q4 [Q5 Q6]]]]].
        assert (N : dir q <> d). { intros E. apply N1. rewrite <- E. apply (in_map dir (p' :: idx')) in Hq. exact Hq. }
        assert (K : nth (dir q) (rlev c) 0%nat = nth (dir q) (rlev r) 0%nat) by (rewrite Fl, NC; destruct (Nat.eqb_spec (dir q) d); [contradiction|auto]).
        unfold pattern_of. rewrite K. split; auto. split; auto. unfold shift, third in *. cbn [rx rval] in *. rewrite K, Fx. auto.
      + intros i Hi Ei. rewrite Fl, NC in Ei. destruct (Nat.eqb_spec i d) as [->|N]; [lia|]. destruct (HC i Hi Ei) as [E|E]; auto. exfalso. apply N. symmetry. exact E.
      + exists s3. split; [exact E3|]. split; auto. split; auto. lia.
  Qed.

  Lemma divide_ok s lv r M : good s -> (lv < lmax)%nat -> wf r -> at_level lv r -> tiles (r :: concat s ++ M) ->
    exists s', _zOptDIRECTRectSetRectDivide f dim mn mx s lv r = Ok s' /\ good s' /\ tiles (concat s' ++ M) /\ (length (concat s) + 3 <= length (concat s'))%nat.
  Proof.
    intros G Hl W [A1 [[i [Hi Ei]] A3]] HT. unfold _zOptDIRECTRectSetRectDivide. destruct (directions_ok r lv W) as [idx [E [H1 [H2 H3]]]]. rewrite E. cbn [bind].
    apply divide_loop_ok; auto. intros ->. exact (H3 i Hi Ei).
  Qed.
End Sec.
