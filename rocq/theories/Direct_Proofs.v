(** Proofs about the DIRECT method: every state of the search is a partition of the cube, obtained by trisections. *)
From Coq Require Import List Arith Lia Reals Lra Permutation.
From Verif Require Import Prelude Prelude_Proofs Scalar RealLib Direct_Model Direct_Spec.
Import ListNotations.
Local Open Scope R_scope.
Local Notation rect := (Direct_Model.rect R).
Local Notation lists := (Direct_Model.lists R).

Lemma el_R v i : el v i = nth i v 0. Proof. reflexivity. Qed.
Lemma pow3_R n : pow3 n = 3 ^ n.
Proof. induction n as [|n IH]; [reflexivity|]. change (pow3 (S n)) with (smul (sofZ 3) (pow3 n)). rewrite IH. rs. simpl. ring. Qed.
Lemma zVecScale_R dim mn mx x : zVecScale dim mn mx x = to_domain dim mn mx x.
Proof. reflexivity. Qed.
Lemma pow3_pos n : 0 < 3 ^ n. Proof. apply pow_lt. lra. Qed.

Lemma nth_const {A} (a d : A) i n : (i < n)%nat -> nth i (map (fun _ => a) (List.seq 0 n)) d = a.
Proof. intros H. rewrite (nth_indep _ d ((fun _ : nat => a) 0%nat)) by (rewrite map_length, seq_length; auto). exact (map_nth (fun _ => a) _ 0%nat i). Qed.

Section Sec.
  Variables (f : list R -> R) (dim : nat) (mn mx : list R).
  Local Notation F x := (f (to_domain dim mn mx x)).

  (** * Trisection *)
  Definition cut_lev (r : rect) (i : nat) := upd (rlev r) i (S (nth i (rlev r) 0%nat)).
  Definition shift (r : rect) (i : nat) (d : R) : rect := let x := upd (rx r) i (nth i (rx r) 0 + d) in Rect x (F x) (cut_lev r i).
  Definition third (r : rect) (i : nat) : R := / 3 ^ S (nth i (rlev r) 0%nat).
  Inductive tiles : list rect -> Prop :=
  | tiles_init (r : rect) : rx r = map (fun _ => / 2) (List.seq 0 dim) -> rlev r = map (fun _ => 0%nat) (List.seq 0 dim) -> rval r = F (rx r) -> tiles [r]
  | tiles_cut (r : rect) L i : tiles (r :: L) -> (i < dim)%nat ->
      tiles (Rect (rx r) (rval r) (cut_lev r i) :: shift r i (third r i) :: shift r i (- third r i) :: L)
  | tiles_perm L L' : tiles L -> Permutation L L' -> tiles L'.

  Definition wf (r : rect) := length (rx r) = dim /\ length (rlev r) = dim /\ rval r = F (rx r).
  Definition cell_of (r : rect) : cell := (rx r, rlev r).

  Lemma tiles_wf L : tiles L -> Forall wf L.
  Proof.
    induction 1 as [r H1 H2 H3|r L i _ IH Hi|L L' _ IH P].
    - constructor; auto. unfold wf. rewrite H1, H2. rewrite !map_length, seq_length. split; auto. split; auto. rewrite H3, H1. reflexivity.
    - inversion IH as [|? ? [A [B C]] D]; subst. unfold shift, cut_lev, wf.
      repeat constructor; cbn; try rewrite !upd_length; auto.
    - eapply Permutation_Forall; eauto.
  Qed.

  Lemma third_pos r i : 0 < third r i.
  Proof. apply Rinv_0_lt_compat, pow3_pos. Qed.
  Lemma third_half r i : half_edge (cell_of r) i = 3 * third r i / 2.
  Proof. unfold half_edge, third, cell_of. cbn. field. pose proof (pow3_pos (nth i (rlev r) 0%nat)); lra. Qed.

  Lemma nth_cut r i j : length (rlev r) = dim -> (i < dim)%nat -> nth j (cut_lev r i) 0%nat = if (j =? i)%nat then S (nth i (rlev r) 0%nat) else nth j (rlev r) 0%nat.
  Proof.
    intros L Hi. unfold cut_lev. destruct (Nat.eqb_spec j i) as [->|E]; [apply nth_upd_eq; lia|apply nth_upd_neq; auto].
  Qed.
  Lemma nth_shift r i d j : length (rx r) = dim -> (i < dim)%nat -> nth j (rx (shift r i d)) 0 = if (j =? i)%nat then nth i (rx r) 0 + d else nth j (rx r) 0.
  Proof.
    intros L Hi. cbn. destruct (Nat.eqb_spec j i) as [->|E]; [apply nth_upd_eq; lia|apply nth_upd_neq; auto].
  Qed.

  (** the half edges after the cut *)
  Lemma half_cut (r q : rect) i j : length (rlev r) = dim -> (i < dim)%nat -> rlev q = cut_lev r i ->
    half_edge (cell_of q) j = if (j =? i)%nat then third r i / 2 else half_edge (cell_of r) j.
  Proof.
    intros L Hi E. unfold half_edge, cell_of. cbn [snd]. rewrite E, nth_cut by auto. destruct (Nat.eqb_spec j i) as [->|N]; reflexivity.
  Qed.

  Definition sub_cell (d c : cell) : Prop :=
    (forall p, closed_cell dim d p -> closed_cell dim c p) /\ (forall p, open_cell dim d p -> open_cell dim c p).

  Lemma sub_ok r q i d : wf r -> (i < dim)%nat -> rlev q = cut_lev r i -> Rabs d <= third r i ->
    (forall j, nth j (rx q) 0 = if (j =? i)%nat then nth i (rx r) 0 + d else nth j (rx r) 0) -> sub_cell (cell_of q) (cell_of r).
  Proof.
    intros [W1 [W2 _]] Hi E Hd Hx. pose proof (third_pos r i) as T.
    assert (G : forall (p : nat -> R) j, Rabs (p j - nth j (rx r) 0) <= Rabs (p j - nth j (rx q) 0) + (if (j =? i)%nat then third r i else 0)).
    { intros p j. rewrite Hx. destruct (Nat.eqb_spec j i) as [N|N].
      - subst j. replace (p i - nth i (rx r) 0) with ((p i - (nth i (rx r) 0 + d)) + d) by ring. eapply Rle_trans; [apply Rabs_triang|]. lra.
      - lra. }
    split; intros p H j Hj; specialize (H j Hj); specialize (G p j); rewrite (half_cut r q i) in H by auto; unfold cell_of at 1 in H; unfold cell_of at 1;
      cbn [fst] in *; destruct (Nat.eqb_spec j i) as [N|N]; try (subst j; rewrite third_half); lra.
  Qed.

  Lemma pieces_sub r i : wf r -> (i < dim)%nat ->
    sub_cell (cell_of (Rect (rx r) (rval r) (cut_lev r i))) (cell_of r) /\
    sub_cell (cell_of (shift r i (third r i))) (cell_of r) /\ sub_cell (cell_of (shift r i (- third r i))) (cell_of r).
  Proof.
    intros W Hi. pose proof (third_pos r i) as T. destruct (W) as [W1 [W2 _]]. split; [|split].
    - apply (sub_ok r _ i 0); auto. rewrite Rabs_R0. lra. intros j. cbn. destruct (Nat.eqb_spec j i) as [->|]; auto. ring.
    - apply (sub_ok r _ i (third r i)); auto. rewrite Rabs_pos_eq; lra. intros j. apply nth_shift; auto.
    - apply (sub_ok r _ i (- third r i)); auto. rewrite Rabs_Ropp, Rabs_pos_eq; lra. intros j. apply nth_shift; auto.
  Qed.

  Lemma pieces_cover r i p : wf r -> (i < dim)%nat -> closed_cell dim (cell_of r) p ->
    closed_cell dim (cell_of (Rect (rx r) (rval r) (cut_lev r i))) p \/
    closed_cell dim (cell_of (shift r i (third r i))) p \/ closed_cell dim (cell_of (shift r i (- third r i))) p.
  Proof.
    intros [W1 [W2 _]] Hi H. pose proof (third_pos r i) as T. pose proof (H i Hi) as Hd. rewrite third_half in Hd. cbn [cell_of fst] in Hd.
    assert (G : forall q d, rlev q = cut_lev r i -> (forall j, nth j (rx q) 0 = if (j =? i)%nat then nth i (rx r) 0 + d else nth j (rx r) 0) ->
      Rabs (p i - nth i (rx r) 0 - d) <= third r i / 2 -> closed_cell dim (cell_of q) p).
    { intros q d E Hx B j Hj. rewrite (half_cut r q i) by auto. cbn [cell_of fst]. rewrite Hx. destruct (Nat.eqb_spec j i) as [->|N].
      - replace (p i - (nth i (rx r) 0 + d)) with (p i - nth i (rx r) 0 - d) by ring. auto.
      - exact (H j Hj). }
    (revert Hd; unfold Rabs; destruct Rcase_abs; intros Hd).
    all: destruct (Rle_lt_dec (p i - nth i (rx r) 0) (- (third r i / 2))) as [A|A];
      [right; right; apply (G _ (- third r i)); [reflexivity|intros; apply nth_shift; auto|apply Rabs_le; lra]|];
      destruct (Rle_lt_dec (p i - nth i (rx r) 0) (third r i / 2)) as [B|B];
      [left; apply (G _ 0); [reflexivity|intros j; cbn; destruct (Nat.eqb_spec j i) as [->|]; auto; ring|apply Rabs_le; lra]|];
      right; left; apply (G _ (third r i)); [reflexivity|intros; apply nth_shift; auto|apply Rabs_le; lra].
  Qed.

  Definition apart (c d : cell) := ~ exists p, open_cell dim c p /\ open_cell dim d p.
  Lemma apart_sym c d : apart c d -> apart d c.
  Proof. intros H [p [A B]]. apply H. exists p; auto. Qed.
  Lemma apart_sub c d e : apart c d -> sub_cell e c -> apart e d.
  Proof. intros H [_ S] [p [A B]]. apply H. exists p; auto. Qed.

  Lemma apart_pieces r q1 q2 i d1 d2 : wf r -> (i < dim)%nat -> rlev q1 = cut_lev r i -> rlev q2 = cut_lev r i ->
    nth i (rx q1) 0 = nth i (rx r) 0 + d1 -> nth i (rx q2) 0 = nth i (rx r) 0 + d2 -> third r i <= Rabs (d1 - d2) -> apart (cell_of q1) (cell_of q2).
  Proof.
    intros [W1 [W2 _]] Hi E1 E2 H1 H2 Hd [p [A B]]. specialize (A i Hi). specialize (B i Hi).
    rewrite (half_cut r q1 i), Nat.eqb_refl in A by auto. rewrite (half_cut r q2 i), Nat.eqb_refl in B by auto. cbn [cell_of fst] in A, B.
    rewrite H1 in A. rewrite H2 in B. apply (Rlt_irrefl (third r i)). eapply Rle_lt_trans; [exact Hd|].
    replace (d1 - d2) with (- (p i - (nth i (rx r) 0 + d1)) + (p i - (nth i (rx r) 0 + d2))) by ring.
    eapply Rle_lt_trans; [apply Rabs_triang|]. rewrite Rabs_Ropp. lra.
  Qed.

  Lemma FOP_perm {A} (P : A -> A -> Prop) (S : forall a b, P a b -> P b a) l l' : Permutation l l' -> ForallOrdPairs P l -> ForallOrdPairs P l'.
  Proof.
    induction 1 as [|x l l' Q IH|x y l|l l' l'' _ IH1 _ IH2]; intros H; auto.
    - inversion H; subst. constructor; auto. eapply Permutation_Forall; eauto.
    - inversion H as [|? ? H1 H2]; subst. inversion H2 as [|? ? H3 H4]; subst. inversion H1; subst. constructor; [constructor; auto|constructor; auto].
  Qed.

  Lemma tiles_partition L : tiles L -> partition dim (map cell_of L).
  Proof.
    induction 1 as [r H1 H2 H3|r L i HL IH Hi|L L' _ IH P].
    - split; [|split].
      + intros c [<-|[]] p Hp i Hi. specialize (Hp i Hi). unfold cell_of, half_edge in Hp. cbn [fst snd] in Hp. rewrite H1, H2 in Hp.
        rewrite !nth_const in Hp by auto. cbn in Hp. rewrite Rinv_1 in Hp. revert Hp. unfold Rabs. destruct Rcase_abs; intros; lra.
      + intros p Hp. exists (cell_of r). split; [left; auto|]. intros i Hi. specialize (Hp i Hi). unfold cell_of, half_edge. cbn [fst snd]. rewrite H1, H2.
        rewrite !nth_const by auto. cbn. rewrite Rinv_1. apply Rabs_le. lra.
      + repeat constructor.
    - destruct IH as [I1 [I2 I3]]. pose proof (tiles_wf _ HL) as W. inversion W as [|? ? Wr _]; subst. destruct (pieces_sub r i Wr Hi) as [S1 [S2 S3]].
      pose proof (third_pos r i) as T. destruct (Wr) as [Wx _].
      split; [|split].
      + intros c Hc p Hp. cbn [map] in Hc. destruct Hc as [<-|[<-|[<-|Hc]]].
        * apply (I1 (cell_of r)); [left; auto|]. apply S1; auto.
        * apply (I1 (cell_of r)); [left; auto|]. apply S2; auto.
        * apply (I1 (cell_of r)); [left; auto|]. apply S3; auto.
        * apply (I1 c); [right; auto|]. auto.
      + intros p Hp. destruct (I2 p Hp) as [c [[<-|Hc] Cp]].
        * destruct (pieces_cover r i p Wr Hi Cp) as [G|[G|G]]; eexists; (split; [|exact G]); cbn; auto.
        * exists c. split; auto. cbn. auto.
      + cbn [map] in *. inversion I3 as [|? ? A B]; subst.
        assert (forall e, sub_cell e (cell_of r) -> Forall (apart e) (map cell_of L)) as K.
        { intros e He. eapply Forall_impl; [|exact A]. intros d Hd. eapply apart_sub; eauto. }
        constructor; [constructor; [|constructor; [|apply K; auto]]|constructor; [constructor; [|apply K; auto]|constructor; [apply K; auto|auto]]].
        * apply (apart_pieces r _ _ i 0 (third r i)); auto. cbn; ring. rewrite nth_shift, Nat.eqb_refl by auto; auto. rewrite Rabs_left; lra.
        * apply (apart_pieces r _ _ i 0 (- third r i)); auto. cbn; ring. rewrite nth_shift, Nat.eqb_refl by auto; auto. rewrite Rabs_pos_eq; lra.
        * apply (apart_pieces r _ _ i (third r i) (- third r i)); auto; try (rewrite nth_shift, Nat.eqb_refl by auto; auto). rewrite Rabs_pos_eq; lra.
    - destruct IH as [I1 [I2 I3]]. assert (Q : Permutation (map cell_of L) (map cell_of L')) by (apply Permutation_map; auto). split; [|split].
      + intros c Hc. apply I1. eapply Permutation_in; [apply Permutation_sym|]; eauto.
      + intros p Hp. destruct (I2 p Hp) as [c [A B]]. exists c. split; auto. eapply Permutation_in; eauto.
      + eapply FOP_perm; eauto. intros; apply apart_sym; auto.
  Qed.

  (** the number of cells: the volumes add up to that of the cube *)
  Fixpoint lsum (l : list nat) : nat := match l with [] => 0%nat | a :: l => (a + lsum l)%nat end.
  Definition vol (D : nat) (r : rect) : nat := (3 ^ (D - lsum (rlev r)))%nat.
  Lemma lsum_upd l i : (i < length l)%nat -> lsum (upd l i (S (nth i l 0%nat))) = S (lsum l).
  Proof. revert i. induction l as [|a l IH]; intros [|i] H; cbn in *; try lia. rewrite IH by lia. lia. Qed.
  Lemma lsum_perm l l' : Permutation l l' -> lsum l = lsum l'.
  Proof. induction 1; cbn; lia. Qed.
  Lemma lsum_const n : lsum (map (fun _ => 0%nat) (List.seq 0 n)) = 0%nat.
  Proof. generalize 0%nat at 2. induction n; intros; cbn; auto. Qed.
  (** the volumes, if no cell was cut beyond the bound *)
  Lemma tiles_vol D L : tiles L -> Forall (fun r => (lsum (rlev r) <= D)%nat) L -> lsum (map (vol D) L) = (3 ^ D)%nat.
  Proof.
    induction 1 as [r H1 H2 H3|r L i HL IH Hi|L L' _ IH P]; intros B.
    - cbn. unfold vol. rewrite H2, lsum_const. rewrite Nat.sub_0_r. lia.
    - pose proof (tiles_wf _ HL) as W. inversion W as [|? ? [W1 [W2 _]] _]; subst. inversion B as [|? ? B1 B2]; subst. cbn in B1.
      inversion B2 as [|? ? _ B3]; subst. inversion B3 as [|? ? _ B4]; subst. unfold cut_lev in B1. rewrite lsum_upd in B1 by lia.
      rewrite <- IH by (constructor; auto; lia). cbn. unfold vol, shift, cut_lev. cbn. rewrite lsum_upd by lia.
      replace (D - lsum (rlev r))%nat with (S (D - S (lsum (rlev r)))) by lia. rewrite Nat.pow_succ_r'. lia.
    - rewrite <- IH. apply lsum_perm. apply Permutation_map. apply Permutation_sym; auto. eapply Permutation_Forall; [apply Permutation_sym|]; eauto.
  Qed.
  Lemma tiles_count D L : tiles L -> Forall (fun r => (lsum (rlev r) <= D)%nat) L -> (length L <= 3 ^ D)%nat.
  Proof.
    intros H B. rewrite <- (tiles_vol D L H B). clear. induction L as [|r L IH]; cbn; [lia|].
    assert (0 < vol D r)%nat by (unfold vol; apply Nat.neq_0_lt_0, Nat.pow_nonzero; lia). lia.
  Qed.
End Sec.
