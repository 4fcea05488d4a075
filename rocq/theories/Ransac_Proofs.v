(** Lemmas about RANSAC (C84). *)
From Coq Require Import List Arith Lia Permutation Reals Lra Bool.
From Verif Require Import Prelude Scalar RealLib Ransac_Model Ransac_Spec.
Import ListNotations.

Section RansacProofs.
  Context {Q : Type}.
  Variables (fit : list nat -> Q -> Q) (err : Q -> nat -> R) (splice : list nat -> list nat -> list nat) (rnd : nat -> nat -> nat).
  Hypothesis Hsp : forall a b, Permutation (splice a b) (a ++ b).
  Hypothesis Hrnd : forall k n, 0 < n -> rnd k n < n.

  Local Notation inb th q := (fun p => Rltb (Rabs (err q p)) th).

  Lemma select_loop_ok : forall m k sample sel, m <= length sample ->
    exists s' l, select_loop rnd m k sample sel = Ok (m + k, s', sel ++ l) /\ length l = m /\ Permutation (l ++ s') sample /\ drawn rnd k sample l s'.
  Proof using Hrnd. clear Hsp fit err splice; clear Q.
    induction m; intros k sample sel Hm; cbn [select_loop].
    - exists sample, []. rewrite app_nil_r. repeat split; auto. constructor.
    - pose proof (Hrnd k (length sample) ltac:(lia)) as Hi. set (i := rnd k (length sample)) in *.
      destruct (nth_error sample i) as [p|] eqn:Ep. 2: { apply nth_error_None in Ep. lia. }
      destruct (nth_error_split _ _ Ep) as [a [b [E La]]].
      unfold get. rewrite Ep. cbn [bind].
      assert (E' : firstn i sample ++ skipn (S i) sample = a ++ b).
      { rewrite E, <- La. rewrite firstn_app, Nat.sub_diag, firstn_all. cbn [firstn]. rewrite app_nil_r.
        f_equal. replace (S (length a)) with (length (a ++ [p])) by (rewrite app_length; cbn; lia).
        change (a ++ p :: b) with (a ++ [p] ++ b). rewrite app_assoc, skipn_app, skipn_all, Nat.sub_diag. reflexivity. }
      rewrite E'.
      destruct (IHm (S k) (a ++ b) (sel ++ [p])) as [s' [l [H1 [H2 [H3 H4]]]]].
      { rewrite E in Hm. rewrite app_length in *. cbn in Hm. lia. }
      exists s', (p :: l). rewrite H1, <- app_assoc. repeat split; auto; cbn [length]; try lia.
      + do 3 f_equal. lia.
      + rewrite E. cbn [app]. apply Permutation_cons_app. exact H3.
      + rewrite E. constructor; auto. rewrite La, <- E. reflexivity.
  Qed.

  Lemma select_ok : forall k sample n, n <= length sample ->
    exists s' l, _zRANSACSelectRandom rnd k sample n = Ok (Some (n + k, s', l)) /\ length l = n /\ Permutation (l ++ s') sample /\ drawn rnd k sample l s'.
  Proof using Hrnd. clear Hsp fit err splice; clear Q.
    intros k sample n Hn. unfold _zRANSACSelectRandom. replace (length sample <? n) with false by (symmetry; apply Nat.ltb_ge; lia).
    destruct (select_loop_ok n k sample [] Hn) as [s' [l [H1 [H2 H3]]]]. exists s', l. rewrite H1. cbn. auto.
  Qed.

  Lemma count_eq : forall q th sample c,
    fold_left (fun c p => if slt (sabs (err q p)) th then S c else c) sample c = c + length (filter (inb th q) sample).
  Proof using. clear Hsp Hrnd; try clear splice; try clear rnd; try clear fit; try clear err.
    induction sample as [|p l IH]; intros c; cbn [fold_left filter]. { cbn. lia. }
    rewrite IH. change (slt (sabs (err q p)) th) with (Rltb (Rabs (err q p)) th). destruct (Rltb (Rabs (err q p)) th); cbn [length]; lia.
  Qed.
  Lemma select_eq : forall q th sample i o,
    fold_left (fun '(i, o) p => if slt (sabs (err q p)) th then (i ++ [p], o) else (i, o ++ [p])) sample (i, o)
    = (i ++ filter (inb th q) sample, o ++ filter (fun p => negb (inb th q p)) sample).
  Proof using. clear Hsp Hrnd; try clear splice; try clear rnd; try clear fit; try clear err.
    induction sample as [|p l IH]; intros i o; cbn [fold_left filter]. { now rewrite !app_nil_r. }
    change (slt (sabs (err q p)) th) with (Rltb (Rabs (err q p)) th). destruct (Rltb (Rabs (err q p)) th); cbn [negb];
      rewrite IH; rewrite <- !app_assoc; reflexivity.
  Qed.

  Lemma filter_split : forall (f : nat -> bool) l, Permutation (filter f l ++ filter (fun p => negb (f p)) l) l.
  Proof using. clear Hsp Hrnd; try clear splice; try clear rnd; try clear fit; try clear err.
    induction l as [|p l IH]; cbn [filter]. { constructor. } destruct (f p); cbn [negb app].
    - now constructor.
    - symmetry. apply Permutation_cons_app. now symmetry.
  Qed.
  Lemma split_filter : forall th m sample, split_at err th m sample (filter (inb th m) sample) (filter (fun p => negb (inb th m p)) sample).
  Proof using. clear Hsp Hrnd; try clear splice; try clear rnd; try clear fit; try clear err.
    intros th m sample. repeat split.
    - apply filter_split.
    - apply Forall_forall. intros p Hp. apply filter_In in Hp. destruct Hp as [_ Hp]. unfold within.
      destruct (Rltb_spec (Rabs (err m p)) th); [auto|discriminate].
    - apply Forall_forall. intros p Hp. apply filter_In in Hp. destruct Hp as [_ Hp]. unfold within.
      destruct (Rltb_spec (Rabs (err m p)) th); [discriminate|lra].
  Qed.
  Lemma filter_all : forall (f : nat -> bool) l, Forall (fun p => f p = true) l -> filter f l = l.
  Proof using. clear Hsp Hrnd; try clear splice; try clear rnd; try clear fit; try clear err. induction 1; cbn [filter]; [|rewrite H, IHForall]; reflexivity. Qed.
  Lemma filter_none : forall (f : nat -> bool) l, Forall (fun p => f p = false) l -> filter f l = [].
  Proof using. clear Hsp Hrnd; try clear splice; try clear rnd; try clear fit; try clear err. induction 1; cbn [filter]; [|rewrite H, IHForall]; reflexivity. Qed.
  Lemma filter_perm : forall (f : nat -> bool) l l', Permutation l l' -> Permutation (filter f l) (filter f l').
  Proof using. clear Hsp Hrnd; try clear splice; try clear rnd; try clear fit; try clear err.
    induction 1; cbn [filter]; auto.
    - destruct (f x); auto.
    - destruct (f x), (f y); auto. constructor.
    - eapply Permutation_trans; eauto.
  Qed.
  Lemma support_count : forall th m sample n, support err th m sample n -> n = length (filter (inb th m) sample).
  Proof using. clear Hsp Hrnd; try clear splice; try clear rnd; try clear fit; try clear err.
    intros th m sample n [l [o [[Hp [Hl Ho]] Hn]]]. rewrite <- (Permutation_length (filter_perm (inb th m) _ _ Hp)), filter_app.
    rewrite filter_all, filter_none, app_nil_r; auto.
    - eapply Forall_impl; [|exact Ho]. unfold within. cbn. intros p H. destruct (Rltb_spec (Rabs (err m p)) th); [lra|reflexivity].
    - eapply Forall_impl; [|exact Hl]. unfold within. cbn. intros p H. destruct (Rltb_spec (Rabs (err m p)) th); [reflexivity|lra].
  Qed.
  Lemma count_support : forall th m sample, support err th m sample (length (filter (inb th m) sample)).
  Proof using. clear Hsp Hrnd; try clear splice; try clear rnd; try clear fit; try clear err. intros. eexists _, _. split; [apply split_filter|reflexivity]. Qed.
  Lemma support_perm : forall th m s s' n, Permutation s s' -> support err th m s n -> support err th m s' n.
  Proof using. clear Hsp Hrnd; try clear splice; try clear rnd; try clear fit; try clear err. intros th m s s' n H [l [o [[A B] C]]]. exists l, o. split; [split|]; auto. eapply Permutation_trans; eauto. Qed.

  Lemma chosen_perm : forall n l s s', Permutation s s' -> chosen n l s -> chosen n l s'.
  Proof using. clear Hsp Hrnd; try clear splice; try clear rnd; try clear fit; try clear err. intros n l s s' H [A [o B]]. split; auto. exists o. eapply Permutation_trans; eauto. Qed.

  Lemma trials_ok : forall s0 ns th q0 nt k sample qt q c old,
    ns <= length s0 -> Permutation sample s0 ->
    (forall m j, In m old -> support err th m s0 j -> j <= c) ->
    ((c = 0 /\ q = q0) \/ (0 < c /\ In q old /\ support err th q s0 c)) ->
    exists sample' q' ms, trials fit err splice rnd nt k ns th sample qt q c = Ok (sample', q') /\
      Permutation sample' s0 /\ length ms = nt /\ tried fit splice rnd ns k sample qt ms /\ Forall (fitted fit ns s0) ms /\
      candidate err th q0 (ms ++ old) s0 q'.
  Proof using Hrnd Hsp.
    intros s0 ns th q0. induction nt; intros k sample qt q c old Hns Hp Hle Hc; cbn [trials].
    - exists sample, q, []. repeat split; auto. { constructor. } exists c. split; auto.
    - destruct (select_ok k sample ns) as [s' [l [E [Hl [HP HD]]]]]. { rewrite (Permutation_length Hp). exact Hns. }
      rewrite E. cbn [bind].
      assert (HPs : Permutation (splice s' l) s0).
      { eapply Permutation_trans; [apply Hsp|]. eapply Permutation_trans; [apply Permutation_app_comm|]. eapply Permutation_trans; eauto. }
      assert (Hm : fitted fit ns s0 (fit l qt)).
      { exists l, qt. split; auto. split; auto. exists s'. eapply Permutation_trans; eauto. }
      unfold _zRANSACCountInlier. rewrite count_eq. cbn [plus]. set (m := fit l qt) in *.
      assert (Hs : support err th m s0 (length (filter (inb th m) (splice s' l)))) by (eapply support_perm; [exact HPs|apply count_support]).
      set (n := length (filter (inb th m) (splice s' l))) in *.
      assert (Hu : forall j, support err th m s0 j -> j = n).
      { intros j Hj. apply support_count in Hj. apply support_count in Hs. congruence. }
      assert (Hc' : forall ms1 q1, candidate err th q0 (ms1 ++ m :: old) s0 q1 -> candidate err th q0 ((m :: ms1) ++ old) s0 q1).
      { intros ms1 q1 [b [B1 B2]]. exists b. split.
        - intros x j Hx. apply B1. cbn [app In] in Hx. rewrite in_app_iff in *. cbn [In]. tauto.
        - destruct B2 as [B2|[? [B2 ?]]]; auto. right. repeat split; auto. cbn [app In]. rewrite in_app_iff in *. cbn [In] in B2. tauto. }
      destruct (Nat.ltb_spec c n).
      + destruct (IHnt (ns + k) (splice s' l) m m n (m :: old)) as [s1 [q1 [ms1 [A1 [A2 [A3 [A4 [A5 A6]]]]]]]]; auto.
        * intros x j [<-|Hx] Hj; [rewrite (Hu _ Hj); lia|]. specialize (Hle x j Hx Hj). lia.
        * right. repeat split; auto; [lia|now left].
        * exists s1, q1, (m :: ms1). repeat split; auto. { cbn [length]. lia. } econstructor; eauto.
      + destruct (IHnt (ns + k) (splice s' l) m q c (m :: old)) as [s1 [q1 [ms1 [A1 [A2 [A3 [A4 [A5 A6]]]]]]]]; auto.
        * intros x j [<-|Hx] Hj; [rewrite (Hu _ Hj); lia|]. eauto.
        * destruct Hc as [?|[? [? ?]]]; [now left|right]. repeat split; auto. now right.
        * exists s1, q1, (m :: ms1). repeat split; auto. { cbn [length]. lia. } econstructor; eauto.
  Qed.

  Lemma trials_many : forall nt k ns th sample qt q c, length sample < ns ->
    trials fit err splice rnd nt k ns th sample qt q c = Ok (sample, q).
  Proof using. clear Hsp Hrnd; try clear splice; try clear rnd; try clear fit; try clear err.
    intros [|nt] k ns th sample qt q c H; cbn [trials]; auto. unfold _zRANSACSelectRandom.
    replace (length sample <? ns) with true by (symmetry; apply Nat.ltb_lt; lia). reflexivity.
  Qed.

  Theorem save_ok : forall qt q sample ns nt th,
    exists q' sample' inlier c ms,
      zRANSACSaveInlier fit err splice rnd qt q sample ns nt th = Ok (q', sample', inlier) /\
      length ms = (if length sample <? ns then 0 else nt) /\ tried fit splice rnd ns 0 sample qt ms /\ Forall (fitted fit ns sample) ms /\
      candidate err th q ms sample c /\ split_at err (2 * th) c sample inlier sample' /\ q' = fit inlier c.
  Proof using Hrnd Hsp.
    intros qt q sample ns nt th. unfold zRANSACSaveInlier.
    assert (Ht : (th * sofZ 2)%S = (2 * th)%R) by (rs; ring).
    assert (H : exists s1 c ms, trials fit err splice rnd nt 0 ns th sample qt q 0 = Ok (s1, c) /\ Permutation s1 sample /\
              length ms = (if length sample <? ns then 0 else nt) /\ tried fit splice rnd ns 0 sample qt ms /\ Forall (fitted fit ns sample) ms /\ candidate err th q ms sample c).
    { destruct (Nat.ltb_spec (length sample) ns).
      - rewrite trials_many by auto. exists sample, q, []. repeat split; auto. { constructor. } exists 0. split; [intros m k []|now left].
      - destruct (trials_ok sample ns th q nt 0 sample qt q 0 []) as [s1 [c [ms [A1 [A2 [A3 [A4 [A5 A6]]]]]]]]; auto.
        + intros m j [].
        + exists s1, c, ms. rewrite app_nil_r in A6. repeat split; auto. }
    destruct H as [s1 [c [ms [A1 [A2 [A3 [A4 [A5 A6]]]]]]]]. rewrite A1. cbn [bind]. unfold _zRANSACSelectInlier. rewrite select_eq. cbn [app].
    rewrite Ht. eexists _, _, _, c, ms. split; [reflexivity|]. repeat split; auto.
    - eapply Permutation_trans; [apply filter_split|exact A2].
    - apply split_filter.
    - apply split_filter.
  Qed.
End RansacProofs.

(** the automatic number of samples *)
Lemma auto_number : forall (toint : R -> nat) size sample rate, (forall x, (0 <= x)%R -> (INR (toint x) <= x)%R) -> (0 <= rate <= 1)%R ->
  let ns := _zRANSACAutoSelectionNumber toint size sample rate in 2 * ns <= length sample /\ ns <= 5 * size.
Proof.
  intros toint size sample rate Ht Hr ns. unfold ns, _zRANSACAutoSelectionNumber. cbv zeta.
  set (a := sofZ (Z.of_nat (size * 5)) : R).
  set (b := (sofZ (Z.of_nat (length sample)) * (1 - rate) * (sofZ 5 / sofZ 10))%S : R).
  assert (Ea : a = INR (5 * size)) by (unfold a; change (IZR (Z.of_nat (size * 5)) = INR (5 * size)); rewrite <- INR_IZR_INZ; f_equal; lia).
  assert (Eb : b = (INR (length sample) * (1 - rate) / 2)%R)
    by (unfold b; change (IZR (Z.of_nat (length sample)) * (1 - rate) * (5 / 10) = INR (length sample) * (1 - rate) / 2)%R; rewrite <- INR_IZR_INZ; field).
  pose proof (pos_INR (length sample)). pose proof (pos_INR (5 * size)).
  assert (0 <= INR (length sample) * (1 - rate))%R by (apply Rmult_le_pos; lra).
  assert (INR (length sample) * (1 - rate) <= INR (length sample))%R.
  { rewrite <- (Rmult_1_r (INR (length sample))) at 2. apply Rmult_le_compat_l; lra. }
  change (slt a b) with (Rltb a b).
  assert (Hn : (INR (toint (if Rltb a b then a else b)) <= a /\ INR (toint (if Rltb a b then a else b)) <= b)%R).
  { destruct (Rltb_spec a b).
    - pose proof (Ht a). split; [|apply Rle_trans with a]; try lra; apply Ht; lra.
    - pose proof (Ht b). lra. }
  destruct Hn as [H3 H4]. split; apply INR_le.
  - rewrite mult_INR. change (INR 2) with 2%R. lra.
  - lra.
Qed.
