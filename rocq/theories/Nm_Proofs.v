(** Lemmas about the Nelder-Mead method (C86). *)
From Coq Require Import List Arith Lia Reals Lra Bool Permutation Sorted.
From Verif Require Import Prelude Prelude_Proofs Scalar RealLib Rrt2_Proofs Nm_Model Nm_Spec.
Import ListNotations.
Local Open Scope R_scope.

Lemma nvec_length {T} dim (g : nat -> T) : length (vec dim g) = dim.
Proof. unfold vec. now rewrite map_length, seq_length. Qed.
Lemma el_nvec dim (g : nat -> R) j : (j < dim)%nat -> nth j (vec dim g) 0 = g j.
Proof.
  intros H. unfold vec. rewrite (nth_indep _ 0 (g O)) by (rewrite map_length, seq_length; lia).
  rewrite map_nth, seq_nth by lia. reflexivity.
Qed.
Lemma vec_ext {T} dim (g g' : nat -> T) : (forall j, (j < dim)%nat -> g j = g' j) -> vec dim g = vec dim g'.
Proof. intros H. unfold vec. apply map_ext_in. intros j Hj. apply in_seq in Hj. apply H. lia. Qed.
Lemma vec_self dim (v : list R) : length v = dim -> vec dim (fun k => nth k v 0) = v.
Proof.
  intros <-. apply nth_ext with 0 0. { now rewrite nvec_length. } intros n Hn. rewrite nvec_length in Hn. now rewrite el_nvec.
Qed.

Lemma move_last_ok : forall a b (h : nat), move_last (length a) (a ++ b ++ [h]) = a ++ h :: b.
Proof.
  intros a b h. unfold move_last.
  assert (L : (length (a ++ b ++ [h]) - 1 = length (a ++ b))%nat) by (rewrite !app_length; cbn; lia). rewrite L.
  assert (E1 : firstn (length a) (a ++ b ++ [h]) = a) by (rewrite firstn_app, Nat.sub_diag, firstn_all; cbn; apply app_nil_r).
  assert (E2 : skipn (length (a ++ b)) (a ++ b ++ [h]) = [h]) by (rewrite (app_assoc a b [h]), skipn_app, Nat.sub_diag, skipn_all; reflexivity).
  assert (E3 : firstn (length (a ++ b)) (a ++ b ++ [h]) = a ++ b) by (rewrite (app_assoc a b [h]), firstn_app, Nat.sub_diag, firstn_all; cbn; apply app_nil_r).
  assert (E4 : skipn (length a) (a ++ b) = b) by (rewrite skipn_app, Nat.sub_diag, skipn_all; reflexivity).
  rewrite E1, E2, E3, E4. reflexivity.
Qed.

Section NmProofs.
  Variables (f : list R -> R) (dim : nat) (sortix : list R -> list nat -> list nat).
  Definition kle (ev : list R) (a b : nat) : Prop := nth a ev 0 <= nth b ev 0.
  Hypothesis Hsort : forall ev l, Permutation (sortix ev l) l /\ StronglySorted (kle ev) (sortix ev l).

  (** the invariant *)
  Record good (s : simplex) : Prop := {
    g_len : length (vs s) = S dim;
    g_dim : forall v, In v (vs s) -> length v = dim;
    g_ev : ev s = map f (vs s);
    g_idx : Permutation (idx s) (List.seq 0 (S dim));
    g_sort : StronglySorted (kle (ev s)) (idx s) }.

  Lemma ss_app_inv : forall (P : nat -> nat -> Prop) a b, StronglySorted P (a ++ b) -> StronglySorted P a /\ StronglySorted P b /\ forall x y, In x a -> In y b -> P x y.
  Proof.
    induction a as [|x a IH]; intros b H; cbn in *. { repeat split; auto. constructor. intros x y []. }
    apply StronglySorted_inv in H. destruct H as [H F]. destruct (IH b H) as [A [B D]]. rewrite Forall_app in F. destruct F as [F1 F2].
    split; [constructor; auto|]. split; auto. intros u y [<-|Hu] Hy; auto. rewrite Forall_forall in F2. auto.
  Qed.
  Lemma ss_app : forall (P : nat -> nat -> Prop) a b, StronglySorted P a -> StronglySorted P b -> (forall x y, In x a -> In y b -> P x y) -> StronglySorted P (a ++ b).
  Proof.
    induction a as [|x a IH]; intros b HA HB H; cbn; auto. apply StronglySorted_inv in HA. destruct HA as [HA F]. constructor.
    - apply IH; auto. intros; apply H; auto. now right.
    - apply Forall_app. split; auto. apply Forall_forall. intros y Hy. apply H; auto. now left.
  Qed.

  (** the reordering inserts the last *)
  Lemma reord_loop_ok : forall vs0 ev0 h b a, (forall j, In j (a ++ b ++ [h]) -> (j < length ev0)%nat) ->
    StronglySorted (kle ev0) (a ++ b) -> (forall x, In x a -> kle ev0 x h) ->
    exists l, reord_loop (S (length b)) (length a) (Simplex vs0 ev0 (a ++ b ++ [h])) = Ok (Simplex vs0 ev0 l) /\
      Permutation l (a ++ b ++ [h]) /\ StronglySorted (kle ev0) l.
  Proof.
    clear Hsort.
    assert (GE : forall (e : list R) j, (j < length e)%nat -> get e j = Ok (nth j e 0)).
    { intros e j Hj. unfold get. rewrite (nth_error_nth' e 0 Hj). reflexivity. }
    assert (HD : forall (v : list (list R)) e (l : list nat) h, head_ (Simplex v e (l ++ [h])) = Ok h).
    { intros. unfold head_. cbn [idx]. rewrite app_length. cbn [length]. replace (length l + 1 =? 0)%nat with false by (symmetry; apply Nat.eqb_neq; lia).
      unfold get. replace (length l + 1 - 1)%nat with (length l) by lia. rewrite nth_error_app2 by lia. now rewrite Nat.sub_diag. }
    intros vs0 ev0 h. induction b as [|x b IH]; intros a Hin Hs Ha.
    - cbn [app length reord_loop]. unfold get at 1. cbn [idx ev vs]. rewrite nth_error_app2 by lia. rewrite Nat.sub_diag. cbn [nth_error bind].
      rewrite !GE by (apply Hin; apply in_or_app; right; now left). cbn [bind]. rewrite HD. cbn [bind]. rewrite !GE by (apply Hin; apply in_or_app; right; now left). cbn [bind].
      change (@slt R _) with Rltb. destruct (Rltb_spec (nth h ev0 0) (nth h ev0 0)); [lra|]. eexists. split; [reflexivity|]. split; auto.
      rewrite app_nil_r in Hs. apply ss_app; auto. { repeat constructor. } intros u y Hu [<-|[]]. auto.
    - change (length (x :: b)) with (S (length b)). remember (S (length b)) as K eqn:EK. cbn [reord_loop]. unfold get at 1. cbn [idx ev vs]. rewrite nth_error_app2 by lia. rewrite Nat.sub_diag. cbn [app nth_error bind].
      assert (Hx : In x (a ++ (x :: b) ++ [h])) by (apply in_or_app; right; now left).
      assert (Hh : In h (a ++ (x :: b) ++ [h])) by (apply in_or_app; right; apply in_or_app; right; now left).
      rewrite (GE ev0 x) by auto. cbn [bind]. change (a ++ x :: b ++ [h]) with (a ++ (x :: b) ++ [h]). rewrite app_assoc. rewrite HD. rewrite <- app_assoc. cbn [bind]. rewrite (GE ev0 h) by auto. cbn [bind].
      change (@slt R _) with Rltb. destruct (Rltb_spec (nth h ev0 0) (nth x ev0 0)).
      + eexists. split; [reflexivity|].
        assert (E : move_last (length a) (a ++ (x :: b) ++ [h]) = a ++ h :: x :: b).
        { apply (move_last_ok a (x :: b) h). }
        rewrite E. split.
        * apply Permutation_app_head. change (h :: x :: b) with ([h] ++ (x :: b)). apply Permutation_app_comm.
        * destruct (ss_app_inv _ _ _ Hs) as [S1 [S2 S3]]. apply ss_app; auto.
          { constructor; auto. apply StronglySorted_inv in S2. destruct S2 as [S2 S4]. constructor. { unfold kle. lra. }
            rewrite Forall_forall in *. intros y Hy. specialize (S4 y Hy). unfold kle in *. lra. }
          { intros u y Hu [<-|Hy]; auto. }
      + destruct (IH (a ++ [x])) as [l [A1 [A2 A3]]].
        * intros j Hj. apply Hin. rewrite <- app_assoc in Hj. exact Hj.
        * rewrite <- app_assoc. exact Hs.
        * intros u Hu. apply in_app_or in Hu. destruct Hu as [Hu|[<-|[]]]; auto. unfold kle. lra.
        * exists l. rewrite <- !app_assoc in A1, A2. cbn [app] in A1, A2. rewrite app_length in A1. cbn [length] in A1. rewrite Nat.add_1_r in A1.
          split; [exact A1|]. auto.
  Qed.

  Lemma get_nth {A} (l : list A) d j : (j < length l)%nat -> get l j = Ok (nth j l d).
  Proof. intros H. unfold get. rewrite (nth_error_nth' l d H). reflexivity. Qed.

  (** the order of a simplex with at least two vertices *)
  Lemma order_shape : forall s, good s -> (0 < dim)%nat -> exists t a h, idx s = (t :: a) ++ [h].
  Proof.
    intros s G Hd. pose proof (Permutation_length (g_idx _ G)) as L. rewrite seq_length in L.
    destruct (idx s) as [|t l]; [discriminate|]. destruct (exists_last (l := l)) as [a [h E]]. { intros ->. cbn in L. lia. }
    exists t, a, h. now rewrite E.
  Qed.

  (** the vertices in the order of the index *)
  Lemma verts_perm : forall s, good s -> Permutation (map (fun i => nth i (vs s) []) (idx s)) (vs s).
  Proof.
    intros s G. eapply Permutation_trans. { apply Permutation_map. apply (g_idx _ G). }
    rewrite <- (g_len _ G). clear. induction (vs s) as [|v l IH]; cbn [length List.seq map]. { constructor. }
    cbn [nth]. constructor. rewrite <- seq_shift, map_map. cbn [nth]. exact IH.
  Qed.
  Lemma value_nth : forall s i, good s -> (i < S dim)%nat -> nth i (ev s) 0 = f (nth i (vs s) []).
  Proof. intros s i G Hi. rewrite (g_ev _ G). rewrite (nth_indep _ 0 (f [])) by (rewrite map_length, (g_len _ G); auto). apply map_nth. Qed.
  Lemma idx_lt : forall s i, good s -> In i (idx s) -> (i < S dim)%nat.
  Proof. intros s i G H. apply (Permutation_in _ (g_idx _ G)) in H. apply in_seq in H. lia. Qed.

  (** the spec's data of a simplex *)
  Lemma shape : forall s t a h, good s -> idx s = (t :: a) ++ [h] ->
    let V := fun i => nth i (vs s) [] in let others := map V (t :: a) in
    nth_error (vs s) h = Some (V h) /\ Permutation (V h :: others) (vs s) /\ (forall v, In v (vs s) -> f (V t) <= f v <= f (V h)) /\ In (V t) others /\ In (V (last (t :: a) O)) others /\ (forall v, In v others -> f v <= f (V (last (t :: a) O))).
  Proof.
    intros s t a h G E V others.
    assert (Hh : In h (idx s)) by (rewrite E; apply in_or_app; right; now left).
    assert (HP : Permutation (V h :: others) (vs s)).
    { eapply Permutation_trans; [|apply verts_perm; auto]. rewrite E, map_app. unfold others. cbn [map]. apply Permutation_cons_append. }
    assert (Hle : forall i j, kle (ev s) i j -> In i (idx s) -> In j (idx s) -> f (V i) <= f (V j)).
    { intros i j H Hi Hj. unfold kle in H. rewrite !value_nth in H by (auto; eapply idx_lt; eauto). exact H. }
    pose proof (g_sort _ G) as Ss. rewrite E in Ss. destruct (ss_app_inv _ _ _ Ss) as [S1 [_ S3]].
    assert (Hin : forall i, In i (t :: a) -> In i (idx s)) by (intros; rewrite E; apply in_or_app; now left).
    split. { apply nth_error_nth'. rewrite (g_len _ G). eapply idx_lt; eauto. } split; auto. split.
    { intros v Hv. apply (Permutation_in _ (Permutation_sym (verts_perm s G))) in Hv. apply in_map_iff in Hv. destruct Hv as [i [<- Hi]]. fold (V i).
      rewrite E in Hi. split.
      - cbn in Ss. apply StronglySorted_inv in Ss. destruct Ss as [_ F]. rewrite Forall_forall in F. cbn [app] in Hi. destruct Hi as [<-|Hi]; [lra|].
        apply Hle; auto. { apply Hin. now left. } rewrite E. now right.
      - apply in_app_or in Hi. destruct Hi as [Hi|[<-|[]]]; [|lra]. apply Hle; auto. apply S3; auto. now left. }
    split. { now left. }
    assert (Hlast : forall i, In i (t :: a) -> i = last (t :: a) O \/ kle (ev s) i (last (t :: a) O)).
    { clear - S1. revert t S1. induction a as [|x a IH]; intros t S1 i Hi. { destruct Hi as [<-|[]]. now left. }
      apply StronglySorted_inv in S1. destruct S1 as [S1 F]. change (last (t :: x :: a) O) with (last (x :: a) O). destruct Hi as [<-|Hi]; [|apply IH; auto].
      right. rewrite Forall_forall in F. apply F. clear. revert x. induction a as [|y a IH]; intros x. { now left. } change (last (x :: y :: a) O) with (last (y :: a) O). right. apply IH. }
    assert (Hl : In (last (t :: a) O) (t :: a)).
    { clear. revert t. induction a as [|y a IH]; intros x. { now left. } change (last (x :: y :: a) O) with (last (y :: a) O). right. apply IH. }
    split. { apply in_map. auto. }
    intros v Hv. apply in_map_iff in Hv. destruct Hv as [i [<- Hi]]. destruct (Hlast i Hi) as [->|Hk]; [lra|]. apply Hle; auto.
  Qed.

  Lemma head_ok : forall v e (l : list nat) h, head_ (@Simplex R v e (l ++ [h])) = Ok h.
  Proof.
    intros. unfold head_. cbn [idx]. rewrite app_length. cbn [length]. replace (length l + 1 =? 0)%nat with false by (symmetry; apply Nat.eqb_neq; lia).
    unfold get. replace (length l + 1 - 1)%nat with (length l) by lia. rewrite nth_error_app2 by lia. now rewrite Nat.sub_diag.
  Qed.
  Lemma neck_ok : forall v e t (a : list nat) h, neck_ (@Simplex R v e ((t :: a) ++ [h])) = Ok (last (t :: a) O).
  Proof.
    intros. unfold neck_. cbn [idx]. rewrite app_length. cbn [length]. replace (S (length a) + 1 <? 2)%nat with false by (symmetry; apply Nat.ltb_ge; lia).
    unfold get. replace (S (length a) + 1 - 2)%nat with (length a) by lia.
    assert (N : nth_error (t :: a) (length a) = Some (last (t :: a) O)).
    { revert t. induction a as [|y a IH]; intros x. { reflexivity. } change (last (x :: y :: a) O) with (last (y :: a) O). cbn [length nth_error]. apply IH. }
    rewrite nth_error_app1 by (cbn; lia). now rewrite N.
  Qed.

  (** the pin is the centroid *)
  Lemma pin_ok : forall s t a h, good s -> idx s = (t :: a) ++ [h] ->
    _zOptNMPin dim s = Ok (centroid dim (map (fun i => nth i (vs s) []) (t :: a))).
  Proof.
    intros s t a h G E. unfold _zOptNMPin. pose proof (g_len _ G) as L.
    assert (La : length (t :: a) = dim).
    { pose proof (Permutation_length (g_idx _ G)) as P. rewrite E, app_length, seq_length in P. cbn [length] in *. lia. }
    match goal with |- context [for_ 1 _ ?g _] => set (body := g) end.
    set (V := fun i => nth i (vs s) []).
    destruct (for_inv (fun k pin => pin = vec dim (fun j => fold_right (fun v a => nth j v 0 + a) 0 (rev (map V (firstn (k - 1) (t :: a)))))) 1 (length (vs s)) body (vec dim (fun _ => s0))) as [p [H1 H2]].
    - lia.
    - reflexivity.
    - intros k pin Hk ->. unfold body.
      assert (Hkl : (k - 1 < length (t :: a))%nat) by lia.
      unfold get at 1. rewrite E, nth_error_app1 by auto. rewrite (nth_error_nth' _ O Hkl). cbn [bind]. set (i := nth (k - 1) (t :: a) O).
      assert (Hi : (i < S dim)%nat). { apply (idx_lt s); auto. rewrite E. apply in_or_app. left. apply nth_In. auto. }
      rewrite (get_nth (vs s) []) by lia. cbn [bind]. eexists. split; [reflexivity|]. apply vec_ext. intros j Hj.
      replace (S k - 1)%nat with (S (k - 1)) by lia.
      assert (F : firstn (S (k - 1)) (t :: a) = firstn (k - 1) (t :: a) ++ [i]).
      { clear - Hkl. unfold i. clear i. revert Hkl. generalize (k - 1)%nat (t :: a). clear. intros n. induction n; intros l Hl; destruct l; cbn [length] in Hl; try lia; cbn [firstn app nth]. { reflexivity. } f_equal. apply IHn. lia. }
      rewrite F, map_app, rev_app_distr. cbn [map rev app fold_right]. unfold el. change (@s0 R _) with 0. rewrite el_nvec by auto. unfold V at 2. rs. lra.
    - rewrite H1. cbn [bind]. subst p. f_equal. unfold centroid. fold (vec dim (fun k => fold_right (fun v a => nth k v 0 + a) 0 (map V (t :: a)) / INR (length (map V (t :: a))))).
      apply vec_ext. intros j Hj. unfold el. change (@s0 R _) with 0. rewrite el_nvec by auto. rewrite map_length.
      replace (length (vs s) - 1)%nat with (length (t :: a)) by lia. rewrite firstn_all.
      assert (FR : forall l, fold_right (fun v a => nth j v 0 + a) 0 (rev l) = fold_right (fun v a => nth j v 0 + a) 0 l).
      { assert (FA : forall l x, fold_right (fun v a => nth j v 0 + a) x l = fold_right (fun v a => nth j v 0 + a) 0 l + x).
        { induction l as [|y l IH]; intros x; cbn [fold_right]; [lra|]. rewrite IH. lra. }
        induction l as [|y l IH]; cbn [rev fold_right]; auto. rewrite fold_right_app. cbn [fold_right]. rewrite FA, IH. lra. }
      rewrite FR. change (@sofZ R _) with IZR. rewrite <- INR_IZR_INZ. reflexivity.
  Qed.


  (** a new vertex in the place of the worst *)
  Lemma replace_ok : forall s t a h p, good s -> idx s = (t :: a) ++ [h] -> length p = dim ->
    exists s', ('s1 <- put_vertex s h p ;; 's2 <- put_value s1 h (f p) ;; _zOptNMReord s2) = Ok s' /\ good s' /\ vs s' = upd (vs s) h p.
  Proof.
    intros s t a h p G E Hp. pose proof (g_len _ G) as L.
    assert (Hh : (h < S dim)%nat) by (apply (idx_lt s); auto; rewrite E; apply in_or_app; right; now left).
    assert (Le : length (ev s) = S dim) by (rewrite (g_ev _ G), map_length; auto).
    unfold put_vertex. rewrite set_ok by lia. cbn [bind]. unfold put_value. cbn [vs ev idx]. rewrite set_ok by lia. cbn [bind].
    unfold _zOptNMReord. cbn [vs ev idx]. rewrite upd_length, L, E.
    assert (Nd : NoDup ((t :: a) ++ [h])) by (rewrite <- E; eapply Permutation_NoDup; [symmetry; apply (g_idx _ G)|apply seq_NoDup]).
    assert (Nh : forall i, In i (t :: a) -> i <> h).
    { intros i Hi ->. apply NoDup_remove_2 in Nd. apply Nd. rewrite app_nil_r. auto. }
    assert (La : length (t :: a) = dim).
    { pose proof (Permutation_length (g_idx _ G)) as P. rewrite E, app_length, seq_length in P. cbn [length] in *. lia. }
    pose proof (g_sort _ G) as Ss. rewrite E in Ss. destruct (ss_app_inv _ _ _ Ss) as [S1 _].
    destruct (reord_loop_ok (upd (vs s) h p) (upd (ev s) h (f p)) h (t :: a) []) as [l [A1 [A2 A3]]].
    - intros j Hj. rewrite upd_length, Le. apply (idx_lt s); auto. rewrite E. exact Hj.
    - cbn [app]. assert (W : forall l, (forall i, In i l -> i <> h) -> StronglySorted (kle (ev s)) l -> StronglySorted (kle (upd (ev s) h (f p))) l).
      { induction l as [|x l IH]; intros Hl Hs; constructor; apply StronglySorted_inv in Hs; destruct Hs as [H1 H2].
        - apply IH; auto. intros; apply Hl; now right.
        - rewrite Forall_forall in *. intros y Hy. specialize (H2 y Hy). unfold kle in *.
          rewrite !nth_upd_neq; auto; intros <-; [apply (Hl h)|apply (Hl h)]; auto; [now right|now left]. }
      apply W; auto.
    - intros x [].
    - cbn [app] in A1. change (length (@nil nat)) with O in A1. rewrite La in A1. cbn [app]. rewrite A1. eexists. split; [reflexivity|].
      split; [|reflexivity]. constructor; cbn [vs ev idx].
      + now rewrite upd_length.
      + intros v Hv. apply In_nth_error in Hv. destruct Hv as [i Hi]. rewrite nth_error_upd in Hi by lia. destruct (i =? h)%nat; [injection Hi as <-; auto|].
        apply (g_dim _ G). eapply nth_error_In; eauto.
      + rewrite (g_ev _ G). clear. revert h. induction (vs s) as [|v l IH]; intros [|h]; cbn; auto. f_equal. apply IH.
      + eapply Permutation_trans; [exact A2|]. cbn [app]. change (t :: a ++ [h]) with ((t :: a) ++ [h]). rewrite <- E. apply (g_idx _ G).
      + exact A3.
  Qed.

  Lemma along_length : forall a x d, length (along dim a x d) = dim.
  Proof. intros. unfold along. now rewrite map_length, seq_length. Qed.
  Lemma along_vec : forall a x d, along dim a x d = vec dim (fun k => nth k a 0 + x * nth k d 0).
  Proof. reflexivity. Qed.
  Lemma midpoint_vec : forall a b, midpoint dim a b = vec dim (fun k => (nth k a 0 + nth k b 0) / 2).
  Proof. reflexivity. Qed.

  Lemma midpoint_self : forall b, length b = dim -> midpoint dim b b = b.
  Proof. intros b Hb. rewrite midpoint_vec. transitivity (vec dim (fun k => nth k b 0)); [|now apply vec_self]. apply vec_ext. intros; lra. Qed.

  (** expansion *)
  Lemma expand_ok : forall c w ev0 l h fuel s i, idx s = l ++ [h] -> (h < length (vs s))%nat -> ev s = ev0 ->
    let d := minus dim c w in
    forall newval, newval = f (along dim c (2 ^ i) d) ->
    exists r, expand_loop f dim fuel s c (along dim c (2 ^ i) d) newval = Ok r /\
      match r with
      | None => True
      | Some (s', b) => exists k, (i <= k)%nat /\ (forall j, (i <= j < k)%nat -> f (along dim c (2 ^ S j) d) < f (along dim c (2 ^ j) d)) /\
          f (along dim c (2 ^ k) d) <= f (along dim c (2 ^ S k) d) /\ b = f (along dim c (2 ^ k) d) /\
          s' = Simplex (upd (vs s) h (along dim c (2 ^ k) d)) ev0 (idx s)
      end.
  Proof.
    intros c w ev0 l h. induction fuel; intros s i E Hh Ee d newval Hn; cbn [expand_loop]. { exists None. auto. }
    destruct s as [vs0 ev1 idx0]. cbn [idx vs ev] in *. subst idx0 ev1. rewrite head_ok. cbn [bind]. unfold put_vertex. cbn [vs ev idx]. rewrite set_ok by auto. cbn [bind].
    unfold _zOptNMExp. rewrite head_ok. cbn [bind vs]. rewrite (get_nth _ []) by (rewrite upd_length; auto). cbn [bind]. rewrite nth_upd_eq by auto.
    assert (Et : vec dim (fun k => (el (along dim c (2 ^ i) d) k * sofZ 2 - el c k)%S) = along dim c (2 ^ S i) d).
    { rewrite !along_vec. apply vec_ext. intros k Hk. unfold el. change (@s0 R _) with 0. rewrite el_nvec by auto. cbn [pow]. rs. ring. }
    rewrite Et. change (@slt R _) with Rltb. destruct (Rltb_spec (f (along dim c (2 ^ S i) d)) newval).
    - destruct (IHfuel (Simplex (upd vs0 h (along dim c (2 ^ i) d)) ev0 (l ++ [h])) (S i)) with (newval := f (along dim c (2 ^ S i) d)) as [rr [A B]]; cbn [idx vs ev]; auto.
      { rewrite upd_length. auto. }
      exists rr. split; [exact A|]. destruct rr as [[s' b]|]; auto. destruct B as [k [B1 [B2 [B3 [B4 B5]]]]]. exists k. split; [lia|]. split.
      + intros j Hj. destruct (Nat.eq_dec j i) as [->|]; [rewrite <- Hn; auto|]. apply B2. lia.
      + split; auto. split; auto. rewrite B5. cbn [vs idx]. f_equal.
        clear. revert h. induction vs0 as [|v l IH]; intros [|h]; cbn; auto. f_equal. apply IH.
    - eexists. split; [reflexivity|]. exists i. split; [lia|]. split; [intros; lia|]. split; [lra|]. split; auto.
  Qed.

  (** the crunch *)
  Lemma crunch_ok : forall s t a, good s -> idx s = t :: a ->
    _zOptNMCrunch dim s = Ok (Simplex (map (fun v => midpoint dim v (nth t (vs s) [])) (vs s)) (ev s) (idx s)).
  Proof.
    intros s t a G E. unfold _zOptNMCrunch, tail_. rewrite E. unfold get at 1. cbn [nth_error bind]. pose proof (g_len _ G) as L.
    assert (Ht : (t < length (vs s))%nat) by (rewrite L; apply (idx_lt s); auto; rewrite E; now left).
    match goal with |- context [for_ 0 _ ?g _] => set (body := g) end. set (b := nth t (vs s) []). set (m := fun v => midpoint dim v b).
    assert (Hb : m b = b).
    { apply midpoint_self. apply (g_dim _ G). apply nth_In. auto. }
    destruct (for_inv (fun k es => length es = length (vs s) /\ forall i, (i < length (vs s))%nat -> nth i es [] = if (i <? k)%nat then m (nth i (vs s) []) else nth i (vs s) []) 0 (length (vs s)) body (vs s)) as [es [H1 [H2 H3]]].
    - lia.
    - split; auto.
    - intros k es Hk [A1 A2]. unfold body. destruct (Nat.eqb_spec k t) as [->|Hn].
      + eexists. split; [reflexivity|]. split; auto. intros i Hi. rewrite A2 by auto. destruct (Nat.ltb_spec i t), (Nat.ltb_spec i (S t)); auto; try lia.
        assert (i = t) by lia. subst i. fold b. auto.
      + rewrite (get_nth es []) by lia. cbn [bind]. rewrite (get_nth es []) by lia. cbn [bind]. rewrite set_ok by lia. eexists. split; [reflexivity|].
        split; [now rewrite upd_length|]. intros i Hi. rewrite nth_upd by lia. rewrite A2 by lia. rewrite Nat.ltb_irrefl.
        assert (Eb : nth t es [] = b). { rewrite A2 by lia. fold b. destruct (t <? k)%nat; auto. }
        rewrite Eb. destruct (Nat.eqb_spec i k) as [->|].
        * replace (k <? S k)%nat with true by (symmetry; apply Nat.ltb_lt; lia). unfold m. rewrite midpoint_vec. apply vec_ext. intros j Hj. unfold el. rs. lra.
        * rewrite A2 by auto. destruct (Nat.ltb_spec i k), (Nat.ltb_spec i (S k)); auto; lia.
    - rewrite H1. cbn [bind]. do 2 f_equal. apply nth_ext with [] (m []). { now rewrite map_length. }
      intros i Hi. rewrite H2 in Hi. rewrite H3 by auto. replace (i <? length (vs s))%nat with true by (symmetry; apply Nat.ltb_lt; auto). now rewrite map_nth.
  Qed.
  Lemma evalall_good : forall s, length (vs s) = S dim -> (forall v, In v (vs s) -> length v = dim) -> Permutation (idx s) (List.seq 0 (S dim)) ->
    good (_zOptNMEvalAll f sortix s).
  Proof.
    intros s L D P. destruct (Hsort (map f (vs s)) (idx s)) as [A B]. constructor; unfold _zOptNMEvalAll; cbn [vs ev idx]; auto.
    eapply Permutation_trans; eauto.
  Qed.

  (** one iteration *)
  Lemma step_ok : forall fuel s, good s -> (0 < dim)%nat ->
    exists r, nm_step f dim sortix fuel s = Ok r /\ match r with None => True | Some s' => good s' /\ moved f dim (vs s) (vs s') end.
  Proof.
    intros fuel s G Hd. destruct (order_shape s G Hd) as [t [a [h E]]]. destruct (shape s t a h G E) as [Sh1 [Sh2 [Sh3 [Sh4 [Sh5 Sh6]]]]].
    set (V := fun i => nth i (vs s) []) in *. set (others := map V (t :: a)) in *. set (w := V h) in *.
    unfold nm_step. rewrite (pin_ok s t a h G E). fold V others. cbn [bind]. set (c := centroid dim others).
    pose proof (g_len _ G) as L.
    assert (Hh : (h < length (vs s))%nat) by (apply nth_error_Some; congruence).
    assert (Ht : (t < length (vs s))%nat) by (rewrite L; apply (idx_lt s); auto; rewrite E; now left).
    assert (Hz : (last (t :: a) O < length (vs s))%nat).
    { rewrite L. apply (idx_lt s); auto. rewrite E. apply in_or_app. left. clear. revert t. induction a as [|y a IH]; intros x. { now left. } change (last (x :: y :: a) O) with (last (y :: a) O). right. apply IH. }
    assert (Le : length (ev s) = length (vs s)) by (rewrite (g_ev _ G), map_length; auto).
    assert (Hd0 : head_ s = Ok h). { destruct s as [vs0 ev0 idx0]. cbn [idx] in E. subst idx0. apply head_ok. }
    assert (Hn0 : neck_ s = Ok (last (t :: a) O)). { destruct s as [vs0 ev0 idx0]. cbn [idx] in E. subst idx0. apply neck_ok. }
    unfold _zOptNMRefl. rewrite Hd0. cbn [bind]. rewrite (get_nth (vs s) []) by auto. cbn [bind]. fold (V h). fold w.
    set (d := minus dim c w).
    assert (Er : vec dim (fun k => (el c k * sofZ 2 - el w k)%S) = along dim c 1 d).
    { rewrite along_vec. apply vec_ext. intros k Hk. unfold d, minus. fold (vec dim (fun k => nth k c 0 - nth k w 0)). rewrite el_nvec by auto. unfold el. rs. ring. }
    rewrite Er. unfold tail_. rewrite E. unfold get at 1. cbn [app nth_error bind].
    rewrite (get_nth (ev s) 0) by lia. cbn [bind]. rewrite value_nth by (auto; lia). fold (V t).
    change (@slt R _) with Rltb.
    assert (HM : forall P, P -> P) by auto.
    destruct (Rltb_spec (f (along dim c 1 d)) (f (V t))) as [Hb|Hb].
    - destruct (expand_ok c w (ev s) (t :: a) h fuel s 0 E Hh eq_refl (f (along dim c 1 d)) eq_refl) as [r [A B]]. fold d in A, B. cbn [pow] in A. rewrite A. cbn [bind].
      destruct r as [[s' bv]|]; [|exists None; auto].
      destruct B as [k [_ [B2 [B3 [B4 B5]]]]]. subst s' bv.
      assert (Hd1 : head_ (Simplex (upd (vs s) h (along dim c (2 ^ k) d)) (ev s) (idx s)) = Ok h) by (rewrite E; apply head_ok). rewrite Hd1. cbn [bind].
      destruct (replace_ok s t a h (along dim c (2 ^ k) d) G E (along_length _ _ _)) as [s' [R1 [R2 R3]]].
      unfold put_vertex in R1. rewrite set_ok in R1 by auto. cbn [bind] in R1.
      destruct (put_value _ h (f (along dim c (2 ^ k) d))) as [s2|] eqn:E2; cbn [bind] in *; [|discriminate]. rewrite R1. cbn [bind].
      eexists. split; [reflexivity|]. split; auto. exists h, w, others, (V t), (V (last (t :: a) O)). repeat (split; [solve [auto]|]). cbv zeta. fold c d.
      left. exists k. split; [intros; apply B2; lia|]. split; auto.
    - rewrite Hn0. cbn [bind]. rewrite (get_nth (ev s) 0) by lia. cbn [bind]. rewrite value_nth by (auto; lia). fold (V (last (t :: a) O)). set (z := V (last (t :: a) O)) in *.
      assert (RP : forall p, length p = dim -> exists s', ('h0 <- head_ s ;; 's1 <- put_vertex s h0 p ;; 's2 <- put_value s1 h0 (f p) ;; 's3 <- _zOptNMReord s2 ;; Ok (Some s3)) = Ok (Some s') /\ good s' /\ vs s' = upd (vs s) h p).
      { intros p Hp. rewrite Hd0. cbn [bind]. destruct (replace_ok s t a h p G E Hp) as [s' [R1 R2]]. exists s'. split; auto.
        destruct (put_vertex s h p) as [s1|]; cbn [bind] in *; [|discriminate]. destruct (put_value s1 h (f p)) as [s2|]; cbn [bind] in *; [|discriminate]. rewrite R1. reflexivity. }
      destruct (Rltb_spec (f z) (f (along dim c 1 d))) as [Hz1|Hz1].
      + unfold _zOptNMShrink. rewrite Hd0. cbn [bind]. rewrite (get_nth (vs s) []) by auto. cbn [bind]. fold (V h). fold w.
        assert (Em : vec dim (fun k => ((el w k + el c k) * (sofZ 1 / sofZ 2))%S) = midpoint dim w c).
        { rewrite midpoint_vec. apply vec_ext. intros k Hk. unfold el. rs. lra. }
        rewrite Em. destruct (Rltb_spec (f z) (f (midpoint dim w c))) as [Hz2|Hz2].
        * rewrite (crunch_ok s t (a ++ [h]) G E). cbn [bind]. eexists. split; [reflexivity|]. split.
          { apply evalall_good; cbn [vs idx]. - now rewrite map_length. - intros v Hv. apply in_map_iff in Hv. destruct Hv as [x [<- _]]. rewrite midpoint_vec. apply nvec_length. - apply (g_idx _ G). }
          exists h, w, others, (V t), z. repeat (split; [solve [auto]|]). cbv zeta. fold c d. right. right. right. repeat split; auto.
        * destruct (RP (midpoint dim w c)) as [s' [R1 [R2 R3]]]. { rewrite midpoint_vec. apply nvec_length. }
          rewrite ?Hd0. rewrite Hd0 in R1. cbn [bind] in R1 |- *. rewrite R1. eexists. split; [reflexivity|]. split; auto.
          exists h, w, others, (V t), z. repeat (split; [solve [auto]|]). cbv zeta. fold c d. right. right. left. repeat split; auto. lra.
      + destruct (RP (along dim c 1 d) (along_length _ _ _)) as [s' [R1 [R2 R3]]].
        rewrite ?Hd0. rewrite Hd0 in R1. cbn [bind] in R1 |- *. rewrite R1. eexists. split; [reflexivity|]. split; auto.
        exists h, w, others, (V t), z. repeat (split; [solve [auto]|]). cbv zeta. fold c d. right. left. repeat split; auto; lra.
  Qed.

  (** a move never loses the best *)
  Lemma moved_best : forall v1 v2, (forall v, In v v1 -> length v = dim) -> moved f dim v1 v2 -> forall v, In v v1 -> exists v', In v' v2 /\ f v' <= f v.
  Proof.
    intros v1 v2 D (h & w & others & b & z & M1 & M2 & M3 & M4 & M5 & M6 & M) v Hv.
    assert (Hb : In b v1) by (apply (Permutation_in _ M2); now right).
    (* b also stands at another place than h *)
    assert (UB2 : forall p, In b (upd v1 h p)).
    { intros p. destruct (nth_error_split _ _ M1) as [x [y [Exy Lx]]].
      assert (P2 : Permutation others (x ++ y)).
      { apply Permutation_cons_inv with w. eapply Permutation_trans; [exact M2|]. rewrite Exy. symmetry. apply Permutation_middle. }
      assert (Hbo : In b (x ++ y)) by (apply (Permutation_in _ P2); auto).
      assert (EU : upd v1 h p = x ++ p :: y).
      { rewrite Exy, <- Lx. clear. induction x; cbn; auto. f_equal. auto. }
      apply in_app_or in Hbo. rewrite EU. apply in_or_app. destruct Hbo; [left|right; right]; auto. }
    exists b. split; [|apply M3; auto]. cbv zeta in M. destruct M as [[k [_ [_ [_ ->]]]]|[[_ ->]|[[_ [_ ->]]|[_ [_ ->]]]]]; auto.
    apply in_map_iff. exists b. split; auto. apply midpoint_self. auto.
  Qed.

  Lemma run_best : forall v1 n v2, run f dim v1 n v2 -> (forall v, In v v1 -> length v = dim) ->
    (forall v, In v v2 -> length v = dim) /\ forall v, In v v1 -> exists v', In v' v2 /\ f v' <= f v.
  Proof.
    induction 1; intros D. { split; auto. intros v Hv. exists v. split; auto. lra. }
    destruct (IHrun D) as [A B]. split.
    - destruct H0 as (h & w & others & b & z & M1 & M2 & M3 & M4 & M5 & M6 & M). cbv zeta in M. intros v Hv.
      assert (U : forall p, length p = dim -> In v (upd vs1 h p) -> length v = dim).
      { intros p Hp Hu. apply In_nth_error in Hu. destruct Hu as [i Hi]. rewrite nth_error_upd in Hi by (apply nth_error_Some; congruence).
        destruct (i =? h)%nat; [injection Hi as <-; auto|]. apply A. eapply nth_error_In; eauto. }
      destruct M as [[k [_ [_ [_ ->]]]]|[[_ ->]|[[_ [_ ->]]|[_ [_ ->]]]]]; try (eapply U; [|exact Hv]; try apply along_length; rewrite midpoint_vec; apply nvec_length).
      apply in_map_iff in Hv. destruct Hv as [x [<- _]]. rewrite midpoint_vec. apply nvec_length.
    - intros v Hv. destruct (B v Hv) as [v' [B1 B2]]. destruct (moved_best vs1 vs2 A H0 v' B1) as [v'' [C1 C2]]. exists v''. split; auto. lra.
  Qed.

  (** the test of the size *)
  Lemma dist_ok : forall v w, zVecDist dim v w = distance dim v w.
  Proof.
    intros v w. unfold zVecDist, distance. change (@ssqrt R _) with R_sqrt.sqrt. f_equal. unfold el. change (@s0 R _) with 0.
    assert (FA : forall (g : nat -> R) l a, fold_left (fun a i => a + g i) l a = a + fold_right (fun k a => g k + a) 0 l).
    { induction l as [|x l IH]; intros a; cbn [fold_left fold_right]; [lra|]. rewrite IH. lra. }
    rs. rewrite (FA (fun i => (nth i v 0 - nth i w 0) * (nth i v 0 - nth i w 0))). rewrite Rplus_0_l.
    induction (List.seq 0 dim) as [|x l IH]; cbn [fold_right]; auto. rewrite IH. cbn [pow]. lra.
  Qed.
  Lemma dist_pos : forall v w, 0 <= distance dim v w.
  Proof. intros. apply sqrt_pos. Qed.
  Lemma check_ok : forall s tol, good s -> exists b, _zOptNMCheck dim s tol = Ok b /\ (b = true <-> small dim tol (vs s)).
  Proof.
    intros s tol G. unfold _zOptNMCheck. pose proof (g_len _ G) as L. destruct (vs s) as [|v0 l]; [discriminate|]. unfold get. cbn [nth_error bind tl].
    eexists. split; [reflexivity|]. rewrite forallb_forall. unfold small.
    assert (T : forall v, is_tol tol (zVecDist dim v0 v) = true <-> distance dim v0 v <= tol).
    { intros v. rewrite is_tol_R, dist_ok. rewrite Rabs_right by (apply Rle_ge, dist_pos). destruct (Rleb_spec (distance dim v0 v) tol); split; auto; try discriminate; lra. }
    split.
    - intros H. exists v0, l. split; auto. intros v Hv. apply T. auto.
    - intros [x [y [E H]]]. injection E as <- <-. intros v Hv. apply T. auto.
  Qed.

  Lemma try_ok : forall fuel tol k i s v0, good s -> run f dim v0 i (vs s) ->
    exists o, _zOptNMTry f dim sortix fuel k i s tol = Ok o /\
      match o with
      | Running => True
      | Failed => exists v, run f dim v0 (i + k) v
      | Found j ans e => (i <= j < i + k)%nat /\ e = f ans /\ exists v, run f dim v0 j v /\ small dim tol v /\ In ans v /\ forall x, In x v -> f ans <= f x
      end.
  Proof.
    intros fuel tol. induction k; intros i s v0 G Hr; cbn [_zOptNMTry]. { eexists. split; [reflexivity|]. exists (vs s). now rewrite Nat.add_0_r. }
    destruct (check_ok s tol G) as [b [Eb Hb]]. rewrite Eb. cbn [bind]. pose proof (g_len _ G) as L.
    destruct b.
    - destruct (idx s) as [|t a] eqn:Ei. { pose proof (Permutation_length (g_idx _ G)) as P. rewrite Ei in P. discriminate. }
      unfold tail_. rewrite Ei. unfold get at 1. cbn [nth_error bind].
      assert (Ht : (t < S dim)%nat) by (apply (idx_lt s); auto; rewrite Ei; now left).
      rewrite (get_nth (vs s) []) by lia. cbn [bind]. rewrite (get_nth (ev s) 0) by (rewrite (g_ev _ G), map_length; lia). cbn [bind]. rewrite value_nth by auto.
      eexists. split; [reflexivity|]. split; [lia|]. split; auto. exists (vs s). split; auto. split; [apply Hb; auto|]. split; [apply nth_In; lia|].
      intros x Hx. apply (Permutation_in _ (Permutation_sym (verts_perm s G))) in Hx. apply in_map_iff in Hx. destruct Hx as [j [<- Hj]].
      pose proof (g_sort _ G) as Ss. rewrite Ei in Ss, Hj. apply StronglySorted_inv in Ss. destruct Ss as [_ F]. destruct Hj as [<-|Hj]; [lra|].
      rewrite Forall_forall in F. specialize (F j Hj). unfold kle in F. rewrite !value_nth in F; auto. apply (idx_lt s); auto. rewrite Ei. now right.
    - destruct (Nat.eq_dec dim 0) as [Hd|Hd].
      + (* a single vertex is small *) exfalso. assert (small dim tol (vs s)); [|apply Hb in H; discriminate].
        destruct (vs s) as [|x [|y l]]; cbn [length] in L; try lia. exists x, []. split; auto. intros v [].
      + destruct (step_ok fuel s G ltac:(lia)) as [r [R1 R2]]. rewrite R1. cbn [bind]. destruct r as [s'|]; [|eexists; split; [reflexivity|exact Logic.I]].
        destruct R2 as [G' M]. destruct (IHk (S i) s' v0 G') as [o [O1 O2]]. { econstructor; eauto. }
        exists o. split; auto. destruct o; auto. { destruct O2 as [v Hv]. exists v. now replace (i + S k)%nat with (S i + k)%nat by lia. } destruct O2 as [A B]. split; auto. lia.
  Qed.

  Lemma start_ok : forall mn mx, vs (_zOptNMInit dim mn mx) = start dim mn mx.
  Proof.
    intros mn mx. unfold _zOptNMInit, start. cbn [vs].
    assert (E : vec dim (fun i => (sofZ 1 / sofZ 2 * (el mn i + el mx i))%S) = midpoint dim mn mx).
    { rewrite midpoint_vec. apply vec_ext. intros j Hj. unfold el. rs. lra. }
    rewrite E. reflexivity.
  Qed.
  Lemma init_good : forall mn mx, good (_zOptNMEvalAll f sortix (_zOptNMInit dim mn mx)).
  Proof.
    intros mn mx. apply evalall_good.
    - rewrite start_ok. cbn [start length]. now rewrite map_length, seq_length.
    - intros v Hv. rewrite start_ok in Hv. destruct Hv as [<-|Hv]. { rewrite midpoint_vec. apply nvec_length. }
      apply in_map_iff in Hv. destruct Hv as [i [<- _]]. now rewrite map_length, seq_length.
    - unfold _zOptNMInit. cbn [idx]. reflexivity.
  Qed.
End NmProofs.
