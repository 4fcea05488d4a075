From Coq Require Import Reals Lra Permutation.
From Verif Require Import Prelude Prelude_Proofs Scalar RealLib Collect_Model Collect_Spec.
Local Open Scope R_scope.

(** ** queue *)
Lemma del_last_app {A} (l : list A) x : del_last (l ++ [x]) = Some (x, l).
Proof.
  induction l as [|a l IH]; auto. cbn [app del_last]. destruct (l ++ [x]) eqn:E; [destruct l; discriminate|].
  rewrite <- E in *. now rewrite IH.
Qed.
Lemma del_last_nil {A} (l : list A) : del_last l = None -> l = [].
Proof. destruct l as [|a l] using rev_ind; auto. now rewrite del_last_app. Qed.
Lemma rev_case {A} (l : list A) : l = [] \/ exists l' x, l = l' ++ [x].
Proof. destruct l using rev_ind; eauto. Qed.
Lemma fifo {A} (h : list (qop A)) : forall s, let (os, s') := run_seq s h in
  rev s ++ enqueued h = somes os ++ rev s'.
Proof.
  induction h as [|o h IH]; intros s; cbn [run_seq enqueued somes].
  - now rewrite app_nil_r.
  - destruct o as [[v|]|].
    + cbn [zSeqEnqueue snd]. specialize (IH (v :: s)). destruct (run_seq (v :: s) h). cbn [rev] in IH. rewrite <- app_assoc in IH. exact IH.
    + cbn [zSeqEnqueue snd]. apply IH.
    + unfold zSeqDequeue. destruct (rev_case s) as [->|(s' & x & ->)].
      * cbn. specialize (IH []). destruct (run_seq [] h). exact IH.
      * rewrite del_last_app. specialize (IH s'). destruct (run_seq s' h) as (os & s''). cbn [somes].
        rewrite rev_app_distr. cbn. now rewrite IH.
Qed.
Lemma dequeue_spec {A} (s : list A) : zSeqDequeue s = (hd_error (rev s), rev (tl (rev s))).
Proof.
  unfold zSeqDequeue. destruct (rev_case s) as [->|(s' & x & ->)]; auto.
  rewrite del_last_app, rev_app_distr. cbn. now rewrite rev_involutive.
Qed.
Lemma jump_spec {A} (cells : list A) step tail :
  jump cells step tail = match nth_error cells (Z.to_nat step) with Some c => Some c | None => tail end.
Proof.
  revert step. induction cells as [|c cells IH]; intros step; cbn [jump].
  - now destruct (Z.to_nat step).
  - destruct (Z.leb_spec step 0).
    + now replace (Z.to_nat step) with O by lia.
    + rewrite IH. now replace (Z.to_nat step) with (S (Z.to_nat (step - 1))) by lia.
Qed.

(** ** distances *)
Lemma zVecSqrDist_ok u v : length v = length u -> zVecSqrDist u v = Ok (sqd u v).
Proof.
  intros L. unfold zVecSqrDist.
  destruct (for_inv (fun i d => d = rsum i (fun i => (nth i u 0 - nth i v 0) * (nth i u 0 - nth i v 0))) 0 (length u)
     (fun i d => a <- get u i ;; b <- get v i ;; Ok (d + (a - b) * (a - b))) 0) as (d & E & ->); [lia|reflexivity| |].
  - intros i d Hi ->. rewrite (get_ok u i 0), (get_ok v i 0) by lia. cbn [bind]. eexists; split; [reflexivity|reflexivity].
  - exact E.
Qed.
Lemma zVecDist_ok u v : length v = length u -> zVecDist u v = Ok (dist u v).
Proof. intros L. unfold zVecDist. now rewrite zVecSqrDist_ok. Qed.
Lemma sqd_nonneg u v : 0 <= sqd u v.
Proof. apply rsum_nonneg. intros. apply Rle_0_sqr. Qed.
Lemma dist_le u v w : dist u v <= dist w v <-> sqd u v <= sqd w v.
Proof.
  unfold dist. split; intros H.
  - apply sqrt_le_0; auto using sqd_nonneg.
  - now apply sqrt_le_1_alt.
Qed.

(** ** list nearest neighbour *)
Lemma nn_loop_ok n v : length v = n -> forall l s, (forall c, In c l -> length c = n) ->
  exists s', nn_loop l v s = Ok s' /\
    (s' = s \/ exists c, In c l /\ s' = (Some c, Some (sqd c v)) /\ lt_inf (sqd c v) (snd s) = true) /\
    (forall c, In c l -> exists d, snd s' = Some d /\ d <= sqd c v) /\
    (forall d, snd s = Some d -> exists d', snd s' = Some d' /\ d' <= d).
Proof.
  intros Lv. induction l as [|c l IH]; intros s H; cbn [nn_loop].
  - exists s. split; auto. split; auto. split; [intros c []|]. intros d E. exists d. split; auto. lra.
  - rewrite zVecSqrDist_ok by (rewrite (H c); cbn; auto). cbn [bind].
    destruct (IH (if lt_inf (sqd c v) (snd s) then (Some c, Some (sqd c v)) else s)) as (s' & E & H1 & H2 & H3); [intros; apply H; now right|].
    exists s'. split; [exact E|]. destruct (lt_inf (sqd c v) (snd s)) eqn:L.
    + split; [|split].
      * right. destruct H1 as [->|(c' & I & -> & L')]; [exists c; cbn; auto|]. exists c'. split; [now right|]. split; auto.
        cbn in L'. unfold lt_inf in *. destruct (snd s); auto. rs. destruct (Rltb_spec (sqd c' v) (sqd c v)); [|discriminate].
        destruct (Rltb_spec (sqd c v) r); [|discriminate]. destruct (Rltb_spec (sqd c' v) r); auto; lra.
      * intros c' [<-|I]; eauto.
      * intros d Ed. destruct (H3 (sqd c v) eq_refl) as (d' & E' & Hd'). exists d'. split; auto.
        unfold lt_inf in L. rewrite Ed in L. rs. destruct (Rltb_spec (sqd c v) d); [lra|discriminate].
    + split; [|split]; auto.
      * destruct H1 as [->|(c' & I & E' & L')]; auto. right. exists c'. cbn. auto.
      * intros c' [<-|I]; auto. unfold lt_inf in L. destruct (snd s) as [r|] eqn:Es; [|discriminate].
        destruct (H3 r eq_refl) as (d' & E' & Hd'). exists d'. split; auto. rs. destruct (Rltb_spec (sqd c v) r); [discriminate|lra].
Qed.
Lemma zVecListNN_ok l v : l <> [] -> (forall c, In c l -> length c = length v) ->
  exists c, zVecListNN l v = Ok (Some c, Some (dist c v)) /\ In c l /\ forall c', In c' l -> dist c v <= dist c' v.
Proof.
  intros N H. destruct (nn_loop_ok (length v) v eq_refl l (None, None) H) as (s & E & H1 & H2 & _).
  unfold zVecListNN. rewrite E. cbn [bind]. destruct l as [|c0 l]; [congruence|].
  destruct (H2 c0 (or_introl eq_refl)) as (d & Ed & _). destruct H1 as [->|(c & I & -> & _)]; [discriminate|].
  exists c. split; auto. split; auto. intros c' I'. destruct (H2 c' I') as (d' & E' & Hd'). cbn in E'. injection E' as <-. now apply dist_le.
Qed.

(** ** Ramer-Douglas-Peucker *)
Section RDP.
  Variable metric : list R -> list R -> list R -> R.
  Let mt := fun c a b => Ok (metric c a b).
  Lemma farthest_ok a b mid : forall pre s, exists s', farthest mt a b pre mid s = Ok s' /\
    (forall c, In c mid -> metric c a b <= fst s') /\ fst s <= fst s' /\
    (s' = s \/ exists l c r, s' = (metric c a b, Some (pre ++ l, c, r)) /\ mid = l ++ c :: r /\ fst s < metric c a b).
  Proof.
    induction mid as [|c mid IH]; intros pre s; cbn [farthest].
    - exists s. repeat split; auto; [intros c []|lra].
    - cbn [mt bind]. destruct (IH (pre ++ [c]) (if slt (fst s) (metric c a b) then (metric c a b, Some (pre, c, mid)) else s)) as (s' & E & H1 & H2 & H3).
      exists s'. split; [exact E|]. rs. destruct (Rltb_spec (fst s) (metric c a b)) as [L|L]; cbn [fst] in *.
      + split; [|split]; [intros c' [<-|I]; [lra|now apply H1]|lra|]. right. destruct H3 as [->|(l & c' & r & -> & -> & H)].
        * exists [], c, mid. rewrite app_nil_r. auto.
        * exists (c :: l), c', r. rewrite <- app_assoc. cbn. repeat split; auto. lra.
      + split; [|split]; [intros c' [<-|I]; [lra|now apply H1]|lra|]. destruct H3 as [->|(l & c' & r & -> & -> & H)]; auto.
        right. exists (c :: l), c', r. rewrite <- app_assoc. cbn. repeat split; auto.
  Qed.
  (** [kept tol a mid b out]: [out] is obtained from [mid] by dropping runs of points each of
      which is within tol of the chord between the kept neighbours of the run *)
  Inductive kept (tol : R) : list R -> list (list R) -> list R -> list (list R) -> Prop :=
  | kept_drop a mid b : (forall c, In c mid -> metric c a b <= tol) -> kept tol a mid b []
  | kept_split a l c r b l' r' : kept tol a l c l' -> kept tol c r b r' -> kept tol a (l ++ c :: r) b (l' ++ c :: r').
  Lemma rdp_ok tol : 0 <= tol -> forall fuel a mid b, (length mid < fuel)%nat ->
    exists out, rdp fuel mt tol a mid b = Ok out /\ kept tol a mid b out.
  Proof.
    intros Ht. induction fuel as [|fuel IH]; intros a mid b L; [lia|]. cbn [rdp]. rs.
    destruct (farthest_ok a b mid [] (0, None)) as (s' & E & H1 & H2 & H3). rewrite E. cbn [bind]. destruct s' as (d, f). rs.
    destruct (Rltb_spec tol d) as [G|G].
    - destruct H3 as [H3|(l & c & r & H3 & -> & H)].
      + injection H3 as -> ->. lra.
      + injection H3 as -> ->. cbn [app]. rewrite app_length in L. cbn in L.
        destruct (IH a l c ltac:(lia)) as (l' & -> & K1). destruct (IH c r b ltac:(lia)) as (r' & -> & K2). cbn [bind].
        exists (l' ++ c :: r'). split; auto. now constructor.
    - exists []. split; auto. constructor. intros c I. specialize (H1 c I). cbn in H1. lra.
  Qed.
End RDP.
Lemma rdp_list_ok (metric : list R -> list R -> list R -> R) tol a mid b : 0 <= tol ->
  exists out, zVecListRDP (fun c a b => Ok (metric c a b)) tol (a :: mid ++ [b]) = Ok (a :: out ++ [b]) /\ kept metric tol a mid b out.
Proof.
  intros Ht. unfold zVecListRDP. rewrite del_last_app.
  destruct (rdp_ok metric tol Ht (S (length mid)) a mid b ltac:(lia)) as (out & -> & K). cbn [bind]. eauto.
Qed.

(** ** statistics *)
Lemma vadd_drc_ok a b : length a = length b -> length (vadd_drc a b) = length a /\ forall i, nth i (vadd_drc a b) 0 = nth i a 0 + nth i b 0.
Proof.
  intros L. unfold vadd_drc. rewrite L, Nat.eqb_refl. split; [rewrite map_length, combine_length; lia|].
  revert b L. induction a as [|x a IH]; intros [|y b] L; cbn in L; try discriminate; intros [|i]; cbn; rs; try lra; auto.
Qed.
Definition lsum (l : list (list R)) (i : nat) : R := fold_right (fun v s => nth i v 0 + s) 0 l.
Lemma sum_gen l n : (forall v, In v l -> length v = n) -> forall acc, length acc = n ->
  length (fold_left vadd_drc l acc) = n /\ forall i, nth i (fold_left vadd_drc l acc) 0 = nth i acc 0 + lsum l i.
Proof.
  induction l as [|v l IH]; intros H acc La; cbn [fold_left lsum fold_right].
  - split; auto. intros; lra.
  - destruct (vadd_drc_ok acc v) as (L1 & E1); [rewrite La; symmetry; apply H; now left|].
    destruct (IH (fun w I => H w (or_intror I)) (vadd_drc acc v)) as (L2 & E2); [lia|]. split; auto.
    intros i. rewrite E2, E1. unfold lsum. lra.
Qed.
Lemma nth_repeat_any (i n : nat) (x : R) : nth i (repeat x n) x = x.
Proof. revert i. induction n; intros [|i]; cbn; auto. Qed.
Lemma zVecListSum_ok l n : (forall v, In v l -> length v = n) ->
  length (zVecListSum l n) = n /\ forall i, nth i (zVecListSum l n) 0 = lsum l i.
Proof.
  intros H. destruct (sum_gen l n H (repeat 0 n)) as (L & E); [apply repeat_length|]. split; auto.
  intros i. unfold zVecListSum. rs. rewrite E, nth_repeat_any. lra.
Qed.
Lemma zVecListMean_ok tol l n : 0 <= tol < 1 -> l <> [] -> (forall v, In v l -> length v = n) ->
  exists m, zVecListMean tol l n = Some m /\ length m = n /\ forall i, nth i m 0 = lsum l i / INR (length l).
Proof.
  intros Ht N H. unfold zVecListMean. rs. rewrite <- INR_IZR_INZ.
  assert (1 <= INR (length l)) as G. { replace 1 with (INR 1) by reflexivity. apply le_INR. destruct l; [congruence|cbn; lia]. }
  rewrite Rabs_pos_eq by lra. destruct (Rleb_spec (INR (length l)) tol); [lra|].
  destruct (zVecListSum_ok l n H) as (L & E). eexists. split; [reflexivity|]. split; [now rewrite map_length|].
  intros i. replace 0 with (0 * (1 / INR (length l))) at 1 by ring. rewrite (map_nth (fun x => x * (1 / INR (length l)))). rewrite E. field. lra.
Qed.
Lemma zVecListMean_empty tol n : 0 <= tol -> zVecListMean tol [] n = None.
Proof. intros. unfold zVecListMean. rs. cbn. rewrite Rabs_R0. destruct (Rleb_spec 0 tol); auto; lra. Qed.
Lemma var_loop_ok l m : (forall v, In v l -> length v = length m) -> forall s,
  var_loop l m s = Ok (s + fold_right (fun v s => sqd v m + s) 0 l).
Proof.
  induction l as [|c l IH]; intros H s; cbn [var_loop fold_right]; [f_equal; lra|].
  rewrite zVecSqrDist_ok by (symmetry; apply H; now left). cbn [bind]. rewrite IH by (intros; apply H; now right). rs. f_equal. lra.
Qed.
Lemma zVecListVar_ok l m : l <> [] -> (forall v, In v l -> length v = length m) ->
  zVecListVar l m = Ok (Some (fold_right (fun v s => sqd v m + s) 0 l / INR (length l))).
Proof.
  intros N H. unfold zVecListVar. destruct (rev_case l) as [->|(l' & h & E)]; [congruence|]. replace (del_last l) with (Some (h, l')) by (now rewrite E, del_last_app).
  rewrite (H h) by (rewrite E; apply in_app_iff; cbn; auto). rewrite Nat.eqb_refl. cbn [negb].
  rewrite var_loop_ok by auto. cbn [bind]. rs. rewrite INR_IZR_INZ, Rplus_0_l. reflexivity.
Qed.
Lemma vsub_nth a b i : length a = length b -> nth i (map (fun p : R * R => fst p - snd p) (combine a b)) 0 = nth i a 0 - nth i b 0.
Proof. revert b i. induction a as [|x a IH]; intros [|y b] i L; cbn in L; try discriminate; destruct i; cbn; try lra; auto. Qed.
Lemma cov_loop_ok l m : (forall v, In v l -> length v = length m) -> forall d cov i j,
  cov_loop l m d cov i j = cov i j + fold_right (fun v s => (nth i v 0 - nth i m 0) * (nth j v 0 - nth j m 0) + s) 0 l.
Proof.
  induction l as [|c l IH]; intros H d cov i j; cbn [cov_loop fold_right]; [lra|].
  rewrite (H c) by (now left). rewrite Nat.eqb_refl. rewrite IH by (intros; apply H; now right). rs.
  rewrite !vsub_nth by (apply H; now left). lra.
Qed.
Lemma zVecListCov_ok l m : l <> [] -> (forall v, In v l -> length v = length m) ->
  exists c, zVecListCov l m (length m) (length m) = Ok (Some c) /\
   forall i j, c i j = fold_right (fun v s => (nth i v 0 - nth i m 0) * (nth j v 0 - nth j m 0) + s) 0 l / INR (length l).
Proof.
  intros N H. unfold zVecListCov. destruct (rev_case l) as [->|(l' & h & E)]; [congruence|]. replace (del_last l) with (Some (h, l')) by (now rewrite E, del_last_app).
  rewrite (H h) by (rewrite E; apply in_app_iff; cbn; auto). rewrite Nat.eqb_refl. cbn [negb andb].
  eexists; split; [reflexivity|]. intros i j. cbv beta. rewrite cov_loop_ok by auto. rs. rewrite <- INR_IZR_INZ.
  assert (1 <= INR (length l)) as G. { replace 1 with (INR 1) by reflexivity. apply le_INR. destruct l; [congruence|cbn; lia]. }
  field. lra.
Qed.
(** bounds *)
Definition lob (b : option R) (x : R) : Prop := match b with None => True | Some y => y <= x end.
Definition hib (b : option R) (x : R) : Prop := match b with None => True | Some y => x <= y end.
Definition bmin (b : option R) (x : R) : option R := Some (match b with None => x | Some y => Rmin y x end).
Definition bmax (b : option R) (x : R) : option R := Some (match b with None => x | Some y => Rmax y x end).
Lemma minmax1_ok c n mi ma : length c = n -> length mi = n -> length ma = n ->
  exists mi' ma', minmax1 c n (mi, ma) = Ok (mi', ma') /\ length mi' = n /\ length ma' = n /\
    forall i, (i < n)%nat -> nth i mi' None = bmin (nth i mi None) (nth i c 0) /\ nth i ma' None = bmax (nth i ma None) (nth i c 0).
Proof.
  intros Lc Li La. unfold minmax1.
  match goal with |- context [for_ 0 n ?f ?s00] => destruct (for_inv (fun k (s : list (option R) * list (option R)) => length (fst s) = n /\ length (snd s) = n /\
     forall i, (i < n)%nat -> ((i < k)%nat -> nth i (fst s) None = bmin (nth i mi None) (nth i c 0) /\ nth i (snd s) None = bmax (nth i ma None) (nth i c 0))
       /\ ((k <= i)%nat -> nth i (fst s) None = nth i mi None /\ nth i (snd s) None = nth i ma None)) 0 n f s00) as ((mi', ma') & E & L1 & L2 & V) end.
  - lia.
  - cbn. repeat split; auto; lia.
  - intros k (a, b) Hk (L1 & L2 & V). cbn [fst snd] in *.
    rewrite (get_ok a k None), (get_ok c k 0), (get_ok b k None) by lia. cbn [bind].
    destruct (V k ltac:(lia)) as (_ & V0). destruct (V0 ltac:(lia)) as (Va & Vb). rewrite Va, Vb.
    assert (exists a', (if gt_inf (nth k mi None) (nth k c 0) then set a k (Some (nth k c 0)) else Ok a) = Ok a' /\ length a' = n /\
       nth k a' None = bmin (nth k mi None) (nth k c 0) /\ forall i, i <> k -> nth i a' None = nth i a None) as (a' & -> & La' & Ea1 & Ea2).
    { unfold gt_inf, bmin. destruct (nth k mi None) as [y|] eqn:Ey; rs.
      - destruct (Rltb_spec (nth k c 0) y).
        + rewrite set_ok by lia. eexists; split; [reflexivity|]. rewrite upd_length. split; auto. split.
          * rewrite nth_upd_eq by lia. f_equal. unfold Rmin. destruct (Rle_dec y (nth k c 0)); lra.
          * intros i Hi. now rewrite nth_upd_neq by auto.
        + exists a. repeat split; auto. rewrite Va. f_equal. unfold Rmin. destruct (Rle_dec y (nth k c 0)); lra.
      - rewrite set_ok by lia. eexists; split; [reflexivity|]. rewrite upd_length. split; auto. split; [now rewrite nth_upd_eq by lia|].
        intros i Hi. now rewrite nth_upd_neq by auto. }
    assert (exists b', (if lt_minf (nth k ma None) (nth k c 0) then set b k (Some (nth k c 0)) else Ok b) = Ok b' /\ length b' = n /\
       nth k b' None = bmax (nth k ma None) (nth k c 0) /\ forall i, i <> k -> nth i b' None = nth i b None) as (b' & -> & Lb' & Eb1 & Eb2).
    { unfold lt_minf, bmax. destruct (nth k ma None) as [y|] eqn:Ey; rs.
      - destruct (Rltb_spec y (nth k c 0)).
        + rewrite set_ok by lia. eexists; split; [reflexivity|]. rewrite upd_length. split; auto. split.
          * rewrite nth_upd_eq by lia. f_equal. unfold Rmax. destruct (Rle_dec y (nth k c 0)); lra.
          * intros i Hi. now rewrite nth_upd_neq by auto.
        + exists b. repeat split; auto. rewrite Vb. f_equal. unfold Rmax. destruct (Rle_dec y (nth k c 0)); lra.
      - rewrite set_ok by lia. eexists; split; [reflexivity|]. rewrite upd_length. split; auto. split; [now rewrite nth_upd_eq by lia|].
        intros i Hi. now rewrite nth_upd_neq by auto. }
    cbn [bind]. eexists; split; [reflexivity|]. cbn [fst snd]. split; auto. split; auto. intros i Hi.
    destruct (Nat.eq_dec i k) as [->|Ne]; [split; [auto|lia]|]. rewrite Ea2, Eb2 by auto. destruct (V i Hi) as (V1 & V2).
    split; intros; [apply V1|apply V2]; lia.
  - exists mi', ma'. split; [exact E|]. split; auto. split; auto. intros i Hi. apply V; lia.
Qed.
Lemma minmax_loop_ok n l : (forall v, In v l -> length v = n) -> forall mi ma, length mi = n -> length ma = n ->
  exists mi' ma', minmax_loop l n (mi, ma) = Ok (mi', ma') /\ length mi' = n /\ length ma' = n /\
    forall i, (i < n)%nat -> nth i mi' None = fold_left bmin (map (fun v => nth i v 0) l) (nth i mi None) /\
                             nth i ma' None = fold_left bmax (map (fun v => nth i v 0) l) (nth i ma None).
Proof.
  induction l as [|c l IH]; intros H mi ma Li La; cbn [minmax_loop map fold_left].
  - exists mi, ma. auto.
  - destruct (minmax1_ok c n mi ma) as (mi1 & ma1 & -> & L1 & L2 & V); auto; [apply H; now left|]. cbn [bind].
    destruct (IH (fun w I => H w (or_intror I)) mi1 ma1 L1 L2) as (mi' & ma' & E & L3 & L4 & V').
    exists mi', ma'. split; auto. split; auto. split; auto. intros i Hi. destruct (V' i Hi) as (-> & ->). destruct (V i Hi) as (-> & ->). auto.
Qed.
Lemma fold_bmin l b : let r := fold_left bmin l b in
  (forall x, In x l -> lob r x) /\ (forall y, b = Some y -> lob r y) /\ (r = b \/ exists x, In x l /\ r = Some x).
Proof.
  revert b. induction l as [|x l IH]; intros b; cbn [fold_left].
  - cbv zeta. split; [intros x []|]. split; auto. intros y ->. cbn. lra.
  - cbv zeta. destruct (IH (bmin b x)) as (H1 & H2 & H3). set (r := fold_left bmin l (bmin b x)) in *.
    assert (forall z, (match b with None => x | Some y => Rmin y x end) <= z -> lob r z) as HM.
    { intros z Hz. specialize (H2 _ eq_refl). destruct r; cbn in *; auto. lra. }
    split; [|split].
    + intros z [<-|I]; auto. apply HM. destruct b; [apply Rmin_r|lra].
    + intros y ->. apply HM. apply Rmin_l.
    + destruct H3 as [H3|(z & I & H3)]; [|right; exists z; cbn; auto]. rewrite H3. destruct b as [y|]; cbn.
      * unfold bmin, Rmin. destruct (Rle_dec y x); [left; reflexivity|right; exists x; split; [now left|reflexivity]].
      * right. exists x. auto.
Qed.
Lemma fold_bmax l b : let r := fold_left bmax l b in
  (forall x, In x l -> hib r x) /\ (forall y, b = Some y -> hib r y) /\ (r = b \/ exists x, In x l /\ r = Some x).
Proof.
  revert b. induction l as [|x l IH]; intros b; cbn [fold_left].
  - cbv zeta. split; [intros x []|]. split; auto. intros y ->. cbn. lra.
  - cbv zeta. destruct (IH (bmax b x)) as (H1 & H2 & H3). set (r := fold_left bmax l (bmax b x)) in *.
    assert (forall z, z <= (match b with None => x | Some y => Rmax y x end) -> hib r z) as HM.
    { intros z Hz. specialize (H2 _ eq_refl). destruct r; cbn in *; auto. lra. }
    split; [|split].
    + intros z [<-|I]; auto. apply HM. destruct b; [apply Rmax_r|lra].
    + intros y ->. apply HM. apply Rmax_l.
    + destruct H3 as [H3|(z & I & H3)]; [|right; exists z; cbn; auto]. rewrite H3. destruct b as [y|]; cbn.
      * unfold bmax, Rmax. destruct (Rle_dec y x); [right; exists x; split; [now left|reflexivity]|left; reflexivity].
      * right. exists x. auto.
Qed.
Lemma zVecListMinMax_ok l n : l <> [] -> (forall v, In v l -> length v = n) ->
  exists mi ma, zVecListMinMax l n n = Ok (Some (mi, ma)) /\ length mi = n /\ length ma = n /\
   forall i, (i < n)%nat -> exists lo hi, nth i mi None = Some lo /\ nth i ma None = Some hi /\
     (forall v, In v l -> lo <= nth i v 0 <= hi) /\ (exists v, In v l /\ nth i v 0 = lo) /\ (exists v, In v l /\ nth i v 0 = hi).
Proof.
  intros N H. unfold zVecListMinMax. destruct (rev_case l) as [->|(l' & h & E)]; [congruence|]. replace (del_last l) with (Some (h, l')) by (now rewrite E, del_last_app).
  rewrite (H h) by (rewrite E; apply in_app_iff; cbn; auto). rewrite Nat.eqb_refl. cbn [negb andb].
  destruct (minmax_loop_ok n l H (repeat None n) (repeat None n)) as (mi & ma & Em & L1 & L2 & V); try apply repeat_length.
  rewrite Em. cbn [bind]. exists mi, ma. split; auto. split; auto. split; auto. intros i Hi. destruct (V i Hi) as (V1 & V2).
  assert (nth i (repeat (@None R) n) None = None) as En by (clear; revert i; induction n; intros [|i]; cbn; auto). rewrite En in *.
  destruct (fold_bmin (map (fun v => nth i v 0) l) None) as (A1 & _ & A3). destruct (fold_bmax (map (fun v => nth i v 0) l) None) as (B1 & _ & B3).
  cbv zeta in *. rewrite <- V1 in A1, A3. rewrite <- V2 in B1, B3.
  assert (forall v, In v l -> In (nth i v 0) (map (fun v => nth i v 0) l)) as IM by (intros v I; now apply (in_map (fun v => nth i v 0))).
  assert (In h l) as Ih by (rewrite E; apply in_app_iff; cbn; auto).
  destruct A3 as [A3|(lo & Il & A3)]; [exfalso|].
  { clear - V1 A3 N. rewrite A3 in V1. destruct l as [|c l]; [congruence|]. cbn in V1.
    change (bmin None (nth i c 0)) with (Some (nth i c 0)) in V1. destruct (fold_bmin (map (fun v => nth i v 0) l) (Some (nth i c 0))) as (_ & _ & [K|(z & _ & K)]); cbv zeta in K; congruence. }
  destruct B3 as [B3|(hi & Ih' & B3)]; [exfalso|].
  { clear - V2 B3 N. rewrite B3 in V2. destruct l as [|c l]; [congruence|]. cbn in V2.
    change (bmax None (nth i c 0)) with (Some (nth i c 0)) in V2. destruct (fold_bmax (map (fun v => nth i v 0) l) (Some (nth i c 0))) as (_ & _ & [K|(z & _ & K)]); cbv zeta in K; congruence. }
  exists lo, hi. split; auto. split; auto. rewrite A3, B3 in *. cbn in A1, B1. apply in_map_iff in Il, Ih'.
  destruct Il as (v1 & E1 & I1), Ih' as (v2 & E2 & I2). split; [intros v I; split; [apply A1|apply B1]; auto|]. split; eauto.
Qed.

(** ** kd-tree *)
Ltac conjs := repeat match goal with |- _ /\ _ => split end.
Fixpoint kelems (t : kd R) : list (list R) :=
  match t with KNil => [] | KNode _ v _ _ s0 s1 => v :: kelems s0 ++ kelems s1 end.
Definition inbox (lo hi : list (option R)) (u : list R) : Prop :=
  forall i, lob (nth i lo None) (nth i u 0) /\ hib (nth i hi None) (nth i u 0).
Definition kbox (lo hi : list (option R)) (t : kd R) : Prop :=
  match t with KNil => True | KNode _ _ l h _ _ => l = lo /\ h = hi end.
Fixpoint kok (n : nat) (t : kd R) : Prop :=
  match t with
  | KNil => True
  | KNode sp v lo hi s0 s1 => (sp < n)%nat /\ length v = n /\ length lo = n /\ length hi = n /\
      (forall u, In u (v :: kelems s0 ++ kelems s1) -> inbox lo hi u) /\
      kbox (upd lo sp (Some (nth sp v 0))) hi s0 /\ kbox lo (upd hi sp (Some (nth sp v 0))) s1 /\ kok n s0 /\ kok n s1
  end.
Lemma kok_len n t : kok n t -> forall u, In u (kelems t) -> length u = n.
Proof.
  induction t as [|sp v lo hi s0 IH0 s1 IH1]; cbn; [contradiction|].
  intros (_ & Lv & _ & _ & _ & _ & _ & K0 & K1) u [<-|I]; auto. apply in_app_iff in I. destruct I; auto.
Qed.
Lemma choose_ok n sp nv v : (sp < n)%nat -> length nv = n -> length v = n -> choose sp nv v = Ok (Rleb (nth sp nv 0) (nth sp v 0)).
Proof. intros. unfold choose. rewrite (get_ok v sp 0), (get_ok nv sp 0) by lia. reflexivity. Qed.
Lemma inbox_upd_lo lo hi u sp x : inbox lo hi u -> x <= nth sp u 0 -> inbox (upd lo sp (Some x)) hi u.
Proof.
  intros B Hx i. destruct (B i) as (B1 & B2). split; auto. destruct (Nat.eq_dec sp i) as [->|N]; [|now rewrite nth_upd_neq by auto].
  destruct (Nat.lt_ge_cases i (length lo)); [rewrite nth_upd_eq by auto; auto|]. rewrite nth_overflow by (rewrite upd_length; auto). cbn. auto.
Qed.
Lemma inbox_upd_hi lo hi u sp x : inbox lo hi u -> nth sp u 0 <= x -> inbox lo (upd hi sp (Some x)) u.
Proof.
  intros B Hx i. destruct (B i) as (B1 & B2). split; auto. destruct (Nat.eq_dec sp i) as [->|N]; [|now rewrite nth_upd_neq by auto].
  destruct (Nat.lt_ge_cases i (length hi)); [rewrite nth_upd_eq by auto; auto|]. rewrite nth_overflow by (rewrite upd_length; auto). cbn. auto.
Qed.
Lemma kadd_ok n t v : kok n t -> length v = n -> t <> KNil ->
  (match t with KNil => True | KNode _ _ lo hi _ _ => inbox lo hi v end) ->
  exists t', kadd t v = Ok t' /\ kok n t' /\ Permutation (kelems t') (v :: kelems t) /\
    forall lo hi, kbox lo hi t -> kbox lo hi t'.
Proof.
  intros K Lv. induction t as [|sp nv lo hi s0 IH0 s1 IH1]; intros N B; [congruence|]. clear N.
  cbn [kok kelems] in K. destruct K as (Hs & Ln & Ll & Lh & Hb & X0 & X1 & K0 & K1). cbn [kadd]. rewrite (choose_ok n) by auto. cbn [bind].
  assert (forall b, (if b : bool then nth sp nv 0 <= nth sp v 0 else nth sp v 0 <= nth sp nv 0) ->
     exists t', leaf sp nv lo hi v b = Ok t' /\ kok n t' /\ kelems t' = [v] /\
        (if b then kbox (upd lo sp (Some (nth sp nv 0))) hi t' else kbox lo (upd hi sp (Some (nth sp nv 0))) t')) as HL.
  { intros b Hx. unfold leaf. rewrite (get_ok nv sp 0) by lia. cbn [bind]. rewrite Lv. replace (n =? 0)%nat with false by lia.
    assert ((sp + 1) mod n < n)%nat by (apply Nat.mod_upper_bound; lia).
    destruct b; rewrite set_ok by lia; cbn [bind]; eexists; (split; [reflexivity|]); cbn [kok kelems]; rewrite ?upd_length;
      (split; [cbn [kbox]; conjs; auto|cbn; auto]); intros u [<-|[]]; [apply inbox_upd_lo|apply inbox_upd_hi]; auto. }
  assert (forall u, In u (nv :: kelems s0 ++ kelems s1) -> inbox lo hi u) as Hb' by exact Hb.
  destruct (Rleb_spec (nth sp nv 0) (nth sp v 0)) as [Hx|Hx].
  - assert (exists s', match s0 with KNil => leaf sp nv lo hi v true | _ => kadd s0 v end = Ok s' /\ kok n s' /\ Permutation (kelems s') (v :: kelems s0) /\
       kbox (upd lo sp (Some (nth sp nv 0))) hi s') as (s' & -> & K' & P & X').
    { destruct s0 as [|sp' nv' lo' hi' s00 s01].
      - destruct (HL true Hx) as (t' & E & K & Ek & X). exists t'. rewrite Ek. auto.
      - destruct (IH0 K0) as (t' & E & K & P & X); [discriminate|destruct X0 as (-> & ->); now apply inbox_upd_lo|]. exists t'. auto. }
    cbn [bind]. eexists; split; [reflexivity|]. cbn [kok kelems]. split.
    + conjs; auto. intros u [<-|I]; [apply Hb; now left|]. apply in_app_iff in I. destruct I as [I|I].
      * eapply Permutation_in in I; [|exact P]. destruct I as [<-|I]; auto. apply Hb. right. apply in_app_iff; auto.
      * apply Hb. right. apply in_app_iff; auto.
    + split; [rewrite P; cbn [app]; apply perm_swap|]. intros l h X. exact X.
  - assert (exists s', match s1 with KNil => leaf sp nv lo hi v false | _ => kadd s1 v end = Ok s' /\ kok n s' /\ Permutation (kelems s') (v :: kelems s1) /\
       kbox lo (upd hi sp (Some (nth sp nv 0))) s') as (s' & -> & K' & P & X').
    { destruct s1 as [|sp' nv' lo' hi' s00 s01].
      - destruct (HL false ltac:(lra)) as (t' & E & K & Ek & X). exists t'. rewrite Ek. auto.
      - destruct (IH1 K1) as (t' & E & K & P & X); [discriminate|destruct X1 as (-> & ->); apply inbox_upd_hi; auto; lra|]. exists t'. auto. }
    cbn [bind]. eexists; split; [reflexivity|]. cbn [kok kelems]. split.
    + conjs; auto. intros u [<-|I]; [apply Hb; now left|]. apply in_app_iff in I. destruct I as [I|I].
      * apply Hb. right. apply in_app_iff; auto.
      * eapply Permutation_in in I; [|exact P]. destruct I as [<-|I]; auto. apply Hb. right. apply in_app_iff; auto.
    + split; [|intros l h X; exact X]. rewrite P. transitivity (nv :: v :: kelems s0 ++ kelems s1); [|apply perm_swap].
      apply perm_skip. symmetry. apply Permutation_middle.
Qed.

Lemma kadd_nonnil t v t' : kadd t v = Ok t' -> t' <> KNil.
Proof. destruct t; cbn; [discriminate|]. destruct (choose _ _ _) as [[]|]; cbn; try discriminate; destruct (match _ with KNil => _ | _ => _ end); cbn; try discriminate; intros H; injection H as <-; discriminate. Qed.
Definition kinf (n : nat) : list (option R) := repeat None n.
Lemma kinf_box n u : inbox (kinf n) (kinf n) u.
Proof. intros i. unfold kinf. assert (nth i (repeat (@None R) n) None = None) as -> by (revert i; induction n; intros [|i]; cbn; auto). cbn; auto. Qed.
Lemma kadd_all_ok n vs : (0 < n)%nat -> (forall v, In v vs -> length v = n) -> forall t, kok n t -> kbox (kinf n) (kinf n) t -> t <> KNil ->
  exists t', kadd_all (KTree t) vs = Ok (KTree t') /\ kok n t' /\ t' <> KNil /\ Permutation (kelems t') (vs ++ kelems t).
Proof.
  intros Hn. induction vs as [|v vs IH]; intros H t K X N; cbn [kadd_all zVecTreeAdd].
  - exists t. auto.
  - destruct (kadd_ok n t v K) as (t1 & E & K1 & P1 & X1); auto; [apply H; now left|destruct t; auto; destruct X as (-> & ->); apply kinf_box|].
    rewrite E. cbn [bind]. destruct (IH (fun w I => H w (or_intror I)) t1 K1) as (t' & E' & K' & N' & P'); auto; [eapply kadd_nonnil; eauto|].
    exists t'. split; auto. split; auto. split; auto. rewrite P', P1. cbn. symmetry. apply Permutation_middle.
Qed.

(** squared distance to a box *)
Definition bd1 (lo hi : option R) (x : R) : R :=
  (match lo with Some l => if Rltb x l then (x - l) * (x - l) else 0 | None => 0 end) +
  (match hi with Some h => if Rltb h x then (x - h) * (x - h) else 0 | None => 0 end).
Lemma overlap_ok tol n lo hi c r : length lo = n -> length hi = n -> length c = n ->
  overlap tol lo hi c r = Ok (match r with None => true | Some r =>
     Rleb (rsum n (fun i => bd1 (nth i lo None) (nth i hi None) (nth i c 0))) (r * r + tol) end).
Proof.
  intros L1 L2 L3. unfold overlap. rewrite L3.
  match goal with |- context [for_ 0 n ?f ?s] => destruct (for_inv (fun k d => d = rsum k (fun i => bd1 (nth i lo None) (nth i hi None) (nth i c 0))) 0 n f s) as (d & E & ->) end.
  - lia.
  - reflexivity.
  - intros k d Hk ->. rewrite (get_ok c k 0), (get_ok lo k None), (get_ok hi k None) by lia. cbn [bind]. eexists; split; [reflexivity|].
    cbn [rsum]. unfold bd1. rs. destruct (nth k lo None) as [l|], (nth k hi None) as [h|]; repeat destruct (Rltb _ _); lra.
  - rewrite E. reflexivity.
Qed.
Lemma bd1_le lo hi x u : lob lo u -> hib hi u -> bd1 lo hi x <= (u - x) * (u - x).
Proof.
  unfold bd1, lob, hib. pose proof (Rle_0_sqr (u - x)). unfold Rsqr in *.
  destruct lo as [l|], hi as [h|]; try destruct (Rltb_spec x l); try destruct (Rltb_spec h x); intros; try lra; nra.
Qed.
Lemma box_far tol n lo hi c r u : 0 <= tol -> 0 <= r -> length u = n -> inbox lo hi u ->
  r * r + tol < rsum n (fun i => bd1 (nth i lo None) (nth i hi None) (nth i c 0)) -> r <= dist u c.
Proof.
  intros Ht Hr Lu B H. unfold dist. rewrite <- (sqrt_Rsqr r Hr). apply sqrt_le_1_alt. unfold Rsqr.
  apply Rle_trans with (rsum n (fun i => bd1 (nth i lo None) (nth i hi None) (nth i c 0))); [lra|].
  unfold sqd. rewrite Lu. apply rsum_le. intros i Hi. destruct (B i). now apply bd1_le.
Qed.
(** what a search over the elements [es] does to the current best *)
Definition improved (v : list R) (es : list (list R)) (s s' : option (list R) * option R) : Prop :=
  (s' = s \/ exists u, In u es /\ s' = (Some u, Some (dist u v)) /\ lt_inf (dist u v) (snd s) = true) /\
  (forall u, In u es -> exists d, snd s' = Some d /\ d <= dist u v) /\
  (forall d, snd s = Some d -> exists d', snd s' = Some d' /\ d' <= d) /\
  (forall d, snd s' = Some d -> (forall d0, snd s = Some d0 -> 0 <= d0) -> 0 <= d).
Lemma improved_refl v s : improved v [] s s.
Proof. repeat split; auto; [intros u []|intros d E; exists d; split; auto; lra]. Qed.
Lemma lt_inf_trans a b s : lt_inf a (Some b) = true -> lt_inf b s = true -> lt_inf a s = true.
Proof. unfold lt_inf. destruct s as [s|]; auto. rs. destruct (Rltb_spec a b), (Rltb_spec b s); try discriminate. intros. destruct (Rltb_spec a s); auto; lra. Qed.
Lemma improved_trans v e1 e2 s1 s2 s3 : improved v e1 s1 s2 -> improved v e2 s2 s3 -> improved v (e1 ++ e2) s1 s3.
Proof.
  intros (A1 & A2 & A3 & A4) (B1 & B2 & B3 & B4). split; [|split; [|split]].
  - destruct B1 as [->|(u & I & -> & L)].
    + destruct A1 as [->|(u & I & -> & L)]; auto. right. exists u. rewrite in_app_iff. auto.
    + right. exists u. rewrite in_app_iff. split; auto. split; auto. destruct A1 as [->|(u' & I' & -> & L')]; auto.
      eapply lt_inf_trans; eauto.
  - intros u I. apply in_app_iff in I. destruct I as [I|I]; auto. destruct (A2 u I) as (d & E & Hd). destruct (B3 d E) as (d' & E' & Hd').
    exists d'. split; auto. lra.
  - intros d E. destruct (A3 d E) as (d1 & E1 & H1). destruct (B3 d1 E1) as (d2 & E2 & H2). exists d2. split; auto. lra.
  - intros d E H0. apply (B4 d E). intros d0 E0. now apply (A4 d0 E0).
Qed.
Lemma improved_ext v e e' s s' : (forall u, In u e <-> In u e') -> improved v e s s' -> improved v e' s s'.
Proof.
  intros H (A1 & A2 & A3 & A4). split; [|split; [|split]]; auto.
  - destruct A1 as [|(u & I & R)]; auto. right. exists u. rewrite <- H. auto.
  - intros u I. apply A2. now apply H.
Qed.
Lemma nntest_ok nv v s : length v = length nv -> exists s', nntest nv v s = Ok s' /\ improved v [nv] s s'.
Proof.
  intros L. unfold nntest. rewrite zVecDist_ok by auto. cbn [bind]. eexists; split; [reflexivity|].
  assert (0 <= dist nv v) by apply sqrt_pos.
  destruct (lt_inf (dist nv v) (snd s)) eqn:E; split; [|split; [|split]| |split; [|split]].
  - right. exists nv. cbn; auto.
  - intros u [<-|[]]. cbn. exists (dist nv v). split; auto. lra.
  - intros d Ed. cbn. eexists; split; [reflexivity|]. unfold lt_inf in E. rewrite Ed in E. rs. destruct (Rltb_spec (dist nv v) d); [lra|discriminate].
  - cbn. intros d Ed. injection Ed as <-. auto.
  - auto.
  - intros u [<-|[]]. unfold lt_inf in E. destruct (snd s) as [d|]; [|discriminate]. rs. exists d. split; auto. destruct (Rltb_spec (dist nv v) d); [discriminate|lra].
  - intros d Ed. exists d. split; auto. lra.
  - intros d Ed H0. auto.
Qed.
Definition nonneg (s : option (list R) * option R) : Prop := forall d, snd s = Some d -> 0 <= d.
Lemma improved_nonneg v e s s' : improved v e s s' -> nonneg s -> nonneg s'.
Proof. intros (_ & _ & _ & H) N d E. apply (H d E). intros d0 E0. now apply N. Qed.
Lemma pruned tol n (t : kd R) v s lo hi sp nv s0 s1 : 0 <= tol -> length v = n -> kok n t -> t = KNode sp nv lo hi s0 s1 -> nonneg s ->
  overlap tol lo hi v (snd s) = Ok false -> improved v (kelems t) s s.
Proof.
  intros Ht Lv K -> N O. cbn [kok] in K. destruct K as (Hs & Ln & Ll & Lh & Hb & X0 & X1 & K0 & K1).
  rewrite (overlap_ok tol n) in O by auto. injection O as O. destruct (snd s) as [r|] eqn:Es; [|discriminate].
  match type of O with Rleb ?x ?y = _ => destruct (Rleb_spec x y) as [|G]; [discriminate|] end.
  split; [|split; [|split]]; auto.
  - intros u I. exists r. split; auto. assert (0 <= r) by (apply N; auto).
    apply (box_far tol n lo hi v r u); auto; [|lra].
    cbn [kelems] in I. destruct I as [<-|I]; auto. apply in_app_iff in I. destruct I; [now apply (kok_len n s0)|now apply (kok_len n s1)].
  - intros d Ed. exists d. split; auto. lra.
Qed.
Lemma nnopp_ok tol n v : 0 <= tol -> length v = n -> forall t, kok n t -> forall s, nonneg s ->
  exists s', nnopp tol t v s = Ok s' /\ improved v (kelems t) s s'.
Proof.
  intros Ht Lv. assert (forall t, (kok n t -> forall s, nonneg s -> exists s', nnopp tol t v s = Ok s' /\ improved v (kelems t) s s') ->
    kok n t -> forall s, nonneg s -> exists s', (match t with KNil => Ok s
             | KNode _ _ lo hi _ _ => o <- overlap tol lo hi v (snd s) ;; if (o : bool) then nnopp tol t v s else Ok s end) = Ok s' /\ improved v (kelems t) s s') as HS.
  { intros t IH K s N. destruct t as [|sp nv lo hi s0 s1] eqn:Et; [exists s; split; auto; apply improved_refl|]. rewrite <- Et in *.
    assert (exists b, overlap tol lo hi v (snd s) = Ok b) as (b & Eb).
    { rewrite Et in K. cbn [kok] in K. rewrite (overlap_ok tol n) by tauto. eauto. }
    rewrite Eb. cbn [bind]. destruct b; [now apply IH|]. exists s. split; auto. eapply pruned; eauto. }
  induction t as [|sp nv lo hi s0 IH0 s1 IH1]; intros K s N; [exists s; split; auto; apply improved_refl|].
  cbn [nnopp]. assert (K' := K). cbn [kok] in K'. destruct K' as (Hs & Ln & Ll & Lh & Hb & X0 & X1 & K0 & K1).
  destruct (nntest_ok nv v s) as (s1' & -> & I1); [lia|]. cbn [bind].
  destruct (HS s0 IH0 K0 s1') as (s2' & E2 & I2); [eapply improved_nonneg; eauto|]. rewrite E2. cbn [bind].
  destruct (HS s1 IH1 K1 s2') as (s3' & E3 & I3); [eapply improved_nonneg; [exact I2|]; eapply improved_nonneg; eauto|]. rewrite E3.
  exists s3'. split; auto. cbn [kelems]. apply (improved_trans v [nv] (kelems s0 ++ kelems s1) s s1'); auto. eapply improved_trans; eauto.
Qed.
Lemma nn_ok tol n v : 0 <= tol -> length v = n -> forall t, kok n t -> forall s, nonneg s ->
  exists s', nn tol t v s = Ok s' /\ improved v (kelems t) s s'.
Proof.
  intros Ht Lv. induction t as [|sp nv lo hi s0 IH0 s1 IH1]; intros K s N; [exists s; split; auto; apply improved_refl|].
  cbn [nn]. assert (K' := K). cbn [kok] in K'. destruct K' as (Hs & Ln & Ll & Lh & Hb & X0 & X1 & K0 & K1).
  rewrite (choose_ok n) by auto. cbn [bind].
  assert (forall so, kok n so -> forall s2, nonneg s2 -> exists s3, match so with KNil => Ok s2
      | KNode _ _ lo hi _ _ => o <- overlap tol lo hi v (snd s2) ;; if (o : bool) then nnopp tol so v s2 else Ok s2 end = Ok s3 /\ improved v (kelems so) s2 s3) as HO.
  { intros so Ko s2 N2. destruct so as [|sp' nv' lo' hi' s00 s01] eqn:Et; [exists s2; split; auto; apply improved_refl|]. rewrite <- Et in *.
    assert (exists b, overlap tol lo' hi' v (snd s2) = Ok b) as (b & Eb).
    { rewrite Et in Ko. cbn [kok] in Ko. rewrite (overlap_ok tol n) by tauto. eauto. }
    rewrite Eb. cbn [bind]. destruct b; [now apply (nnopp_ok tol n)|]. exists s2. split; auto. eapply pruned; eauto. }
  destruct (Rleb (nth sp nv 0) (nth sp v 0)).
  - destruct (IH0 K0 s N) as (s1' & -> & I1). cbn [bind]. destruct (nntest_ok nv v s1') as (s2' & -> & I2); [lia|]. cbn [bind].
    destruct (HO s1 K1 s2') as (s3' & E3 & I3); [eapply improved_nonneg; [exact I2|]; eapply improved_nonneg; eauto|]. rewrite E3.
    exists s3'. split; auto. eapply improved_ext; [|eapply improved_trans; [eapply improved_trans; [exact I1|exact I2]|exact I3]].
    intros u. cbn [kelems]. rewrite !in_app_iff. cbn. rewrite in_app_iff. tauto.
  - destruct (IH1 K1 s N) as (s1' & -> & I1). cbn [bind]. destruct (nntest_ok nv v s1') as (s2' & -> & I2); [lia|]. cbn [bind].
    destruct (HO s0 K0 s2') as (s3' & E3 & I3); [eapply improved_nonneg; [exact I2|]; eapply improved_nonneg; eauto|]. rewrite E3.
    exists s3'. split; auto. eapply improved_ext; [|eapply improved_trans; [eapply improved_trans; [exact I1|exact I2]|exact I3]].
    intros u. cbn [kelems]. rewrite !in_app_iff. cbn. rewrite in_app_iff. tauto.
Qed.
Lemma kd_nn_ok tol n vs v t0 : 0 <= tol -> (0 < n)%nat -> vs <> [] -> (forall u, In u vs -> length u = n) -> length v = n ->
  zVecTreeInit n = Some t0 ->
  exists t u, kadd_all t0 vs = Ok t /\ zVecTreeNN tol t v = Ok (Some u, Some (dist u v)) /\ In u vs /\ forall u', In u' vs -> dist u v <= dist u' v.
Proof.
  intros Ht Hn N HL Lv Ei. unfold zVecTreeInit in Ei. replace (n =? 0)%nat with false in Ei by lia. injection Ei as <-.
  destruct vs as [|v0 vs]; [congruence|]. cbn [kadd_all zVecTreeAdd bind].
  destruct (kadd_all_ok n vs Hn (fun w I => HL w (or_intror I)) (KNode 0 v0 (kinf n) (kinf n) KNil KNil)) as (t & E & K & Nt & P).
  - cbn [kok kelems kbox]. conjs; auto; try apply repeat_length; [apply HL; now left|]. intros u _. apply kinf_box.
  - cbn; auto.
  - discriminate.
  - destruct (nn_ok tol n v Ht Lv t K (None, None)) as (s & Es & I1 & I2 & _); [intros d Ed; discriminate|].
    exists (KTree t).
    assert (forall u, In u (kelems t) <-> In u (v0 :: vs)) as HI.
    { intros u. split; intros I.
      - eapply Permutation_in in I; [|exact P]. apply in_app_iff in I. cbn in *. tauto.
      - eapply Permutation_in; [symmetry; exact P|]. apply in_app_iff. cbn in *. tauto. }
    destruct (I2 v0) as (d & Ed & _); [apply HI; now left|]. destruct I1 as [->|(u & Iu & -> & _)]; [discriminate|].
    exists u. split; [exact E|]. split; [exact Es|]. split; [now apply HI|]. intros u' I'. destruct (I2 u') as (d' & E' & Hd'); [now apply HI|].
    cbn in E'. injection E' as <-. auto.
Qed.
