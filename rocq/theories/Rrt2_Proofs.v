From Coq Require Import Reals Lra Lia Psatz List.
From Verif Require Import Prelude Prelude_Proofs Scalar RealLib Fmat_Proofs Stat_Model Stat2_Proofs Rrt_Model Rrt_Spec Rrt_Proofs.
Import ListNotations.
Local Open Scope R_scope.

(** ** RRT* *)
Lemma nth_error_upd {A} (l : list A) i j x : (i < length l)%nat -> nth_error (upd l i x) j = if (j =? i)%nat then Some x else nth_error l j.
Proof.
  revert i j. induction l as [|y l IH]; intros i j H; [cbn in H; lia|]. destruct i, j; cbn; auto. apply IH. cbn in H. lia.
Qed.
Lemma chainI_upd {V} (t : tree R V) x nx h lh : chainI t h lh -> ~ In x lh -> (x < length t)%nat -> par nx = Some h ->
  forall i l, chainI t i l -> exists l', chainI (upd t x nx) i l'.
Proof.
  intros Hh Nx Lx Px.
  assert (K : forall i l, chainI t i l -> ~ In x l -> chainI (upd t x nx) i l).
  { intros i l H. induction H as [i n E P|i n p l E P H IH]; intros N; [eapply ci_root|eapply ci_step]; eauto; try (rewrite nth_error_upd by auto; destruct (Nat.eqb_spec i x) as [->|]; [exfalso; apply N; now left|eauto]).
    apply IH. intros I. apply N. now right. }
  intros i l H. induction H as [i n E P|i n p l E P H (l' & IH)].
  - destruct (Nat.eq_dec i x) as [->|N].
    + exists (x :: lh). eapply ci_step; [rewrite nth_error_upd, Nat.eqb_refl by auto; reflexivity|eauto|]. now apply K.
    + exists [i]. eapply ci_root; [|eauto]. rewrite nth_error_upd by auto. now rewrite (proj2 (Nat.eqb_neq i x) N).
  - destruct (Nat.eq_dec i x) as [->|N].
    + exists (x :: lh). eapply ci_step; [rewrite nth_error_upd, Nat.eqb_refl by auto; reflexivity|eauto|]. now apply K.
    + exists (i :: l'). eapply ci_step; [|eauto|eauto]. rewrite nth_error_upd by auto. now rewrite (proj2 (Nat.eqb_neq i x) N).
Qed.

Section StarPath.
  Context {V : Type} (eps : R) (dist : V -> V -> R) (ext : V -> V -> R -> V) (coll : V -> bool).
  Local Notation star := (star_tree eps dist ext coll).
  Definition star_path (start : V) (l : list V) (c : R) : Prop :=
    hd_error l = Some start /\ linked (star_link eps dist ext coll) l /\ c = path_length dist l /\ forall v, In v (tl l) -> free coll v.
  Lemma star_good start t i l c : star start t -> chain t i l c -> star_path start l c /\ forall n, nth_error t i = Some n -> c <= ctotal n.
  Proof.
    intros (S0 & S1 & _) H. induction H as [i n E P|i n p l c E P H (IH & IC)].
    - destruct (Nat.eq_dec i 0) as [->|N].
      + assert (n = Nd start 0 0 None) by congruence. subst. split; [split; cbn; auto; conjs; auto; intros v []|]. intros n E'. replace n with (Nd start 0 0 None : node R V) by congruence. cbn. lra.
      + destruct (S1 i n E ltac:(lia)) as (p & np & A & _). congruence.
    - destruct (Nat.eq_dec i 0) as [->|N].
      + assert (n = Nd start 0 0 None) by congruence. subst. discriminate.
      + destruct (S1 i n E ltac:(lia)) as (p' & np & A1 & A3 & A4 & A5 & A6 & A7). assert (p' = p) by congruence. subst p'.
        destruct IH as (I1 & I2 & I3 & I4). specialize (IC np A3). destruct (chain_snoc t p l c H) as (l0 & np' & E' & ->). assert (np' = np) by congruence. subst np'. split; [split; [|conjs]|].
        * destruct l0; auto.
        * apply linked_snoc; auto.
        * rewrite length_snoc, <- I3, A4. reflexivity.
        * intros v Iv. destruct l0 as [|x l0]; cbn in Iv. -- destruct Iv as [<-|[]]; auto. -- rewrite in_app_iff in Iv. destruct Iv as [Iv|[<-|[]]]; auto.
        * intros m Em. replace m with n by congruence. lra.
  Qed.
End StarPath.
Section Star.
  Context {V : Type} (tol eps : R) (HT : 0 <= tol) (HE : 0 < eps) (dist : V -> V -> R) (ext : V -> V -> R -> V) (coll : V -> bool).
  Context (HM : metric dist) (HX : towards eps dist ext).
  Context (toint : R -> nat) (TI : forall x, 0 <= x -> INR (toint x) <= x < INR (toint x) + 1).
  Local Notation tree := (tree R V).
  Local Notation star := (star_tree eps dist ext coll).
  Local Notation rew := (_zRRTListCheckNodeRewirable eps ext coll toint).
  Implicit Types t : tree.

  Lemma rewirable_ok a b : rew a b (dist a b) = true -> divided eps dist ext coll a b.
  Proof.
    unfold _zRRTListCheckNodeRewirable. rs. set (x := dist a b / eps). assert (X : 0 <= x) by (apply Rmult_le_pos; [apply HM|left; now apply Rinv_0_lt_compat]).
    destruct (TI (x + 1) ltac:(lra)) as (T1 & T2). set (n := toint (x + 1)) in *. rewrite forallb_forall. intros H. exists n.
    assert (N : 0 < INR n) by lra. conjs.
    - apply INR_lt. cbn. lra.
    - apply Rmult_lt_reg_r with (/ eps); [now apply Rinv_0_lt_compat|]. rewrite Rmult_assoc, Rinv_r by lra. fold (dist a b / eps). fold x. lra.
    - intros i Hi. specialize (H i). rewrite !INR_IZR_INZ. unfold free. apply negb_true_iff. apply H. apply in_seq. lia.
  Qed.
  Lemma star_ne start t : star start t -> t <> [].
  Proof. intros (H & _) ->. discriminate. Qed.
  Lemma star_mono start t h lh : star start t -> chainI t h lh -> (forall y ny nh, In y lh -> nth_error t y = Some ny -> nth_error t h = Some nh -> ctotal ny <= ctotal nh) /\
    forall nh, nth_error t h = Some nh -> 0 <= ctotal nh.
  Proof.
    intros (S0 & S1 & _) H. induction H as [i n E P|i n p l E P H (IH & IH0)].
    - assert (i = O). { destruct (Nat.eq_dec i 0); auto. destruct (S1 i n E ltac:(lia)) as (p & np & A & _). congruence. } subst i.
      split. + intros y ny nh [<-|[]] E1 E2. replace nh with ny by congruence. lra. + intros nh E1. assert (nh = Nd start 0 0 None) by congruence. subst. cbn. lra.
    - assert (Hi : (0 < i)%nat). { destruct (Nat.eq_dec i 0) as [->|]; [|lia]. assert (n = Nd start 0 0 None) by congruence. subst. discriminate. }
      destruct (S1 i n E Hi) as (p' & np & A1 & A2 & A3 & A4 & A5 & A6). assert (p' = p) by congruence. subst p'.
      assert (0 <= cedge n) by (rewrite A3; apply HM). split.
      + intros y ny nh [<-|Iy] E1 E2. * replace nh with ny by congruence. lra. * replace nh with n by congruence. specialize (IH y ny np Iy E1 A2). lra.
      + intros nh E1. replace nh with n by congruence. specialize (IH0 np A2). lra.
  Qed.
  Definition improves t t' : Prop := forall i n, nth_error t i = Some n -> exists n', nth_error t' i = Some n' /\ nv n' = nv n /\ ctotal n' <= ctotal n.
  Lemma improves_refl t : improves t t.
  Proof. intros i n E. exists n. conjs; auto. lra. Qed.
  Lemma improves_trans t1 t2 t3 : improves t1 t2 -> improves t2 t3 -> improves t1 t3.
  Proof. intros A B i n E. destruct (A i n E) as (n' & E' & V1 & C1). destruct (B i n' E') as (n2 & E2 & V2 & C2). exists n2. conjs; auto; [congruence|lra]. Qed.

  Lemma rewire_ok start t h nh i n : star start t -> nth_error t h = Some nh -> nth_error t i = Some n -> i <> h -> divided eps dist ext coll (nv nh) (nv n) ->
    exists t', rewire h t i (dist (nv n) (nv nh)) = Ok t' /\ star start t' /\ length t' = length t /\ improves t t' /\ nth_error t' h = Some nh /\
      exists n', nth_error t' i = Some n' /\ ctotal n' <= ctotal nh + dist (nv n) (nv nh).
  Proof.
    intros HS Eh Ei Ni D. unfold rewire. rewrite (get_some _ _ _ Eh), (get_some _ _ _ Ei). cbn [bind]. set (d := dist (nv n) (nv nh)). rs.
    pose proof (nth_error_lt _ _ _ Eh) as Lh. pose proof (nth_error_lt _ _ _ Ei) as Li. assert (D0 : 0 <= d) by apply HM.
    destruct (Rltb_spec (ctotal nh + d) (ctotal n)) as [X|X].
    - rewrite set_ok by auto. eexists. split; [reflexivity|]. pose proof HS as (S0 & S1 & S2). destruct (S2 h Lh) as (l & c & Ch). destruct (chain_I _ _ _ _ Ch) as (lh & CI).
      destruct (star_mono start t h lh HS CI) as (Mo & M0). assert (Nx : ~ In i lh) by (intros I; specialize (Mo i n nh I Ei Eh); lra).
      specialize (M0 nh Eh). assert (I0 : i <> O) by (intros ->; assert (n = Nd start 0 0 None) by congruence; subst n; cbn in X; lra).
      set (nx := Nd (nv n) d (ctotal nh + d) (Some h)).
      assert (U : forall j, nth_error (upd t i nx) j = if (j =? i)%nat then Some nx else nth_error t j) by (intros; now apply nth_error_upd).
      assert (IM : improves t (upd t i nx)).
      { intros j m Ej. rewrite U. destruct (Nat.eqb_spec j i) as [->|]. - exists nx. assert (m = n) by congruence. subst m. cbn. conjs; auto. lra. - exists m. conjs; auto. lra. }
      assert (Uh : nth_error (upd t i nx) h = Some nh) by (rewrite U; destruct (Nat.eqb_spec h i); [congruence|auto]).
      conjs; auto.
      + split; [|split].
        * rewrite U. destruct (Nat.eqb_spec 0 i); [congruence|auto].
        * intros j m Ej Hj. rewrite U in Ej. destruct (Nat.eqb_spec j i) as [->|Nj].
          -- injection Ej as <-. exists h, nh. cbn. conjs; auto. ++ unfold d. apply HM. ++ right. now left. ++ destruct (S1 i n Ei ltac:(lia)) as (? & ? & _ & _ & _ & _ & F & _). exact F. ++ lra.
          -- destruct (S1 j m Ej Hj) as (p & np & A1 & A2 & A3 & A4 & A5 & A6). destruct (IM p np A2) as (np' & B1 & B2 & B3). exists p, np'. rewrite B2. conjs; auto. lra.
        * intros j Hj. rewrite upd_length in Hj. destruct (S2 j Hj) as (l' & c' & Cj). destruct (chain_I _ _ _ _ Cj) as (lj & CIj).
          destruct (chainI_upd t i nx h lh CI Nx Li eq_refl j lj CIj) as (l2 & C2). eapply I_chain; eauto.
      + apply upd_length.
      + exists nx. rewrite U, Nat.eqb_refl. cbn. split; auto. lra.
    - eexists. split; [reflexivity|]. conjs; auto using improves_refl. exists n. split; auto. lra.
  Qed.

  Lemma star_app start t ve i np : star start t -> nth_error t i = Some np -> star_link eps dist ext coll (nv np) ve -> free coll ve ->
    star start (t ++ [Nd ve (dist (nv np) ve) (ctotal np + dist (nv np) ve) (Some i)]).
  Proof.
    intros HS Ei D F. pose proof (star_ne _ _ HS) as NE. assert (L : (0 < length t)%nat) by (destruct t; [congruence|cbn; lia]). destruct HS as (S0 & S1 & S2).
    pose proof (nth_error_lt _ _ _ Ei) as Li. split; [|split].
    - rewrite nth_error_app1; auto.
    - intros j n Ej Hj. rewrite nth_error_app_last in Ej. destruct (Nat.eqb_spec j (length t)) as [->|N].
      + injection Ej as <-. exists i, np. rewrite nth_error_app1 by auto. cbn. conjs; auto. lra.
      + destruct (S1 j n Ej Hj) as (p & n' & A1 & A3 & A4). exists p, n'. pose proof (nth_error_lt _ _ _ A3). rewrite nth_error_app1 by auto. conjs; auto; apply A4.
    - assert (EX : forall j n, nth_error t j = Some n -> nth_error (t ++ [Nd ve (dist (nv np) ve) (ctotal np + dist (nv np) ve) (Some i)]) j = Some n).
      { intros j n Ej. rewrite nth_error_app1; auto. eapply nth_error_lt; eauto. }
      intros j Hj. rewrite app_length in Hj. cbn in Hj. destruct (Nat.eq_dec j (length t)) as [->|N].
      + destruct (S2 i Li) as (l & c & Ci). do 2 eexists. eapply chain_step; [rewrite nth_error_app_last, Nat.eqb_refl; reflexivity|reflexivity|]. eapply chain_ext; [exact Ci|exact EX].
      + destruct (S2 j ltac:(lia)) as (l & c & Cj). exists l, c. eapply chain_ext; eauto.
  Qed.

  Lemma near_ok t ve r : exists near m, near_nodes eps dist ext coll toint t ve r = (near, m) /\
    (forall i d, In (i, d) near -> exists n, nth_error t i = Some n /\ d = dist (nv n) ve /\ divided eps dist ext coll ve (nv n)) /\
    (forall i n, nth_error t i = Some n -> dist (nv n) ve < r -> rew ve (nv n) (dist (nv n) ve) = true -> In (i, dist (nv n) ve) near) /\
    match m with
    | None => near = []
    | Some (c, k) => exists i d n, nth_error near k = Some (i, d) /\ nth_error t i = Some n /\ c = ctotal n + d /\ forall j d' n', In (j, d') near -> nth_error t j = Some n' -> c <= ctotal n' + d'
    end.
  Proof.
    unfold near_nodes. match goal with |- context [fold_left ?f _ ?s] => set (F := f) end.
    assert (H : (fun k '(near, m) => (forall i d, In (i, d) near -> (i < k)%nat /\ exists n, nth_error t i = Some n /\ d = dist (nv n) ve /\ divided eps dist ext coll ve (nv n)) /\
      (forall i n, (i < k)%nat -> nth_error t i = Some n -> dist (nv n) ve < r -> rew ve (nv n) (dist (nv n) ve) = true -> In (i, dist (nv n) ve) near) /\
      match m with None => near = [] | Some (c, k) => exists i d n, nth_error near k = Some (i, d) /\ nth_error t i = Some n /\ c = ctotal n + d /\ forall j d' n', In (j, d') near -> nth_error t j = Some n' -> c <= ctotal n' + d' end)
      (length t) (fold_left F (List.seq 0 (length t)) ([], None))).
    { apply fold_seq_inv. - conjs; auto. + intros i d []. + intros; lia.
      - intros k (near & m) Hk (H1 & H2 & H3). unfold F. destruct (nth_error t k) as [n|] eqn:En; [|apply nth_error_None in En; lia].
        rs. destruct (Rltb_spec (dist (nv n) ve) r) as [X|X]; cbn [andb].
        + destruct (rew ve (nv n) (dist (nv n) ve)) eqn:ER.
          * conjs.
            -- intros i d I. apply in_app_or in I. destruct I as [I|[I|[]]]. ++ destruct (H1 i d I). split; auto.
               ++ injection I as <- <-. split; auto. exists n. conjs; auto. apply rewirable_ok. destruct HM as (_ & M2 & _). now rewrite (M2 ve).
            -- intros i n' Hi Ei D R. apply in_or_app. assert (i = k \/ (i < k)%nat) as [->|J] by lia; [right; left|left; auto]. now replace n' with n by congruence.
            -- destruct m as [(c & kk)|].
               ++ destruct H3 as (i & d & n0 & B1 & B2 & B3 & B4). destruct (Rltb_spec (ctotal n + dist (nv n) ve) c) as [Y|Y].
                  ** exists k, (dist (nv n) ve), n. rewrite nth_error_app2, Nat.sub_diag by lia. conjs; auto. intros j d' n' I Ej. apply in_app_or in I. destruct I as [I|[I|[]]].
                     --- specialize (B4 j d' n' I Ej). lra. --- injection I as <- <-. replace n' with n by congruence. lra.
                  ** exists i, d, n0. pose proof (nth_error_lt _ _ _ B1). rewrite nth_error_app1 by auto. conjs; auto. intros j d' n' I Ej. apply in_app_or in I. destruct I as [I|[I|[]]].
                     --- exact (B4 j d' n' I Ej). --- injection I as <- <-. replace n' with n by congruence. lra.
               ++ subst near. exists k, (dist (nv n) ve), n. cbn. conjs; auto. intros j d' n' [I|[]] Ej. injection I as <- <-. replace n' with n by congruence. lra.
          * conjs; auto. -- intros i d I. destruct (H1 i d I). split; auto.
            -- intros i n' Hi Ei D R. assert (i = k \/ (i < k)%nat) as [->|J] by lia; auto. replace n' with n in R by congruence. congruence.
        + conjs; auto. -- intros i d I. destruct (H1 i d I). split; auto.
          -- intros i n' Hi Ei D R. assert (i = k \/ (i < k)%nat) as [->|J] by lia; auto. replace n' with n in D by congruence. lra. }
    cbv beta in H. destruct (fold_left F (List.seq 0 (length t)) ([], None)) as (near & m). destruct H as (H1 & H2 & H3). exists near, m. conjs; auto.
    - intros i d I. now apply H1. - intros i n E. apply H2; auto. eapply nth_error_lt; eauto.
  Qed.

  (** the new node and what it does to the others *)
  Definition reachable t ve r i n : Prop := nth_error t i = Some n /\ dist (nv n) ve < r /\ rew ve (nv n) (dist (nv n) ve) = true.
  Lemma addrewire_ok start t ve i np r : star start t -> nth_error t i = Some np -> dist (nv np) ve <= eps -> free coll ve ->
    exists t' h, _zRRTListAddAndRewireNode eps dist ext coll toint t ve i (dist (nv np) ve) r = Ok t' /\ star start t' /\ length t' = S (length t) /\ improves t t' /\
      nth_error t' (length t) = Some h /\ nv h = ve /\
      forall j n, reachable t ve r j n -> ctotal h <= ctotal n + dist (nv n) ve /\ exists n', nth_error t' j = Some n' /\ ctotal n' <= ctotal h + dist (nv n) ve.
  Proof.
    intros HS Ei D F. unfold _zRRTListAddAndRewireNode. destruct (near_ok t ve r) as (near & m & EN & N1 & N2 & N3). rewrite EN. destruct m as [(c & k)|].
    - destruct N3 as (p & d & n & B1 & B2 & B3 & B4). rewrite (get_some _ _ _ B1). cbn [bind]. rewrite (add_ok _ _ _ _ _ B2). cbn [bind].
      assert (Ip : In (p, d) near) by (eapply nth_error_In; eauto). destruct (N1 p d Ip) as (n2 & E2 & Ed & Dv). assert (n2 = n) by congruence. subst n2.
      assert (HS1 : star start (t ++ [Nd ve d (ctotal n + d) (Some p)])) by (rewrite Ed; apply star_app; auto; right; now right).
      set (h := Nd ve d (ctotal n + d) (Some p)) in *. set (t1 := t ++ [h]) in *.
      assert (L1 : length t1 = S (length t)) by (unfold t1; rewrite app_length; cbn; lia). replace (length t1 - 1)%nat with (length t) by lia.
      assert (IM1 : improves t t1). { intros j m Ej. exists m. unfold t1. rewrite nth_error_app1 by (eapply nth_error_lt; eauto). conjs; auto. lra. }
      assert (Eh : nth_error t1 (length t) = Some h) by (unfold t1; now rewrite nth_error_app_last, Nat.eqb_refl).
      set (rest := firstn k near ++ skipn (S k) near).
      assert (IR : forall e, In e rest -> In e near). { intros e I. rewrite <- (firstn_skipn k near). apply in_app_or in I. apply in_or_app. destruct I as [I|I]; auto. right. assert (S1 : skipn k near = (p, d) :: skipn (S k) near). { clear - B1. revert k B1. induction near as [|x l IH]; intros [|k] B; try discriminate; cbn in *; [congruence|]. now apply IH. } rewrite S1. now right. }
      assert (IR2 : forall e, In e near -> e = (p, d) \/ In e rest). { intros e I. unfold rest. rewrite <- (firstn_skipn k near) in I. apply in_app_or in I. destruct I as [I|I]; [right; apply in_or_app; auto|]. assert (S1 : skipn k near = (p, d) :: skipn (S k) near). { clear - B1. revert k B1. induction near as [|x l IH]; intros [|k] B; try discriminate; cbn in *; [congruence|]. now apply IH. } rewrite S1 in I. destruct I as [I|I]; auto. right. apply in_or_app. auto. }
      match goal with |- context [foreach rest ?f t1] => destruct (foreach_inv (fun pre t' => star start t' /\ length t' = S (length t) /\ improves t1 t' /\ nth_error t' (length t) = Some h /\
        forall j d', In (j, d') pre -> exists n', nth_error t' j = Some n' /\ ctotal n' <= ctotal h + d') f rest [] t1) as (t' & Et & A1 & A2 & A3 & A4 & A5) end.
      + conjs; auto using improves_refl. intros j d' [].
      + intros pre (j & d') t2 I (A1 & A2 & A3 & A4 & A5). destruct (N1 j d' (IR _ I)) as (nj & Ej & Edj & Dj). destruct (IM1 j nj Ej) as (nj1 & Ej1 & Vj1 & _).
        destruct (A3 j nj1 Ej1) as (nj2 & Ej2 & Vj2 & _). pose proof (nth_error_lt _ _ _ Ej).
        destruct (rewire_ok start t2 (length t) h j nj2 A1 A4 Ej2) as (t3 & Et3 & C1 & C2 & C3 & C4 & n' & C5 & C6); [lia| |].
        * cbn. rewrite Vj2, Vj1. exact Dj.
        * cbn [nv h] in Et3, C6. rewrite Vj2, Vj1, <- Edj in Et3, C6. exists t3. split; auto. conjs; auto; try lia. -- eapply improves_trans; eauto.
          -- intros j' d2 I'. apply in_app_or in I'. destruct I' as [I'|[I'|[]]].
             ++ destruct (A5 j' d2 I') as (m & Em & Cm). destruct (C3 j' m Em) as (m' & Em' & _ & Cm'). exists m'. split; auto. lra.
             ++ injection I' as <- <-. exists n'. auto.
      + rewrite Et. exists t', h. conjs; auto. * eapply improves_trans; eauto.
        * intros j nj (Ej & Dj & Rj). pose proof (N2 j nj Ej Dj Rj) as In_. split; [cbn; specialize (B4 j _ nj In_ Ej); lra|]. destruct (IR2 _ In_) as [E|I].
          -- injection E as <- Edd. destruct (IM1 j nj Ej) as (nj1 & Ej1 & _ & Cj1). destruct (A3 j nj1 Ej1) as (nj2 & Ej2 & _ & Cj2). exists nj2. split; auto. cbn. assert (n = nj) by congruence. subst nj. assert (0 <= d) by (rewrite Ed; apply HM). lra.
          -- destruct (A5 _ _ I) as (n' & E' & C'). eauto.
    - subst near. rewrite (add_ok _ _ _ _ _ Ei). eexists _, _. split; [reflexivity|]. rewrite nth_error_app_last, Nat.eqb_refl, app_length. conjs.
      + apply star_app; auto. now left.
      + cbn. lia.
      + intros j m Ej. exists m. rewrite nth_error_app1 by (eapply nth_error_lt; eauto). conjs; auto. lra.
      + reflexivity.
      + reflexivity.
      + intros j n (Ej & Dj & Rj). destruct (N2 j n Ej Dj Rj).
  Qed.

  Context (radius : nat -> R).
  Local Notation growopt := (_zRRTListExtendOpt tol eps dist ext coll toint radius).
  Lemma growopt_ok start t vr : star start t -> exists ret t', growopt t vr = Ok (ret, t') /\ star start t' /\ improves t t' /\
    match ret with
    | ADVANCED | REACHED => exists h, length t' = S (length t) /\ nth_error t' (length t) = Some h /\ (ret = REACHED -> nv h = vr) /\
        forall j n, reachable t (nv h) (radius (length t)) j n -> ctotal h <= ctotal n + dist (nv n) (nv h) /\ exists n', nth_error t' j = Some n' /\ ctotal n' <= ctotal h + dist (nv n) (nv h)
    | _ => t' = t
    end.
  Proof.
    intros HS. pose proof (star_ne _ _ HS) as NE. unfold _zRRTListExtendOpt. destruct (nn_ok dist t vr NE) as (d & i & n & En & Ei & Ed & Min). rewrite En. destruct HM as (M1 & M2 & M3 & M4).
    rewrite is_tol_R. destruct (Rleb_spec (Rabs d) tol) as [X|X].
    - eexists NOP, t. conjs; auto using improves_refl.
    - rewrite (get_some _ _ _ Ei). cbn [bind]. unfold _zRRTListExtendTest. rs. assert (Dn : dist (nv n) vr = d) by (rewrite Ed; apply M2). destruct (Rltb_spec d eps) as [Y|Y].
      + destruct (coll vr) eqn:Ec.
        * eexists TRAPPED, t. conjs; auto using improves_refl.
        * destruct (addrewire_ok start t vr i n (radius (length t)) HS Ei) as (t' & h & Et & A1 & A2 & A3 & A4 & A5 & A6); [lra|auto|]. rewrite Dn in Et. rewrite Et. cbn [bind].
          eexists REACHED, t'. conjs; auto. exists h. rewrite A5. conjs; auto; apply (A6 _ _ H).
      + destruct (HX (nv n) vr) as (X1 & X2); [lra|]. rewrite Dn in X1, X2. set (ve := ext (nv n) vr (eps / d)) in *. destruct (coll ve) eqn:Ec.
        * eexists TRAPPED, t. conjs; auto using improves_refl.
        * destruct (addrewire_ok start t ve i n (radius (length t)) HS Ei) as (t' & h & Et & A1 & A2 & A3 & A4 & A5 & A6); [lra|auto|]. rewrite X1 in Et. rewrite Et. cbn [bind].
          eexists ADVANCED, t'. conjs; auto. exists h. rewrite A5. conjs; auto; try discriminate; apply (A6 _ _ H).
  Qed.
  Lemma findopt_loop goalp start samp iter : forall i t, star start t -> exists ret t', find_loop goalp growopt samp iter i t = Ok (ret, t') /\ star start t' /\ improves t t' /\
    (length t' <= iter + length t)%nat /\ (ret = true -> exists h, nth_error t' (length t' - 1) = Some h /\ goalp (nv h) = true).
  Proof.
    induction iter as [|iter IH]; intros i t HR; cbn [find_loop].
    - exists false, t. conjs; auto using improves_refl; discriminate.
    - destruct (growopt_ok start t (samp i) HR) as (r & t1 & E & HR1 & IM & H). rewrite E. cbn [bind].
      assert (L1 : (length t1 <= S (length t))%nat) by (destruct r; try (subst; lia); destruct H as (h & -> & _); lia).
      destruct (IH (S i) _ HR1) as (ret & t' & E' & HR' & IM' & Ln' & G). destruct (head_nth _ (star_ne _ _ HR1)) as (h & Eh & Eh').
      assert (D : exists ret t', find_loop goalp growopt samp iter (S i) t1 = Ok (ret, t') /\ star start t' /\ improves t t' /\
        (length t' <= S iter + length t)%nat /\ (ret = true -> exists h, nth_error t' (length t' - 1) = Some h /\ goalp (nv h) = true)).
      { exists ret, t'. conjs; auto; [eapply improves_trans; eauto|lia]. }
      destruct r; auto; rewrite Eh'; cbn [bind]; (destruct (goalp (nv h)) eqn:Gh; auto); exists true, t1; conjs; auto; try lia; eauto.
  Qed.
  Lemma star_init start : star start [Nd start 0 0 None].
  Proof.
    split; auto. split. - intros i n E Hi. destruct i; [lia|]. destruct i; discriminate.
    - intros i Hi. cbn in Hi. replace i with O by lia. do 2 eexists. eapply chain_root; reflexivity.
  Qed.
  Lemma findopt_ok goalp samp start iter : exists ret t l c h, zRRTFindPathOpt tol eps dist ext coll goalp toint radius samp start iter true = Ok (ret, t, Some (l, c)) /\
    star start t /\ (length t <= S iter)%nat /\ star_path eps dist ext coll start l c /\ nth_error t (length t - 1) = Some h /\ last l start = nv h /\ c <= ctotal h /\ (ret = true -> goalp (last l start) = true).
  Proof.
    unfold zRRTFindPathOpt, _zRRTFindPath. cbn [_zRRTListAddNode bind app]. destruct (findopt_loop goalp start samp iter O _ (star_init start)) as (ret & t & E & HR & IM & L & G).
    rs. rewrite E. cbn [bind]. pose proof (star_ne _ _ HR) as NE. destruct (head_nth t NE) as (h & Eh & _). pose proof (nth_error_lt _ _ _ Eh) as Lh.
    pose proof HR as (_ & _ & S2). destruct (S2 _ Lh) as (l0 & c0 & C). unfold _zRRTPath. destruct (walk_full _ _ _ _ [] 0 C) as (l & c & C' & W).
    rs. rewrite W, app_nil_r, Rplus_0_l. cbn [bind]. destruct (star_good eps dist ext coll start t _ l c HR C') as (SP & SC). exists ret, t, l, c, h.
    assert (EL : last l start = nv h) by (destruct (chain_snoc _ _ _ _ C') as (l1 & n & En & ->); rewrite last_last; congruence).
    conjs; auto. - cbn in L. lia. - intros Et. destruct (G Et) as (h' & Eh' & Gh). rewrite EL. congruence.
  Qed.
End Star.
