(** Proofs about the simplex method (C43), continued. *)
From Coq Require Import Reals Lra Lia List Permutation.
From Verif Require Import Prelude Prelude_Proofs Scalar RealLib Fmat Fmat_Proofs LE_Model IP_Model Vop Lp_Model Lp_Proofs Lp2_Proofs Lp3_Proofs Lp4_Proofs Lp5_Proofs.
Import ListNotations.
Local Open Scope R_scope.

Section Loop.
  Context (m N : nat) (T0 : nat -> nat -> R) (p0 : nat -> R) (tol : R) (Ht : 0 < tol).

  Lemma findNA_ok t : swf m N t -> (0 < length (tin t))%nat -> exists r, _zLPTableauFindNA tol t = Ok r /\
    match r with
    | None => forall j, In j (tin t) -> - tol <= vel (tc t) j
    | Some na => (na < length (tin t))%nat /\ vel (tc t) (nth na (tin t) O) < - tol
    end.
  Proof.
    intros W L. pose proof (fun c => swf_in m N t c W) as IN. pose proof (s_vc _ _ _ W) as Lc.
    assert (Li : forall k, (k < length (tin t))%nat -> (nth k (tin t) O < vlen (tc t))%nat).
    { intros k Hk. assert (nth k (tin t) O < N)%nat by (apply IN; apply in_or_app; right; now apply nth_In). lia. }
    unfold _zLPTableauFindNA. rewrite (get_ok _ O O) by auto. cbn [bind]. rewrite vget_ok by auto. cbn [bind].
    match goal with |- context [for_ 1 ?h ?f ?s0] => destruct (for_inv (fun k (s : R * nat) => (snd s < Nat.min k (length (tin t)))%nat /\ fst s = vel (tc t) (nth (snd s) (tin t) O) /\
      forall i, (i < k)%nat -> (i < length (tin t))%nat -> fst s <= vel (tc t) (nth i (tin t) O)) 1 h f s0) as ((cm & na) & E & P1 & P2 & P3); [lia| | |] end.
    - cbn [fst snd]. conjs; auto; try lia. intros i Hi _. replace i with O by lia. lra.
    - intros k (cm & na) Hk (P1 & P2 & P3). cbn [fst snd] in *. rewrite (get_ok _ k O) by lia. cbn [bind]. rewrite vget_ok by (apply Li; lia). cbn [bind].
      rs. destruct (Rltb_spec (vel (tc t) (nth k (tin t) O)) cm); eexists; (split; [reflexivity|]); cbn [fst snd]; conjs; auto; try lia.
      + intros i Hi Hi2. assert (i = k \/ (i < k)%nat) as [->|Hk'] by lia; [lra|]. specialize (P3 i Hk' Hi2). lra.
      + intros i Hi Hi2. assert (i = k \/ (i < k)%nat) as [->|Hk'] by lia; [lra|]. now apply P3.
    - rewrite E. cbn [bind]. eexists. split; [reflexivity|]. cbn [fst snd] in *. rs. destruct (Rltb_spec cm (- tol)).
      + split; [lia|]. lra.
      + intros j Hj. apply (In_nth _ _ O) in Hj. destruct Hj as (i & Hi & <-). specialize (P3 i ltac:(lia) Hi). lra.
  Qed.
  Lemma findNA_deg_ok t na : swf m N t -> (na < length (tin t))%nat -> vel (tc t) (nth na (tin t) O) < - tol ->
    exists na', _zLPTableauFindNA_deg tol t = Ok (Some na') /\ (na' < length (tin t))%nat /\ vel (tc t) (nth na' (tin t) O) < - tol.
  Proof.
    intros W Hna C. pose proof (fun c => swf_in m N t c W) as IN. pose proof (s_vc _ _ _ W) as Lc.
    assert (Li : forall k, (k < length (tin t))%nat -> (nth k (tin t) O < vlen (tc t))%nat).
    { intros k Hk. assert (nth k (tin t) O < N)%nat by (apply IN; apply in_or_app; right; now apply nth_In). lia. }
    unfold _zLPTableauFindNA_deg.
    match goal with |- context [for_ 0 (length (tin t)) ?f None] => destruct (for_inv (fun k (s : option (nat * nat)) => match s with
        | Some (i, _) => (i < length (tin t))%nat /\ vel (tc t) (nth i (tin t) O) < - tol
        | None => forall i, (i < k)%nat -> ~ vel (tc t) (nth i (tin t) O) < - tol end) 0 (length (tin t)) f None) as (s & E & P); [lia| | |] end.
    - intros i Hi. lia.
    - intros k s Hk P. rewrite (get_ok _ k O) by lia. cbn [bind]. rewrite vget_ok by (apply Li; lia). cbn [bind]. rs.
      destruct (Rltb_spec (vel (tc t) (nth k (tin t) O)) (- tol)).
      + destruct s as [(i, idx)|]; [destruct (Nat.ltb_spec (nth k (tin t) O) idx)|]; eexists; (split; [reflexivity|]); cbv beta iota; auto; split; auto; lia.
      + eexists. split; [reflexivity|]. destruct s as [(i, idx)|]; auto. intros i Hi. assert (i = k \/ (i < k)%nat) as [->|Hk'] by lia; auto.
    - rewrite E. cbn [bind]. destruct s as [(i, idx)|].
      + exists i. tauto.
      + exfalso. exact (P na Hna C).
  Qed.
  (** the row of the ratio test in the column s *)
  Definition ratio_row (t : @tableau R) (s : nat) (r : option nat) : Prop :=
    match r with
    | None => forall i, (i < m)%nat -> el (ta t) i s < tol
    | Some p => (p < m)%nat /\ tol <= el (ta t) p s /\
        forall i, (i < m)%nat -> tol <= el (ta t) i s -> vel (tb t) p / el (ta t) p s <= vel (tb t) i / el (ta t) i s
    end.
  Lemma findnp_ok t na f : swf m N t -> (na < length (tin t))%nat -> exists o, findnp tol f t na = Ok o /\
    match o with inl s => ratio_row t (nth na (tin t) O) (option_map snd s) | inr _ => f = true end.
  Proof.
    intros W Hna. pose proof (fun c => swf_in m N t c W) as IN. destruct W as [W1 W2 W3 W4 W5 W6 _].
    assert (Ls : (nth na (tin t) O < N)%nat) by (apply IN; apply in_or_app; right; now apply nth_In).
    unfold findnp. rewrite (get_ok _ na O) by auto. cbn [bind]. set (s := nth na (tin t) O) in *. rewrite W5, seq_length.
    match goal with |- context [forb 0 m ?g None] =>
      destruct (forb_inv (fun k (st : option (R * nat)) => match st with
        | None => forall i, (i < k)%nat -> el (ta t) i s < tol
        | Some (pm, p) => (p < k)%nat /\ tol <= el (ta t) p s /\ pm = vel (tb t) p / el (ta t) p s /\
           forall i, (i < k)%nat -> tol <= el (ta t) i s -> pm <= vel (tb t) i / el (ta t) i s end) (fun _ => f = true) 0 m g None) as (o & E & P); [lia| | |] end.
    - intros i Hi. lia.
    - intros k st Hk P. rewrite get_seq by lia. cbn [bind]. rewrite mget_ok by lia. cbn [bind]. cbn [slt RealS].
      destruct (Rltb_spec (el (ta t) k s) tol) as [Lt|Ge].
      + eexists. split; [reflexivity|]. destruct st as [(pm, p)|].
        * destruct P as (A & B & C & D). conjs; auto. intros i Hi Hti. assert (i = k \/ (i < k)%nat) as [->|] by lia; auto. lra.
        * intros i Hi. assert (i = k \/ (i < k)%nat) as [->|] by lia; auto.
      + rewrite vget_ok by lia. cbn [bind]. cbv zeta.
        match goal with |- context [if ?x && f then _ else _] => destruct (x && f) eqn:Ef end.
        { eexists. split; [reflexivity|]. cbn. apply Bool.andb_true_iff in Ef. tauto. }
        clear Ef. rs. destruct st as [(pm, p)|].
        * destruct P as (A & B & C & D). destruct (Rltb_spec (vel (tb t) k / el (ta t) k s) pm) as [L2|G2]; eexists; (split; [reflexivity|]); cbv beta iota; conjs; auto; try lra.
          -- intros i Hi Hti. assert (i = k \/ (i < k)%nat) as [->|Hk'] by lia; [lra|]. specialize (D i Hk' Hti). lra.
          -- intros i Hi Hti. assert (i = k \/ (i < k)%nat) as [->|Hk'] by lia; [lra|]. now apply D.
        * eexists; split; [reflexivity|]. cbv beta iota. conjs; auto; try lra. intros i Hi Hti. assert (i = k \/ (i < k)%nat) as [->|Hk'] by lia; [lra|]. specialize (P i Hk'). lra.
    - exists o. split; [exact E|]. destruct o as [[(pm, p)|]|]; auto. cbn. destruct P as (A & B & C & D). conjs; auto. intros i Hi Hti. rewrite <- C. auto.
  Qed.
  Lemma findNP_ok t na : swf m N t -> (na < length (tin t))%nat -> vel (tc t) (nth na (tin t) O) < - tol ->
    exists r na', _zLPTableauFindNP tol t na = Ok (r, na') /\ (na' < length (tin t))%nat /\ vel (tc t) (nth na' (tin t) O) < - tol /\ ratio_row t (nth na' (tin t) O) r.
  Proof.
    intros W Hna C. unfold _zLPTableauFindNP. destruct (findnp_ok t na true W Hna) as (o & E & P). rewrite E. cbn [bind]. destruct o as [s|u].
    - eexists _, _. split; [reflexivity|]. auto.
    - destruct (findNA_deg_ok t na W Hna C) as (na' & E' & H1 & H2). rewrite E'. cbn [bind].
      destruct (findnp_ok t na' false W H1) as (o & E2 & P2). rewrite E2. cbn [bind]. destruct o as [s|u']; [|discriminate].
      eexists _, _. split; [reflexivity|]. auto.
  Qed.

  (** [G0] is a further condition, used for the second phase *)
  Context (G0 : Prop).
  Definition npos (c0 : nat -> R) (t : @tableau R) : Prop := G0 -> good m N T0 p0 c0 tol -> forall i, (i < m)%nat -> 0 <= vel (tb t) i.
  Record sinv (c0 : nat -> R) (t : @tableau R) : Prop := {
    i_wf : swf m N t; i_val : sval m N T0 p0 t; i_cost : costs m N (el (ta t)) (vel (tb t)) c0 (vel (tc t)) (td t);
    i_swept : forall i, (i < m)%nat -> vel (tc t) (bc (tib t) i) = 0; i_pos : npos c0 t }.

  Lemma exchange_inv c0 t np na : sinv c0 t -> (na < length (tin t))%nat -> ratio_row t (nth na (tin t) O) (Some np) ->
    exists t1 t2 t3, _zLPTableauSweepA t np na = Ok t1 /\ _zLPTableauSwapPivot t1 np na = Ok t2 /\ _zLPTableauSweepC1 t2 np = Ok t3 /\
      sinv c0 t3 /\ length (tin t3) = length (tin t) /\ nc (ta t3) = nc (ta t) /\ vlen (tc t3) = vlen (tc t).
  Proof.
    intros [W V C Z P] Hna (Hp & Q1 & Q2). set (s := nth na (tin t) O) in *.
    assert (Ls : (s < N)%nat) by (apply (swf_in m N t s W); apply in_or_app; right; now apply nth_In).
    destruct (exchange_ok m N T0 p0 t np na W V Hp Hna) as (t1 & t2 & E1 & E2 & W2 & V2 & X1 & X2 & X3 & X4 & X5 & X6 & X7); [fold s; lra|].
    fold s in X5, X6, X7.
    destruct (sweepC1_ok m N T0 p0 t2 np W2 V2 Hp) as (c & d & E3 & L3 & P3 & ->).
    exists t1, t2, (Tab (ta t2) (tb t2) c (td t2 + vel (tb t2) np * vel (tc t2) (bc (tib t2) np)) (tib t2) (tin t2) (tir t2)). conjs; auto; [|cbn [tc]; congruence].
    pose proof (s_ib _ _ _ W) as L.
    assert (BC : forall k, bc (tib t2) k = if (k =? np)%nat then s else bc (tib t) k). { intros k. rewrite X5. unfold bc. apply nth_upd. lia. }
    assert (C2 : costs m N (el (ta t2)) (vel (tb t2)) c0 (vel (tc t2)) (td t2)).
    { rewrite X1, X2. intros x S. apply C. apply (proj1 (v_sol _ _ _ _ _ _ _ V x)). apply (proj2 (v_sol _ _ _ _ _ _ _ V2 x)). exact S. }
    split; cbn [ta tb tc td tib tin tir].
    - destruct W2; split; auto; cbn; lia.
    - exact V2.
    - apply (sweepC1_costs m N T0 p0 t2 np c0 c V2); auto.
    - intros i Hi. rewrite P3 by (apply (v_lt _ _ _ _ _ _ _ V2); auto). rewrite (v_unit _ _ _ _ _ _ _ V2) by auto.
      destruct (Nat.eqb_spec np i) as [->|Ni]; [ring|]. rewrite X1, BC. destruct (Nat.eqb_spec i np); [lia|]. rewrite Z by auto. ring.
    - intros G0' G i Hi. cbn [tb]. rewrite X7 by auto. apply piv_nonneg with (m := m); auto; try lra.
      intros k Hk Hpos. apply Q2; auto. destruct (G _ _ _ V) as (A & _ & _). destruct (A k s Hk Ls) as [Y|Y]; try lra. rewrite Rabs_pos_eq in Y; lra.
  Qed.

  Lemma loop_ok c0 : forall rest t, sinv c0 t -> (0 < length (tin t))%nat -> exists t' ok, simplex_loop tol rest t = Ok (t', ok) /\ sinv c0 t' /\
    length (tin t') = length (tin t) /\ nc (ta t') = nc (ta t) /\ vlen (tc t') = vlen (tc t) /\ (ok = true -> forall j, In j (tin t') -> - tol <= vel (tc t') j).
  Proof.
    induction rest as [|rest IH]; intros t I L; cbn [simplex_loop]; destruct (findNA_ok t (i_wf _ _ I) L) as (r & E & P); rewrite E; cbn [bind];
      (destruct r as [na|]; [|exists t, true; conjs; auto]).
    - exists t, false. conjs; auto. discriminate.
    - destruct P as (Hna & C). destruct (findNP_ok t na (i_wf _ _ I) Hna C) as (np & na' & E2 & Hna' & C' & RR). rewrite E2. cbn [bind].
      destruct np as [np|]; [|exists t, false; conjs; auto; discriminate].
      destruct (exchange_inv c0 t np na' I Hna' RR) as (t1 & t2 & t3 & X1 & X2 & X3 & I3 & L3 & N3 & V3).
      rewrite X1. cbn [bind]. rewrite X2. cbn [bind]. rewrite X3. cbn [bind].
      destruct (IH t3 I3) as (t' & ok & E' & I' & L' & N' & V' & O'); [lia|]. exists t', ok. conjs; auto; lia.
  Qed.
  Lemma simplex_ok c0 t : swf m N t -> sval m N T0 p0 t -> costs m N (el (ta t)) (vel (tb t)) c0 (vel (tc t)) (td t) -> npos c0 t -> (0 < length (tin t))%nat ->
    exists t' ok, zLPTableauSimplex tol t = Ok (t', ok) /\ sinv c0 t' /\ length (tin t') = length (tin t) /\ nc (ta t') = nc (ta t) /\ vlen (tc t') = vlen (tc t) /\
      (ok = true -> forall j, In j (tin t') -> - tol <= vel (tc t') j).
  Proof.
    intros W V C P L. unfold zLPTableauSimplex. destruct (sweepC_ok m N T0 p0 t c0 W V C) as (c & d & E & Lc & C' & Z). rewrite E. cbn [bind].
    destruct (loop_ok c0 (S (nc (ta t))) (Tab (ta t) (tb t) c d (tib t) (tin t) (tir t))) as (t' & ok & E' & I' & L' & N' & V' & O'); auto.
    { split; auto. destruct W; split; auto; cbn; lia. }
    exists t', ok. cbn [tc tin ta] in *. conjs; auto; congruence.
  Qed.
  (** at the end the cost is minimal up to the tolerance *)
  Lemma final_cost c0 t y : sinv c0 t -> (forall j, In j (tin t) -> - tol <= vel (tc t) j) ->
    sol m N T0 p0 y -> (forall j, (j < N)%nat -> 0 <= y j) ->
    td t - tol * rsum N y <= rsum N (fun j => c0 j * y j) /\
    (good m N T0 p0 c0 tol -> td t <= rsum N (fun j => c0 j * y j)).
  Proof.
    intros [W V C Z P] O S Y.
    assert (A : forall j, (j < N)%nat -> - tol <= vel (tc t) j).
    { intros j Hj. apply (swf_in m N t j W) in Hj. apply in_app_or in Hj. destruct Hj as [I|I]; auto.
      apply in_bc in I. destruct I as (k & Hk & <-). rewrite (s_ib _ _ _ W) in Hk. rewrite Z by auto. lra. }
    rewrite (C y) by now apply (v_sol _ _ _ _ _ _ _ V). split.
    - rewrite <- rsum_scal. assert (rsum N (fun i => - (tol * y i)) <= rsum N (fun j => vel (tc t) j * y j)).
      { apply rsum_le. intros i Hi. pose proof (Y i Hi). pose proof (A i Hi). replace (- (tol * y i)) with (- tol * y i) by ring. apply Rmult_le_compat_r; auto. }
      rewrite rsum_opp in H. lra.
    - intros G. destruct (G _ _ _ V) as (_ & G2 & _). destruct (costs_red m N T0 p0 _ _ _ _ _ _ V C Z) as (_ & R).
      assert (0 <= rsum N (fun j => vel (tc t) j * y j)); [|lra]. apply rsum_nonneg. intros j Hj. apply Rmult_le_pos; auto.
      pose proof (A j Hj) as Aj. rewrite R in * by auto. destruct (G2 j Hj) as [X|X]; [lra|]. unfold Rabs in X. destruct (Rcase_abs _); lra.
  Qed.
End Loop.
