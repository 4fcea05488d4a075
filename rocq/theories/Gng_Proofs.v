(** Structure of the networks of zm_gng.c. *)
From Coq Require Import ZArith List Bool Lia Arith.
From Verif Require Import Prelude Scalar Gng_Model Gng_Spec.
Import ListNotations.

Lemma remove_first_In x l : NoDup l -> forall y, In y (remove_first x l) <-> In y l /\ y <> x.
Proof.
  induction l as [|z l IH]; intros H y; cbn; [tauto|]. inversion H; subst. destruct (Nat.eqb_spec z x) as [->|N].
  - split; [intros K; split; auto; intros ->; auto|intros [[->|K] K2]; [congruence|auto]].
  - cbn. rewrite (IH H3). split; [intros [->|[K K2]]; auto|intros [[->|K] K2]; auto].
Qed.
Lemma remove_first_NoDup x l : NoDup l -> NoDup (remove_first x l).
Proof.
  induction l as [|z l IH]; intros H; cbn; auto. inversion H; subst. destruct (Nat.eqb_spec z x); auto.
  constructor; auto. rewrite remove_first_In; auto. tauto.
Qed.
Lemma NoDup_map_inj {A} (f : A -> nat) l a b : NoDup (map f l) -> In a l -> In b l -> f a = f b -> a = b.
Proof.
  induction l as [|z l IH]; cbn; intros H Ha Hb E; [tauto|]. inversion H; subst.
  destruct Ha as [->|Ha], Hb as [->|Hb]; auto; exfalso; apply H2; [rewrite E|rewrite <- E]; now apply in_map.
Qed.
Lemma NoDup_map_filter {A} (f : A -> nat) p l : NoDup (map f l) -> NoDup (map f (filter p l)).
Proof.
  induction l as [|z l IH]; cbn; intros H; auto. inversion H; subst. destruct (p z); cbn; auto. constructor; auto.
  rewrite in_map_iff in *. intros (y & E & Hy). apply filter_In in Hy. apply H2. exists y. tauto.
Qed.
Lemma NoDup_app_one (l : list nat) x : NoDup l -> ~ In x l -> NoDup (l ++ [x]).
Proof.
  induction l as [|z l IH]; cbn; intros H N; [repeat constructor; tauto|]. inversion H; subst. constructor.
  - rewrite in_app_iff. cbn. intuition (subst; auto).
  - apply IH; auto.
Qed.
Lemma find_found {A} (f : A -> nat) l a : NoDup (map f l) -> In a l -> find (fun u => f u =? f a)%nat l = Some a.
Proof.
  intros H K. destruct (find (fun u => (f u =? f a)%nat) l) eqn:E.
  - apply find_some in E. destruct E as [E1 E2]. apply Nat.eqb_eq in E2. f_equal. eapply NoDup_map_inj; eauto.
  - apply find_none with (x := a) in E; auto. cbn in E. rewrite Nat.eqb_refl in E. discriminate.
Qed.

Ltac conjs := repeat match goal with |- _ /\ _ => split end.
Lemma bind_assoc {A B C} (x : res A) (f : A -> res B) (g : B -> res C) : bind (bind x f) g = bind x (fun y => bind (f y) g).
Proof. destruct x; auto. Qed.
Lemma filter_length_le {A} (p : A -> bool) l : (length (filter p l) <= length l)%nat.
Proof. induction l as [|a l IH]; cbn; [lia|]. destruct (p a); cbn; lia. Qed.
Lemma filter_true {A} (l : list A) : filter (fun _ => true) l = l.
Proof. induction l; cbn; congruence. Qed.

Section G.
  Context {T : Type}.
  Implicit Types g : gng T.
  Lemma live_In g a : live g a <-> In a (map uid (units g)).
  Proof. unfold live. rewrite in_map_iff. split; intros (u & H1 & H2); exists u; auto. Qed.
  Lemma get_unit_ok g u : NoDup (map uid (units g)) -> In u (units g) -> get_unit g (uid u) = Ok u.
  Proof. intros H K. unfold get_unit. now rewrite find_found. Qed.
  Lemma get_unit_inv g a u : get_unit g a = Ok u -> In u (units g) /\ uid u = a.
  Proof. unfold get_unit. destruct (find _ _) eqn:E; intros K; inversion K; subst. apply find_some in E. now rewrite Nat.eqb_eq in E. Qed.
  Lemma get_unit_live g a : live g a -> exists u, get_unit g a = Ok u /\ In u (units g) /\ uid u = a.
  Proof.
    intros (u & H & E). unfold get_unit. destruct (find _ _) eqn:F.
    - exists u0. apply find_some in F. now rewrite Nat.eqb_eq in F.
    - apply find_none with (x := u) in F; auto. cbn in F. now rewrite E, Nat.eqb_refl in F.
  Qed.
  Lemma get_edge_ok g e : NoDup (map eid (edges g)) -> In e (edges g) -> get_edge g (eid e) = Ok e.
  Proof. intros H K. unfold get_edge. now rewrite find_found. Qed.
  Definition on (a : nat) (f : unit T -> unit T) (u : unit T) := if (uid u =? a)%nat then f u else u.
  Lemma set_unit_ok g a f : live g a -> set_unit g a f = Ok (Gng (map (on a f) (units g)) (edges g) (next g)).
  Proof. intros H. unfold set_unit. destruct (get_unit_live g a H) as (u & -> & _). reflexivity. Qed.
  Definition one (x : nat) (f : edge -> edge) (e : edge) := if (eid e =? x)%nat then f e else e.
  Lemma set_edge_ok g x f e : NoDup (map eid (edges g)) -> In e (edges g) -> eid e = x -> set_edge g x f = Ok (Gng (units g) (map (one x f) (edges g)) (next g)).
  Proof. intros H K <-. unfold set_edge. rewrite get_edge_ok by auto. reflexivity. Qed.

  (** ** removal of an edge *)
  Definition rem x (u : unit T) := Unit (uid u) (uv u) (uerr u) (remove_first x (eps u)).
  Definition empty {A} (l : list A) := match l with [] => true | _ => false end.
  Definition detach a x (us : list (unit T)) := filter (fun u => negb ((uid u =? a)%nat && empty (eps u))) (map (on a (rem x)) us).
  Lemma detach_ok g a x : NoDup (map uid (units g)) -> live g a ->
    (g1 <- _zGNGUnitPurgeEdge g a x ;; purge_if_empty g1 a) = Ok (Gng (detach a x (units g)) (edges g) (next g)).
  Proof.
    intros H (u & Hu & E). unfold _zGNGUnitPurgeEdge. rewrite set_unit_ok by (exists u; auto). cbn [bind]. unfold purge_if_empty.
    assert (M : map uid (map (on a (rem x)) (units g)) = map uid (units g)).
    { rewrite map_map. apply map_ext. intros w. unfold on. destruct (_ =? _)%nat; auto. }
    assert (I1 : In (rem x u) (map (on a (rem x)) (units g))).
    { apply in_map_iff. exists u. unfold on. rewrite E, Nat.eqb_refl. auto. }
    pose proof (get_unit_ok (Gng (map (on a (rem x)) (units g)) (edges g) (next g)) (rem x u)) as G. cbn in G.
    rewrite E in G. change (fun u0 => Unit (uid u0) (uv u0) (uerr u0) (remove_first x (eps u0))) with (rem x). rewrite G by (auto; rewrite M; auto).
    cbn [bind]. f_equal. unfold detach.
    destruct (eps (rem x u)) eqn:EE; unfold _zGNGPurgeUnit; cbn [units edges next]; f_equal.
    - apply filter_ext_in. intros w Hw. destruct (Nat.eqb_spec (uid w) a) as [W|W]; auto.
      rewrite (NoDup_map_inj uid _ w (rem x u) ltac:(rewrite M; auto) Hw I1) by (cbn; congruence). now rewrite EE.
    - symmetry. erewrite filter_ext_in; [apply filter_true|]. intros w Hw. cbn. destruct (Nat.eqb_spec (uid w) a) as [W|W]; auto.
      rewrite (NoDup_map_inj uid _ w (rem x u) ltac:(rewrite M; auto) Hw I1) by (cbn; congruence). now rewrite EE.
  Qed.
  Lemma In_detach a x us w : In w (detach a x us) <->
    exists u, In u us /\ ((uid u <> a /\ w = u) \/ (uid u = a /\ remove_first x (eps u) <> [] /\ w = rem x u)).
  Proof.
    unfold detach. rewrite filter_In, in_map_iff. split.
    - intros [(u & E & Hu) K]. exists u. split; auto. unfold on in E. destruct (Nat.eqb_spec (uid u) a) as [W|W].
      + right. split; auto. subst w. cbn in K. rewrite W, Nat.eqb_refl in K. split; auto. intros Z. now rewrite Z in K.
      + left. auto.
    - intros (u & Hu & [(W & ->)|(W & K & ->)]).
      + split; [exists u; split; auto; unfold on; destruct (Nat.eqb_spec (uid u) a); congruence|]. destruct (Nat.eqb_spec (uid u) a); auto; congruence.
      + split; [exists u; split; auto; unfold on; destruct (Nat.eqb_spec (uid u) a); congruence|]. cbn. rewrite W, Nat.eqb_refl. destruct (remove_first x (eps u)); auto.
  Qed.
  Lemma NoDup_detach a x us : NoDup (map uid us) -> NoDup (map uid (detach a x us)).
  Proof.
    intros H. apply NoDup_map_filter. rewrite map_map. erewrite map_ext; [exact H|]. intros w. unfold on. destruct (_ =? _)%nat; auto.
  Qed.
  Lemma purge_eq g e : wired g -> In e (edges g) ->
    _zGNGPurgeEdge g (eid e) = Ok (Gng (detach (eu2 e) (eid e) (detach (eu1 e) (eid e) (units g))) (filter (fun e' => negb (eid e' =? eid e)%nat) (edges g)) (next g)).
  Proof.
    intros W He. unfold _zGNGPurgeEdge. rewrite get_edge_ok by (auto; apply W). cbn [bind].
    destruct (w_ends _ W e He) as (N & L1 & L2).
    rewrite <- bind_assoc, detach_ok by (auto; apply W). cbn [bind].
    rewrite <- bind_assoc, detach_ok; cbn [units].
    - reflexivity.
    - apply NoDup_detach, W.
    - destruct L2 as (u & Hu & E). exists u. split; auto. apply In_detach. exists u. split; auto. left. split; auto. congruence.
  Qed.
  (** a unit left after the removal of an edge *)
  Lemma In_purged (us : list (unit T)) a b x w : a <> b -> In w (detach b x (detach a x us)) ->
    exists u, In u us /\ uid w = uid u /\ uv w = uv u /\ uerr w = uerr u /\
      ((uid u = a \/ uid u = b) /\ eps w = remove_first x (eps u) /\ eps w <> [] \/ (uid u <> a /\ uid u <> b /\ w = u)).
  Proof.
    intros N H. apply In_detach in H. destruct H as (w1 & H & [(N1 & ->)|(N1 & K & ->)]); apply In_detach in H;
    destruct H as (u & Hu & [(N2 & ->)|(N2 & K2 & ->)]); exists u; cbn in *; conjs; auto; try congruence; left; auto.
  Qed.
  Lemma purged_In (us : list (unit T)) a b x u y : a <> b -> In u us -> NoDup (eps u) -> In y (eps u) -> y <> x ->
    exists w, In w (detach b x (detach a x us)) /\ uid w = uid u.
  Proof.
    intros N Hu D Hy Ny.
    assert (K : remove_first x (eps u) <> []).
    { assert (In y (remove_first x (eps u))) by (apply remove_first_In; auto). intros Z. now rewrite Z in H. }
    destruct (Nat.eq_dec (uid u) a) as [A|A].
    - exists (rem x u). split; auto. apply In_detach. exists (rem x u). split; [apply In_detach; exists u; auto|left; cbn; split; congruence].
    - destruct (Nat.eq_dec (uid u) b) as [B|B].
      + exists (rem x u). split; auto. apply In_detach. exists u. split; [apply In_detach; exists u; auto|right; auto].
      + exists u. split; auto. apply In_detach. exists u. split; [apply In_detach; exists u; auto|left; auto].
  Qed.
  Lemma purge_ok g e : wired g -> In e (edges g) -> exists g', _zGNGPurgeEdge g (eid e) = Ok g' /\ wired g' /\ (connected g -> connected g') /\
    edges g' = filter (fun e' => negb (eid e' =? eid e)%nat) (edges g) /\ next g' = next g /\
    (forall w, In w (units g') -> exists u, In u (units g) /\ uid w = uid u /\ uv w = uv u /\ uerr w = uerr u) /\
    (length (units g') <= length (units g))%nat.
  Proof.
    intros W He. rewrite purge_eq by auto. eexists. split; [reflexivity|]. destruct (w_ends _ W e He) as (N & L1 & L2).
    assert (FE : forall e', In e' (filter (fun e' => negb (eid e' =? eid e)%nat) (edges g)) <-> In e' (edges g) /\ eid e' <> eid e).
    { intros e'. rewrite filter_In. destruct (Nat.eqb_spec (eid e') (eid e)); cbn; intuition congruence. }
    split; [|split; [|conjs; cbn; auto]].
    - constructor; cbn [units edges next].
      + apply NoDup_detach, NoDup_detach, W.
      + apply NoDup_map_filter, W.
      + intros w Hw. apply In_purged in Hw; auto. destruct Hw as (u & Hu & E & _). rewrite E. now apply W.
      + intros e' H. apply FE in H. now apply W.
      + intros e' H. apply FE in H. destruct H as [H Ne]. destruct (w_ends _ W e' H) as (N' & (u1 & Hu1 & E1) & (u2 & Hu2 & E2)). split; auto.
        split.
        * destruct (purged_In (units g) (eu1 e) (eu2 e) (eid e) u1 (eid e')) as (w & Hw & E); auto; [now apply W| |exists w; split; auto; congruence].
          apply (w_inc _ W); auto. exists e'. unfold touches. auto.
        * destruct (purged_In (units g) (eu1 e) (eu2 e) (eid e) u2 (eid e')) as (w & Hw & E); auto; [now apply W| |exists w; split; auto; congruence].
          apply (w_inc _ W); auto. exists e'. unfold touches. auto.
      + intros e1 e2 H1 H2. apply FE in H1, H2. apply W; tauto.
      + intros w Hw. apply In_purged in Hw; auto. destruct Hw as (u & Hu & E & _ & _ & [(_ & -> & _)|(_ & _ & ->)]); [apply remove_first_NoDup|]; now apply W.
      + intros w x Hw. apply In_purged in Hw; auto. destruct Hw as (u & Hu & E & _ & _ & [(_ & -> & _)|(N1 & N2 & ->)]).
        * rewrite remove_first_In by now apply W. rewrite (w_inc _ W) by auto. rewrite E. split.
          -- intros [(e' & H1 & H2 & H3) Nx]. exists e'. rewrite FE. conjs; auto. congruence.
          -- intros (e' & H1 & H2 & H3). apply FE in H1. split; [exists e'; tauto|]. destruct H1; congruence.
        * rewrite (w_inc _ W) by auto. split.
          -- intros (e' & H1 & H2 & H3). exists e'. rewrite FE. conjs; auto. intros Z. assert (e' = e) by (eapply NoDup_map_inj; eauto; apply W). subst. destruct H3; congruence.
          -- intros (e' & H1 & H2 & H3). apply FE in H1. exists e'. tauto.
    - intros C w Hw. cbn in Hw. apply In_purged in Hw; auto. destruct Hw as (u & Hu & E & _ & _ & [(_ & _ & K)|(_ & _ & ->)]); auto.
    - intros w Hw. apply In_purged in Hw; auto. destruct Hw as (u & Hu & E & E2 & E3 & _). exists u. auto.
    - unfold detach at 1. etransitivity; [apply filter_length_le|]. rewrite map_length. unfold detach. etransitivity; [apply filter_length_le|]. now rewrite map_length.
  Qed.
End G.
