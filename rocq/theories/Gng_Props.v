(** C56 and C83: growing neural gas. *)
From Coq Require Import Reals ZArith List Bool Lia Lra Floats.
From Verif Require Import Prelude Prelude_Proofs Scalar RealLib Gng_Model Gng_Spec Gng_Proofs Gng2_Proofs Gng3_Proofs Gng4_Proofs.
Import ListNotations.
Local Open Scope R_scope.

(** ** C56: the structure, with any arithmetic in which distances do not overflow *)
Section Structure.
  Context {T : Type} {ST : Scalar T} (dim : nat) (below_huge : T -> bool) (BH : forall d, below_huge d = true).
  Let yes {A} (_ : A) := True.

  (** The first network: as soon as a sample differs from the first one, the two are the units. *)
  Theorem C56_init tol fuel samp : match second_sample dim tol fuel 1 samp (samp 0%nat) with
    | Some i => zVecEqual dim (samp i) (samp 0%nat) tol = false /\
        exists g, zGNGInit dim tol fuel samp = Ok (Some (g, S i)) /\ network g /\ young 0 g /\ map (@uv T) (units g) = [samp 0%nat; samp i]
    | None => zGNGInit dim tol fuel samp = Ok None /\ forall i, (1 <= i <= fuel)%nat -> zVecEqual dim (samp i) (samp 0%nat) tol = true
    end.
  Proof using.
    clear BH below_huge. pose proof (init_ok yes yes dim tol fuel samp ltac:(intros; exact Logic.I) Logic.I) as H.
    assert (K : forall f i, match second_sample dim tol f i samp (samp 0%nat) with
      | Some j => zVecEqual dim (samp j) (samp 0%nat) tol = false
      | None => forall k, (i <= k < i + f)%nat -> zVecEqual dim (samp k) (samp 0%nat) tol = true end).
    { induction f as [|f IH]; intros i; cbn [second_sample]; [intros; lia|]. destruct (zVecEqual dim (samp i) (samp 0%nat) tol) eqn:E; [|auto].
      specialize (IH (S i)). revert IH. destruct (second_sample dim tol f (S i) samp (samp 0%nat)); auto. intros IH k Hk. destruct (Nat.eq_dec k i) as [->|]; auto. apply IH. lia. }
    specialize (K fuel 1%nat). revert H K. destruct (second_sample dim tol fuel 1 samp (samp 0%nat)); intros H K.
    - split; auto. destruct H as (g & H & A & _ & B & C). exists g. auto.
    - split; auto. intros. apply K. lia.
  Qed.

  (** An adaptation keeps the units, and connects the two units found nearest by an edge of age 0. *)
  Theorem C56_adapt p g v : network g -> exists g' e a1 a2, _zGNGAdapt dim below_huge p g v = Ok g' /\ network g' /\ length (units g') = length (units g) /\
    _zGNGFindProximity2 dim below_huge g v = Ok (a1, a2) /\ In e (edges g') /\ joins e a1 a2 /\ age e = 0%Z.
  Proof using BH.
    intros N. destruct (adapt_ok yes yes dim below_huge BH p g v) as (g' & e & H1 & H2 & _ & H3 & H4 & H5 & a1 & a2 & H6 & H7); try (intros; unfold yes; auto).
    - intros u _. split; exact Logic.I.
    - exists g', e, a1, a2. conjs; auto.
  Qed.
  (** The removal of aged edges removes exactly those, and the units left without an edge. *)
  Theorem C56_aged (p : params T) g : wired g -> connected g -> exists g', _zGNGRemoveAgedEdge p g = Ok g' /\ wired g' /\ connected g' /\
    edges g' = filter (fun e => (age e <=? lifetime p)%Z) (edges g) /\
    forall a, live g' a <-> live g a /\ exists e, In e (edges g) /\ touches e a /\ (age e <= lifetime p)%Z.
  Proof using.
    clear BH below_huge dim. intros W C. destruct (aged_ok (lifetime p) (length (edges g)) 0 g) as (g' & R & W' & C' & Ed & _ & U & _); auto; try lia; [cbn; tauto|].
    exists g'. split; [exact R|]. split; [auto|]. split; [auto|]. split; [exact Ed|]. intros a. split.
    - intros (w & Hw & E). split; [destruct (U w Hw) as (u & Hu & E1 & _); exists u; split; auto; congruence|].
      destruct (eps w) as [|x xs] eqn:Ex; [exfalso; now apply (C' w Hw)|]. assert (Hx : In x (eps w)) by (rewrite Ex; now left).
      apply (w_inc _ W') in Hx; auto. destruct Hx as (e & He & _ & Et). rewrite Ed in He. apply filter_In in He. destruct He as [He K]. unfold keep in K. apply Z.leb_le in K.
      exists e. rewrite E in Et. auto.
    - intros (L & e & He & Et & K). assert (I1 : In e (edges g')) by (rewrite Ed; apply filter_In; split; auto; now apply Z.leb_le).
      destruct (w_ends _ W' e I1) as (_ & L1 & L2). destruct Et as [<-|<-]; auto.
  Qed.
  (** The growth adds a unit between the pivot and one of its neighbors, whose edge is replaced by two. *)
  Theorem C56_grow (p : params T) g : network g -> exists g' u1 u2, _zGNGGrow p g = Ok g' /\ network g' /\ length (units g') = S (length (units g)) /\ ~ live g (next g) /\
    _zGNGFindPivot g = Ok u1 /\ In u1 (units g) /\ In u2 (units g) /\ (exists e, In e (edges g) /\ joins e (uid u1) (uid u2)) /\
    forall a b, (exists e, In e (edges g') /\ joins e a b) <->
      ((exists e, In e (edges g) /\ joins e a b) /\ ~ (a = uid u1 /\ b = uid u2) /\ ~ (a = uid u2 /\ b = uid u1)) \/
      ((a = uid u1 \/ a = uid u2) /\ b = next g) \/ ((b = uid u1 \/ b = uid u2) /\ a = next g).
  Proof using.
    clear BH below_huge dim. intros N. destruct (grow_ok yes yes p g) as (g' & u1 & u2 & H1 & H2 & _ & _ & H3 & H4 & _ & H6 & (H7 & H8) & H9); try (intros; unfold yes; auto).
    - intros u _. split; exact Logic.I.
    - exists g', u1, u2. conjs; auto.
      + intros (u & Hu & E). destruct N as (W & _). apply W in Hu. lia.
      + intros a b. rewrite H9. apply or_iff_compat_l. unfold joins. split.
        * intros (e & [->| ->] & J); cbn in J; intuition congruence.
        * intros [([->| ->] & ->)|([->| ->] & ->)].
          -- exists (Edge 0 0 (uid u1) (next g)). cbn. auto.
          -- exists (Edge 0 0 (uid u2) (next g)). cbn. auto.
          -- exists (Edge 0 0 (uid u1) (next g)). cbn. auto.
          -- exists (Edge 0 0 (uid u2) (next g)). cbn. auto.
  Qed.

  (** What the growth does to the units: the error of the pivot and of the neighbor is reduced by the first ratio, the new
      unit is at the middle with the reduced error of the pivot, and then every error is reduced by the second ratio.
      Nothing else changes. *)
  Let from (g g' : gng T) := forall w, In w (units g') -> exists u, In u (units g) /\ uid w = uid u /\ uv w = uv u /\ uerr w = uerr u.
  Lemma from_set g a f g' : (forall u, uid (f u) = uid u /\ uv (f u) = uv u /\ uerr (f u) = uerr u) -> set_unit g a f = Ok g' -> from g g'.
  Proof using.
    intros H. unfold set_unit. destruct (get_unit g a); cbn [bind]; intros E; inversion E. intros w Hw. cbn in Hw. apply in_map_iff in Hw. destruct Hw as (u & <- & Hu). exists u. split; auto.
    destruct (_ =? _)%nat; auto.
  Qed.
  Lemma from_trans g1 g2 g3 : from g1 g2 -> from g2 g3 -> from g1 g3.
  Proof using. intros A B w Hw. destruct (B w Hw) as (u & Hu & E1 & E2 & E3). destruct (A u Hu) as (v & Hv & F1 & F2 & F3). exists v. split; auto. repeat split; congruence. Qed.
  Lemma from_connect g a b g' : _zGNGConnect g a b = Ok g' -> from g g'.
  Proof using.
    unfold _zGNGConnect. destruct (set_unit _ a _) as [g1|] eqn:E1; cbn [bind]; [|discriminate]. intros E2.
    apply (from_trans g g1); [|eapply from_set; [|exact E2]; auto]. apply from_set in E1; auto.
  Qed.
  Lemma from_empty g a g' : purge_if_empty g a = Ok g' -> from g g'.
  Proof using.
    unfold purge_if_empty. destruct (get_unit g a) as [u|]; cbn [bind]; [|discriminate]. intros E; inversion E; subst. intros w Hw. exists w. split; auto. destruct (eps u); auto.
    apply filter_In in Hw. tauto.
  Qed.
  Lemma from_disconnect g a b g' : _zGNGDisconnect g a b = Ok g' -> from g g'.
  Proof using.
    unfold _zGNGDisconnect. destruct (find _ _) as [e|]; [|intros E; inversion E; subst; intros w Hw; exists w; auto].
    unfold _zGNGPurgeEdge. destruct (get_edge g (eid e)) as [e'|]; cbn [bind]; [|discriminate].
    destruct (_zGNGUnitPurgeEdge g _ _) as [g1|] eqn:E1; cbn [bind]; [|discriminate]. destruct (purge_if_empty g1 _) as [g2|] eqn:E2; cbn [bind]; [|discriminate].
    destruct (_zGNGUnitPurgeEdge g2 _ _) as [g3|] eqn:E3; cbn [bind]; [|discriminate]. destruct (purge_if_empty g3 _) as [g4|] eqn:E4; cbn [bind]; [|discriminate].
    intros E; inversion E. apply from_set in E1; auto. apply from_empty in E2. apply from_set in E3; auto. apply from_empty in E4.
    assert (F : from g g4) by (eapply from_trans; [exact E1|]; eapply from_trans; [exact E2|]; eapply from_trans; [exact E3|exact E4]). exact F.
  Qed.
  Theorem C56_grow_values (p : params T) g : network g -> exists g' u1 u2, _zGNGGrow p g = Ok g' /\ _zGNGFindPivot g = Ok u1 /\ In u1 (units g) /\ In u2 (units g) /\ uid u1 <> uid u2 /\
    length (units g') = S (length (units g)) /\ forall w, In w (units g') ->
      (exists u, In u (units g) /\ uid w = uid u /\ uv w = uv u /\
        uerr w = ((if (uid u =? uid u1)%nat || (uid u =? uid u2)%nat then uerr u * ratio1 p else uerr u) * ratio2 p)%S) \/
      (uid w = next g /\ uv w = (fun i => sofZ 1 / sofZ 2 * (uv u1 i + uv u2 i))%S /\ uerr w = (uerr u1 * ratio1 p * ratio2 p)%S).
  Proof using.
    clear BH below_huge dim. intros N. destruct (grow_ok yes yes p g) as (g' & u1 & u2 & H1 & _ & _ & _ & H3 & H4 & H5 & H6 & (H7 & e & He & J) & _); try (intros; unfold yes; auto).
    { intros u _. split; exact Logic.I. }
    assert (N12 : uid u1 <> uid u2). { destruct N as (W & _). destruct (w_ends _ W e He) as (Ne & _). unfold joins in J. intuition congruence. }
    exists g', u1, u2. conjs; auto. revert H1. unfold _zGNGGrow. rewrite H4. cbn [bind]. rewrite H5. cbn [bind].
    destruct (set_unit g _ _) as [g1|] eqn:E1; cbn [bind]; [|discriminate]. destruct (set_unit g1 _ _) as [g2|] eqn:E2; cbn [bind]; [|discriminate].
    destruct (get_unit g2 _) as [u1'|] eqn:E3; cbn [bind]; [|discriminate]. unfold add_unit. set (g3 := Gng (_ ++ _) _ _).
    destruct (_zGNGConnect g3 _ _) as [g4|] eqn:E4; cbn [bind]; [|discriminate]. destruct (_zGNGConnect g4 _ _) as [g5|] eqn:E5; cbn [bind]; [|discriminate].
    destruct (_zGNGDisconnect g5 _ _) as [g6|] eqn:E6; cbn [bind]; [|discriminate]. intros E; inversion E. cbn [units]. intros w Hw. apply in_map_iff in Hw. destruct Hw as (w' & <- & Hw).
    apply from_connect in E4, E5. apply from_disconnect in E6. destruct (from_trans _ _ _ (from_trans _ _ _ E4 E5) E6 w' Hw) as (u & Hu & F1 & F2 & F3). cbn [set_err uid uv uerr].
    assert (K : next g2 = next g /\ forall u, In u (units g2) -> exists u0, In u0 (units g) /\ uid u = uid u0 /\ uv u = uv u0 /\
      uerr u = (if (uid u0 =? uid u1)%nat || (uid u0 =? uid u2)%nat then uerr u0 * ratio1 p else uerr u0)%S).
    { unfold set_unit in E1, E2. destruct (get_unit g _); cbn [bind] in E1; inversion E1; subst g1. destruct (get_unit _ (uid u2)); cbn [bind] in E2; inversion E2. split; auto. cbn [units].
      intros v Hv. apply in_map_iff in Hv. destruct Hv as (v1 & <- & Hv). apply in_map_iff in Hv. destruct Hv as (v0 & <- & Hv). exists v0. split; auto.
      destruct (Nat.eqb_spec (uid v0) (uid u1)); cbn [orb set_err uid uv uerr].
      - destruct (Nat.eqb_spec (uid v0) (uid u2)); [congruence|]. auto.
      - destruct (Nat.eqb_spec (uid v0) (uid u2)); cbn; auto. }
    destruct K as (K0 & K). subst g3. cbn [units] in Hu. apply in_app_iff in Hu. destruct Hu as [Hu|[<-|[]]].
    - left. destruct (K u Hu) as (u0 & Hu0 & G1 & G2 & G3). exists u0. split; auto. split; [congruence|]. split; [congruence|]. rewrite F3, G3. reflexivity.
    - right. cbn [uid uv uerr] in F1, F2, F3. split; [congruence|]. split; [exact F2|]. rewrite F3. apply get_unit_inv in E3. destruct E3 as (Hu & Eu).
      destruct (K u1' Hu) as (u0 & Hu0 & G1 & G2 & G3). assert (u0 = u1) as ->.
      { destruct N as (W & _). pose proof (get_unit_ok g u0 (w_units _ W) Hu0) as A. pose proof (get_unit_ok g u1 (w_units _ W) H6) as B. congruence. }
      rewrite G3, Nat.eqb_refl. reflexivity.
  Qed.

  (** a history: updates, the parameters and the samples of each *)
  Definition history (h : list (params T * (nat -> @vec T))) (g : gng T) : res (gng T) := foreach_ h (fun '(p, samp) g => zGNGUpdate dim below_huge p g samp) g.
  Theorem C56_history h g : network g -> Forall (fun '(p, _) => (0 <= lifetime p)%Z) h ->
    exists g', history h g = Ok g' /\ network g' /\ (length (units g') <= length (units g) + length h)%nat.
  Proof using BH.
    unfold history. revert g. induction h as [|[p samp] h IH]; intros g N F; [exists g; cbn; split; [auto|split; [auto|lia]]|].
    inversion F; subst. cbn [foreach_].
    destruct (update_ok yes yes dim below_huge BH p g samp) as (g1 & -> & N1 & _ & _ & L1); auto; try (intros; unfold yes; auto).
    { intros u _. split; exact Logic.I. }
    cbn [bind]. destruct (IH g1 N1 H2) as (g' & -> & N' & L'). exists g'. split; auto. split; auto. cbn [length]. lia.
  Qed.
  (** no edge is older than the lifetime after an update with a sample *)
  Theorem C56_ages p g samp : network g -> (0 <= lifetime p)%Z -> (0 < batch p)%nat -> exists g', zGNGUpdate dim below_huge p g samp = Ok g' /\ network g' /\ young (lifetime p) g'.
  Proof using BH.
    intros N L B. destruct (update_ok yes yes dim below_huge BH p g samp) as (g1 & H1 & N1 & _ & Y & _); auto; try (intros; unfold yes; auto).
    { intros u _. split; exact Logic.I. }
    exists g1. conjs; auto.
  Qed.
  (** Nothing is left after the destruction. *)
  Theorem C56_destroy (g : gng T) : network g -> exists n, zGNGDestroy g = Ok (Gng [] [] n).
  Proof using. intros (W & C & _). unfold zGNGDestroy. now apply destroy_loop_ok. Qed.
End Structure.

(** ** C83: the values, over the reals *)
Section Values.
  Context (dim : nat) (below_huge : R -> bool) (BH : forall d, below_huge d = true).
  (** the two units found are the nearest and the second nearest *)
  Theorem C83_nearest g v : network g -> exists w1 w2, _zGNGFindProximity2 dim below_huge g v = Ok (uid w1, uid w2) /\ In w1 (units g) /\ In w2 (units g) /\ uid w1 <> uid w2 /\
    (forall u, In u (units g) -> zVecSqrDist dim v (uv w1) <= zVecSqrDist dim v (uv u)) /\
    (forall u, In u (units g) -> u <> w1 -> zVecSqrDist dim v (uv w2) <= zVecSqrDist dim v (uv u)).
  Proof using BH.
    intros (W & _ & L & _). destruct (prox_min dim below_huge BH v g) as (w1 & w2 & H & I1 & I2 & M1 & M2 & _); [apply W|auto|].
    exists w1, w2. conjs; auto. destruct (prox_ok dim below_huge BH g v) as (a1 & a2 & H' & Na & _); [apply W|auto|]. congruence.
  Qed.
  (** the pivot of the growth has the greatest error *)
  Theorem C83_pivot (g : gng R) : network g -> exists u, _zGNGFindPivot g = Ok u /\ In u (units g) /\ forall w, In w (units g) -> uerr w <= uerr u.
  Proof using.
    intros (_ & _ & L & _). destruct (pivot_ok g) as (u & H & Hu); [intros Z; rewrite Z in L; cbn in L; lia|]. exists u. conjs; auto. now apply pivot_max.
  Qed.
  (** units stay in a box that holds the samples; errors are not negative *)
  Definition in_box (lo hi : nat -> R) (v : nat -> R) : Prop := forall i, (i < dim)%nat -> lo i <= v i <= hi i.
  Definition fair (p : params R) : Prop := (0 <= lifetime p)%Z /\ 0 <= coeff1 p <= 1 /\ 0 <= coeffn p <= 1 /\ 0 <= ratio1 p /\ 0 <= ratio2 p.
  Theorem C83_box lo hi h tol fuel samp0 g n : (forall i, in_box lo hi (samp0 i)) -> zGNGInit dim tol fuel samp0 = Ok (Some (g, n)) ->
    Forall (fun '(p, samp) => fair p /\ forall i, in_box lo hi (samp i)) h ->
    exists g', history dim below_huge h g = Ok g' /\ network g' /\ forall u, In u (units g') -> in_box lo hi (uv u) /\ 0 <= uerr u.
  Proof using BH.
    intros B0 I0 F.
    assert (K : network g /\ vals (in_box lo hi) (fun e => 0 <= e) g).
    { pose proof (init_ok (in_box lo hi) (fun e => 0 <= e) dim tol fuel samp0 B0 (Rle_refl 0)) as H. destruct (second_sample dim tol fuel 1 samp0 (samp0 0%nat)); [|congruence].
      destruct H as (g0 & H & A & B & _). rewrite H in I0. injection I0 as <- _. auto. }
    destruct K as [N V]. clear I0. revert g N V. unfold history. induction h as [|[p samp] h IH]; intros g N V; [exists g; cbn; auto|].
    inversion F as [|x l B F']; subst. destruct B as ((L & C1 & Cn & R1 & R2) & B). cbn [foreach_].
    destruct (update_ok (in_box lo hi) (fun e => 0 <= e) dim below_huge BH p g samp) as (g1 & -> & N1 & V1 & _); auto.
    - intros i w Hw. split; intros k Hk; unfold zVecInterDivDRC; rs; apply interdiv_box; auto; now apply B.
    - intros a b Ha Hb k Hk. unfold zVecMid. rs. specialize (Ha k Hk). specialize (Hb k Hk). lra.
    - intros i w x _ Hx. rs. pose proof (sqrdist_nonneg dim w (samp i)). lra.
    - intros x Hx. rs. apply Rmult_le_pos; lra.
    - intros x Hx. rs. apply Rmult_le_pos; lra.
    - cbn [bind]. apply IH; auto.
  Qed.
  (** the default parameters are such *)
  Theorem C83_default : fair (@default_params R RealS).
  Proof using. unfold fair, default_params. cbn. split; [lia|]. unfold sofZ; cbn. repeat split; lra. Qed.
End Values.

(** ** distances that overflow, and a negative lifetime *)
Definition below (d : float) : bool := PrimFloat.ltb d infinity.
Definition pt (x : float) : nat -> float := fun _ => x.
Definition after (p : params float) (samp : nat -> nat -> float) (n : nat) : option (list (nat * nat) * list (nat * list nat)) :=
  match zGNGInit 1 0x1p-40%float 3 (fun i => match i with O => pt 0 | _ => pt 1 end)%float with
  | Ok (Some (g, _)) => match for_ 0 n (fun k g => zGNGUpdate 1 below p g (fun i => pt (samp k i))) g with
    | Ok g => Some (map (fun e => (eu1 e, eu2 e)) (edges g), map (fun u => (uid u, eps u)) (units g))
    | UB => None
    end
  | _ => None
  end.
Definition par b lt : params float := Params b lt 0.25%float 0x1p-7%float 0.5%float 0x1.fp-1%float.
(** samples far away: a unit connected to itself *)
Theorem C56_overflow_refuted : after (par 1 50) (fun _ _ => 0x1p+700%float) 2 = Some ([(0, 1); (0, 4); (0, 0); (4, 8); (0, 8)]%nat, [(0, [2; 6; 7; 7; 10]); (1, [2]); (4, [6; 9]); (8, [9; 10])]%nat).
Proof. vm_compute. reflexivity. Qed.
(** a negative lifetime: all units are removed, and the next step reads the root of the list as a unit *)
Theorem C56_lifetime_refuted : after (par 1 (-1)) (fun _ _ => 1%float) 1 = None /\ after (par 0 (-1)) (fun _ _ => 1%float) 1 <> None.
Proof. split; [vm_compute; reflexivity|vm_compute; discriminate]. Qed.

(** ** a run *)
Example C56_ex_run : after (par 3 50) (fun k i => match i with O => 0.25 | S O => 0.5 | _ => 1 end)%float 2 =
  Some ([(1, 3); (3, 6); (0, 6)]%nat, [(0, [8]); (1, [5]); (3, [5; 7]); (6, [7; 8])]%nat).
Proof. vm_compute. reflexivity. Qed.
(** edges age and units vanish: unit 0 is left behind *)
Example C56_ex_age : after (par 1 0) (fun k i => match k with O => 0 | _ => 0.625 end)%float 2 = Some ([(3, 6); (1, 6)]%nat, [(1, [8]); (3, [7]); (6, [7; 8])]%nat).
Proof. vm_compute. reflexivity. Qed.
(** the hypotheses of the theorems hold from the first network on *)
Example C56_ex_network : exists g, network g /\ zGNGInit 1 0 1 (fun i (_ : nat) => INR i) = Ok (Some (g, 2%nat)) /\ fair (Params 3 1 (1/5) (1/10) (1/2) (9/10)).
Proof.
  pose proof (C56_init (T := R) 1 0 1 (fun i (_ : nat) => INR i)) as H.
  assert (E : zVecEqual 1 (fun _ : nat => INR 1) (fun _ => INR 0) 0 = false).
  { cbn [zVecEqual forallb List.seq]. unfold Complex_Model.zEqual. rs. rewrite andb_true_r. unfold is_tol. rs. cbn [INR]. match goal with |- Rleb ?a ?b = _ => destruct (Rleb_spec a b) as [r|r]; auto end.
    rewrite Rmult_0_l in r. pose proof (Rle_abs (1 - 0)). lra. }
  cbn [second_sample] in H. cbv beta in H. rewrite E in H. destruct H as (_ & g & H & N & _). exists g. split; [auto|]. split; [exact H|].
  unfold fair. cbn. split; [lia|]. lra.
Qed.

Print Assumptions C56_init.
Print Assumptions C56_adapt.
Print Assumptions C56_aged.
Print Assumptions C56_grow.
Print Assumptions C56_grow_values.
Print Assumptions C56_history.
Print Assumptions C56_ages.
Print Assumptions C56_destroy.
Print Assumptions C56_overflow_refuted.
Print Assumptions C56_lifetime_refuted.
Print Assumptions C83_nearest.
Print Assumptions C83_pivot.
Print Assumptions C83_box.
Print Assumptions C83_default.
