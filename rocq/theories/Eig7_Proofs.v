(** The Householder LQ decomposition. *)
From Coq Require Import Reals Lra Lia Psatz.
From Verif Require Import Prelude Prelude_Proofs Scalar RealLib Fmat Fmat_Proofs LE_Model IP_Model Vop Qp_Spec Qp_Proofs
  Stat_Model Stat_Proofs Eig_Model Eig_Spec Eig_Proofs Eig2_Proofs Eig3_Proofs Eig4_Proofs Eig5_Proofs.
Local Open Scope R_scope.

(** *** a reflection *)
Section Reflect.
  Variables (p : nat) (w : nat -> R) (c : R) (Q : nat -> nat -> R).
  Hypothesis (HC : c * rsum p (fun s => w s ^ 2) = 2).
  Definition gw k := rsum p (fun s => Q s k * w s).
  Definition refl a k := Q a k - c * gw k * w a.
  Lemma refl_row x k : rsum p (fun b => (x b - c * rsum p (fun s => x s * w s) * w b) * refl b k) = rsum p (fun b => x b * Q b k).
  Proof.
    set (d := rsum p (fun s => x s * w s)). unfold refl.
    rewrite (rsum_ext p _ (fun b => x b * Q b k - c * gw k * (x b * w b) - c * d * (Q b k * w b) + c * d * gw k * c * (w b ^ 2))) by (intros; ring).
    rewrite rsum_add, !rsum_sub, !rsum_scal. fold d. fold (gw k).
    replace (c * d * gw k * c * rsum p (fun i => w i ^ 2)) with (c * d * gw k * (c * rsum p (fun i => w i ^ 2))) by ring. rewrite HC. ring.
  Qed.
  Lemma refl_cols : orthonormal_cols p p Q -> orthonormal_cols p p refl.
  Proof.
    intros O a b Ha Hb. rewrite <- (O a b Ha Hb). unfold cdot, refl.
    rewrite (rsum_ext p _ (fun s => Q s a * Q s b - c * gw b * (Q s a * w s) - c * gw a * (Q s b * w s) + c * gw a * gw b * c * (w s ^ 2))) by (intros; ring).
    rewrite rsum_add, !rsum_sub, !rsum_scal. fold (gw a). fold (gw b).
    replace (c * gw a * gw b * c * rsum p (fun i => w i ^ 2)) with (c * gw a * gw b * (c * rsum p (fun i => w i ^ 2))) by ring. rewrite HC. ring.
  Qed.
  Lemma gw_row a : (a < p)%nat -> orthonormal_rows p p Q -> rsum p (fun k => Q a k * gw k) = w a.
  Proof.
    intros Ha O. unfold gw. rewrite (rsum_ext p _ (fun k => rsum p (fun s => w s * (Q a k * Q s k)))) by (intros; rewrite <- rsum_scal; apply rsum_ext; intros; ring).
    rewrite rsum_swap. rewrite (rsum_ext p _ (fun s => w s * delta a s)); [apply delta_sum; auto|].
    intros s Hs. rewrite rsum_scal. f_equal. apply (O a s); auto.
  Qed.
  Lemma gw_norm : orthonormal_rows p p Q -> rsum p (fun k => gw k ^ 2) = rsum p (fun s => w s ^ 2).
  Proof.
    intros O. rewrite (rsum_ext p _ (fun k => rsum p (fun s => w s * (Q s k * gw k)))).
    2:{ intros k Hk. unfold gw at 1. replace (rsum p (fun s => Q s k * w s) ^ 2) with (rsum p (fun s => Q s k * w s) * gw k) by (unfold gw; ring).
        rewrite <- rsum_scal_r. apply rsum_ext. intros; ring. }
    rewrite rsum_swap. apply rsum_ext. intros s Hs. rewrite rsum_scal, gw_row by auto. ring.
  Qed.
  Lemma refl_rows : orthonormal_rows p p Q -> orthonormal_rows p p refl.
  Proof.
    intros O a b Ha Hb. rewrite <- (O a b Ha Hb). unfold rdot, refl.
    rewrite (rsum_ext p _ (fun k => Q a k * Q b k - c * w b * (Q a k * gw k) - c * w a * (Q b k * gw k) + c * w a * w b * c * (gw k ^ 2))) by (intros; ring).
    rewrite rsum_add, !rsum_sub, !rsum_scal, !gw_row, gw_norm by auto.
    replace (c * w a * w b * c * rsum p (fun i => w i ^ 2)) with (c * w a * w b * (c * rsum p (fun i => w i ^ 2))) by ring. rewrite HC. ring.
  Qed.
End Reflect.
Lemma rsum_tail p i (f : nat -> R) : (i <= p)%nat -> rsum (p - i) (fun k => f (i + k)%nat) = rsum p (fun b => if (i <=? b)%nat then f b else 0).
Proof.
  intros H. transitivity (rsum (i + (p - i)) (fun b => if (i <=? b)%nat then f b else 0)); [|f_equal; lia].
  rewrite rsum_app. rewrite (rsum_0 i) by (intros; nbp). rewrite Rplus_0_l. apply rsum_ext. intros k Hk. nbp.
Qed.

Section HH.
  Variables (n p : nat) (M : fmat R) (tol : R).
  Hypotheses (Rm : nr M = n) (Cm : nc M = p) (Ht : 0 <= tol).
  Definition exact_row (m q : fmat R) a := forall k, (k < p)%nat -> el M a k = rsum p (fun b => el m a b * el q b k).
  Definition done_row (m q : fmat R) a := (forall b, (a < b < p)%nat -> el m a b = 0) /\ exact_row m q a /\ tol < Rabs (el m a a).
  Definition skipped_row (m q : fmat R) a :=
    rsum p (fun b => if (a <=? b)%nat then el m a b ^ 2 else 0) <= tol ^ 2 /\
    rsum p (fun k => (el M a k - rsum a (fun b => el m a b * el q b k)) ^ 2) <= tol ^ 2.
  Definition hinv (i : nat) (m q : fmat R) (rank : nat) : Prop :=
    nr m = n /\ nc m = p /\ nr q = p /\ nc q = p /\ orthogonal p (el q) /\ (rank <= i)%nat /\
    (forall a, (i <= a < n)%nat -> exact_row m q a) /\
    (forall a, (a < i)%nat -> done_row m q a \/ skipped_row m q a) /\
    (rank = i -> forall a, (a < i)%nat -> done_row m q a).

  Lemma hh_ok q0 : nr q0 = p -> nc q0 = p ->
    exists m q rank, _zMatDecompLQ_Householder_DST tol M q0 = Ok (m, q, rank) /\ hinv (Nat.min n p) m q rank.
  Proof.
    intros Q1 Q2. unfold _zMatDecompLQ_Householder_DST. cbn [nr nc]. rewrite Rm, Cm, Q1, Q2, !Nat.eqb_refl. cbn [negb andb].
    match goal with |- context [for_ 0 (Nat.min n p) ?g ?s0] =>
      destruct (for_inv (fun i (s : fmat R * fmat R * nat) => let '(m, q, rank) := s in hinv i m q rank) 0 (Nat.min n p) g s0) as (((m & q) & rank) & E & P) end.
    - lia.
    - assert (ID : forall a b, (if (a =? b)%nat then 1 else 0) = delta a b) by reflexivity.
      unfold hinv. cbn [nr nc el]. conjs; auto; try (intros; lia).
      + split; intros a b Ha Hb; unfold cdot, rdot.
        * rewrite <- (delta_sum p a (fun k => delta k b) Ha). apply rsum_ext. intros k Hk. rs. rewrite (delta_sym a k). unfold delta. ring.
        * rewrite (delta_sym a b). rewrite <- (delta_sum p a (fun k => delta b k) Ha). apply rsum_ext. intros k Hk. rs. unfold delta. ring.
      + intros a Ha k Hk. cbn [el]. rewrite <- (delta_sum p k (fun b => el M a b) Hk). apply rsum_ext. intros b Hb. rewrite delta_sym. reflexivity.
    - intros i ((m & q) & rank) Hi (A1 & A2 & A3 & A4 & A5 & A6 & A7 & A8 & A9).
      rewrite mget_ok by lia. cbn [bind]. rewrite ?A2, ?A3, ?A4, ?A1.
      set (x := el m i i). rewrite ksum_R.
      set (N2 := rsum (p - i) (fun k => el m i (i + k) * el m i (i + k))%S).
      assert (EN : N2 = rsum p (fun b => if (i <=? b)%nat then el m i b ^ 2 else 0)).
      { unfold N2. rewrite <- (rsum_tail p i (fun b => el m i b ^ 2)) by lia. apply rsum_ext. intros; rs; ring. }
      assert (PN : 0 <= N2) by (rewrite EN; apply rsum_nonneg; intros; destruct (_ <=? _)%nat; [apply pow2_ge_0|lra]).
      assert (XN : x ^ 2 <= N2).
      { rewrite EN. rewrite (rsum_pick p i) by lia. rewrite Nat.leb_refl. fold x.
        assert (0 <= rsum p (fun a => if (a =? i)%nat then 0 else if (i <=? a)%nat then el m i a ^ 2 else 0)); [|lra].
        apply rsum_nonneg. intros a Ha. destruct (_ =? _)%nat; [lra|]. destruct (_ <=? _)%nat; [apply pow2_ge_0|lra]. }
      clearbody N2. rs.
      set (sg := sgn x). assert (SG : (sg = 1 /\ 0 <= x) \/ (sg = -1 /\ x < 0)).
      { unfold sg, sgn. cbn [sle RealS s0 s1 sopp]. destruct (Rleb_spec 0 x); [left; auto|right; lra]. }
      set (s := - sg * R_sqrt.sqrt N2). set (ds := s - x).
      assert (S2 : s ^ 2 = N2) by (unfold s; pose proof (Rsqr_sqrt N2 PN) as Q; unfold Rsqr in Q; destruct SG as [(-> & _)|(-> & _)]; nra).
      assert (AS : Rabs s = R_sqrt.sqrt N2).
      { pose proof (sqrt_pos N2). unfold s. destruct SG as [(-> & _)|(-> & _)];
          [rewrite <- Rabs_Ropp|]; match goal with |- Rabs ?e = _ => replace e with (R_sqrt.sqrt N2) by ring end; apply Rabs_right; lra. }
      assert (DS : Rabs s <= Rabs ds).
      { pose proof (sqrt_pos N2). unfold ds, s. destruct SG as [(-> & SX)|(-> & SX)].
        - rewrite !(Rabs_left1 _) by lra. lra.
        - rewrite !(Rabs_right _) by lra. lra. }
      destruct (Rleb_spec (Rabs s) tol) as [T|T].
      + (* skipped *)
        eexists. split; [reflexivity|]. unfold hinv. conjs; auto.
        * intros a Ha. apply A7. lia.
        * intros a Ha. destruct (Nat.eq_dec a i) as [->|Na]; [right|apply A8; lia].
          assert (NT : N2 <= tol ^ 2).
          { rewrite <- S2. rewrite <- (Rabs_right (s ^ 2)) by (apply Rle_ge, pow2_ge_0). rewrite <- RPow_abs. apply pow_incr. split; [apply Rabs_pos|auto]. }
          split; [rewrite <- EN; exact NT|].
          assert (RW : forall k, (k < p)%nat -> el M i k - rsum i (fun b => el m i b * el q b k) = rsum p (fun b => el q b k * (if (i <=? b)%nat then el m i b else 0))).
          { intros k Hk. rewrite (A7 i ltac:(lia) k Hk).
            rewrite (rsum_ext p (fun b => el q b k * _) (fun b => if (i <=? b)%nat then el m i b * el q b k else 0)) by (intros b Hb; destruct (_ <=? _)%nat; ring).
            rewrite <- (rsum_tail p i (fun b => el m i b * el q b k)) by lia.
            replace (rsum p (fun b => el m i b * el q b k)) with (rsum (i + (p - i)) (fun b => el m i b * el q b k)) by (f_equal; lia).
            rewrite rsum_app. ring. }
          rewrite (rsum_ext p _ (fun k => rsum p (fun b => el q b k * (if (i <=? b)%nat then el m i b else 0)) ^ 2)) by (intros k Hk; rewrite RW by auto; reflexivity).
          destruct A5 as (_ & OR).
          rewrite (isom p p (fun k b => el q b k) (fun b => if (i <=? b)%nat then el m i b else 0)) by (intros a b Ha' Hb'; apply (OR a b Ha' Hb')).
          rewrite (rsum_ext p _ (fun b => if (i <=? b)%nat then el m i b ^ 2 else 0)) by (intros b Hb; destruct (_ <=? _)%nat; ring).
          rewrite <- EN. exact NT.
        * intros; lia.
      + apply Rnot_le_lt in T.
        destruct (Rleb_spec (Rabs ds) tol) as [T2|T2]; [lra|]. clear T2.
        rewrite mset_ok by lia. cbn [bind nr nc el].
        assert (S0 : s <> 0) by (intros Q; rewrite Q, Rabs_R0 in T; lra).
        assert (D0 : ds <> 0) by (intros Q; rewrite Q, Rabs_R0 in DS; lra).
        set (c := 1 / (s * ds)).
        set (w := fun b => if (i <=? b)%nat then (if (b =? i)%nat then - ds else el m i b) else 0).
        assert (WA : forall a, (i <= a)%nat -> w a = if (a =? i)%nat then - ds else el m i a) by (intros a Ha; unfold w; nbp).
        assert (W0 : forall a, (a < i)%nat -> w a = 0) by (intros a Ha; unfold w; nbp).
        assert (WN : rsum p (fun b => w b ^ 2) = 2 * (s * ds)).
        { rewrite (rsum_pick p i) by lia. rewrite (rsum_pick p i) in EN by lia. rewrite Nat.leb_refl in EN. fold x in EN.
          rewrite (rsum_ext p _ (fun a => if (a =? i)%nat then 0 else if (i <=? a)%nat then el m i a ^ 2 else 0)).
          - unfold w at 1. rewrite Nat.leb_refl, Nat.eqb_refl. unfold ds. nra.
          - intros a Ha. unfold w. destruct (a =? i)%nat; [reflexivity|]. destruct (_ <=? _)%nat; ring. }
        assert (CW : c * rsum p (fun b => w b ^ 2) = 2) by (rewrite WN; unfold c; field; auto).
        assert (UW : forall f, rsum (p - i) (fun k => f (i + k)%nat * (if (i =? i)%nat && (i + k =? i)%nat then - ds else el m i (i + k))) = rsum p (fun b => f b * w b)).
        { intros f. rewrite (rsum_tail p i (fun b => f b * (if (i =? i)%nat && (b =? i)%nat then - ds else el m i b))) by lia.
          apply rsum_ext. intros b Hb. unfold w. rewrite Nat.eqb_refl. cbn [andb]. destruct (_ <=? _)%nat; ring. }
        (* the loop on the columns of q *)
        match goal with |- context [for_ 0 p ?g q] =>
          destruct (for_inv (fun j q' => nr q' = p /\ nc q' = p /\ forall a b, el q' a b = if (b <? j)%nat && (i <=? a)%nat then refl p w c (el q) a b else el q a b) 0 p g q) as (q' & EQ & B1 & B2 & B3) end.
        { lia. } { conjs; auto. }
        { intros j q1 Hj (B1 & B2 & B3). rewrite B1, B2. eexists. split; [reflexivity|]. cbn [nr nc el]. conjs; auto.
          rewrite ksum_R. rs. rewrite (UW (fun b => el q1 b j)).
          rewrite (rsum_ext p _ (fun b => el q b j * w b)).
          2:{ intros b Hb. rewrite B3. replace ((j <? j)%nat) with false by (symmetry; apply Nat.ltb_irrefl). reflexivity. }
          intros a b. rewrite !B3. fold (gw p w (el q) j). unfold refl. rewrite Nat.eqb_refl. cbn [andb].
          destruct (Nat.leb_spec i a); cbn [andb]; rewrite ?Bool.andb_true_r, ?Bool.andb_false_r; [|reflexivity].
          destruct (Nat.eqb_spec b j) as [->|Nb].
          - rewrite Nat.ltb_irrefl. replace (j <? S j)%nat with true by (symmetry; apply Nat.ltb_lt; lia). rewrite (WA a) by auto. ring.
          - replace (b <? S j)%nat with (b <? j)%nat by nbp. reflexivity. }
        rewrite EQ. cbn [bind nr nc]. clear EQ. rewrite ?A1, ?A2.
        match goal with |- context [for_downto (S i) n ?g ?m1] =>
          destruct (for_downto_inv (fun j m' => nr m' = n /\ nc m' = p /\ forall a b, el m' a b =
             if (j <=? a)%nat && (a <? n)%nat && (i <=? b)%nat then el m a b - c * rsum p (fun s => el m a s * w s) * w b else el m1 a b) (S i) n g m1) as (m' & EM & C1 & C2 & C3) end.
        { lia. }
        { cbn [nr nc el]. conjs; auto. intros a b. replace ((n <=? a)%nat && (a <? n)%nat && (i <=? b)%nat) with false; [reflexivity|]. symmetry. nbp. }
        { intros j m1 Hj (C1 & C2 & C3). rewrite C1, C2. eexists. split; [reflexivity|]. cbn [nr nc el] in C3 |- *. conjs; auto.
          rewrite ksum_R. rs. rewrite (UW (fun b => el m1 j b)).
          rewrite (rsum_ext p _ (fun b => el m j b * w b)).
          2:{ intros b Hb. rewrite C3. replace (S j <=? j)%nat with false by (symmetry; apply Nat.leb_gt; lia). replace (j =? i)%nat with false by (symmetry; apply Nat.eqb_neq; lia). reflexivity. }
          intros a b. rewrite !C3. rewrite Nat.eqb_refl. cbn [andb].
          destruct (Nat.eqb_spec a j) as [->|Na]; cbn [andb].
          - rewrite Nat.leb_refl. replace (S j <=? j)%nat with false by (symmetry; apply Nat.leb_gt; lia). replace (j =? i)%nat with false by (symmetry; apply Nat.eqb_neq; lia).
            replace (j <? n)%nat with true by (symmetry; apply Nat.ltb_lt; lia). cbn [andb]. destruct (Nat.leb_spec i b); [|reflexivity].
            rewrite (WA b) by auto. ring.
          - replace (S j <=? a)%nat with (j <=? a)%nat by nbp. reflexivity. }
        rewrite EM. cbn [bind]. rewrite C1, C2. clear EM. eexists. split; [reflexivity|].
        cbn [nr nc el] in C3.
        assert (QR : forall a b, el q' a b = if (b <? p)%nat then refl p w c (el q) a b else el q a b).
        { intros a b. rewrite B3. destruct (b <? p)%nat; [|reflexivity]. cbn [andb]. destruct (Nat.leb_spec i a); [reflexivity|].
          unfold refl, w. replace (i <=? a)%nat with false by (symmetry; apply Nat.leb_gt; auto). ring. }
        assert (QL : forall a b, (a < i)%nat -> el q' a b = el q a b) by (intros a b Ha; rewrite B3; nbp).
        set (m'' := FM n p (fun a b => if (a =? i)%nat && (i <=? b)%nat then (if (b =? i)%nat then s else 0) else el m' a b)).
        assert (ML : forall a b, (a < i)%nat -> el m'' a b = el m a b) by (intros a b Ha; unfold m''; cbn [el]; rewrite C3; nbp).
        assert (MI : forall b, (b < i)%nat -> el m'' i b = el m i b) by (intros b Hb; unfold m''; cbn [el]; rewrite C3; nbp).
        assert (MII : el m'' i i = s) by (unfold m''; cbn [el]; rewrite Nat.eqb_refl, Nat.leb_refl; reflexivity).
        assert (MIR : forall b, (i < b)%nat -> el m'' i b = 0) by (intros b Hb; unfold m''; cbn [el]; nbp).
        assert (MG : forall a b, (i < a < n)%nat -> el m'' a b = el m a b - c * rsum p (fun s => el m a s * w s) * w b).
        { intros a b Ha. unfold m''. cbn [el]. rewrite C3. replace (a =? i)%nat with false by (symmetry; apply Nat.eqb_neq; lia). cbn [andb].
          replace (S i <=? a)%nat with true by (symmetry; apply Nat.leb_le; lia). replace (a <? n)%nat with true by (symmetry; apply Nat.ltb_lt; lia). cbn [andb].
          destruct (Nat.leb_spec i b) as [|L]; [reflexivity|]. rewrite (W0 b) by auto. ring. }
        assert (DW : rsum p (fun s => el m i s * w s) = s * ds).
        { rewrite (rsum_ext p _ (fun b => (if (i <=? b)%nat then el m i b ^ 2 else 0) + (if (b =? i)%nat then - ds * x - x ^ 2 else 0))).
          - rewrite rsum_add, <- EN. rewrite (rsum_delta p i); [|lia|intros b _ Nb; nbp]. rewrite Nat.eqb_refl, <- S2. unfold ds. ring.
          - intros b Hb. unfold w. destruct (Nat.eqb_spec b i) as [->|Nb]; [rewrite Nat.leb_refl; fold x; ring|]. destruct (_ <=? _)%nat; ring. }
        assert (MX : forall b, el m'' i b = el m i b - c * rsum p (fun s => el m i s * w s) * w b).
        { intros b. rewrite DW. replace (c * (s * ds)) with 1 by (unfold c; field; auto). unfold w.
          destruct (Nat.leb_spec i b) as [L|L]; [|rewrite MI by auto; ring].
          destruct (Nat.eqb_spec b i) as [->|Nb]; [rewrite MII; fold x; unfold ds; ring|rewrite MIR by lia; ring]. }
        assert (EX : forall a, (i <= a < n)%nat -> exact_row m'' q' a).
        { intros a Ha k Hk. rewrite (A7 a Ha k Hk). rewrite <- (refl_row p w c (el q) CW (el m a) k). apply rsum_ext. intros b Hb.
          rewrite QR. replace (k <? p)%nat with true by (symmetry; apply Nat.ltb_lt; auto).
          destruct (Nat.eq_dec a i) as [->|Na]; [rewrite MX|rewrite MG by lia]; reflexivity. }
        assert (KEEP : forall a, (a < i)%nat -> done_row m q a -> done_row m'' q' a).
        { intros a Ha (K1 & K2 & K3). split; [intros b Hb; rewrite ML by auto; auto|split; [|rewrite ML by auto; exact K3]].
          intros k Hk. rewrite (K2 k Hk). apply rsum_ext. intros b Hb. rewrite ML by auto.
          destruct (Nat.le_gt_cases i b) as [L|L]; [rewrite K1 by lia; ring|]. rewrite QL by auto. reflexivity. }
        assert (NEW : done_row m'' q' i).
        { split; [intros b Hb; apply MIR; lia|split; [apply EX; lia|rewrite MII; exact T]]. }
        unfold hinv. conjs; auto.
        * cbn [nr]. auto.
        * destruct A5 as (OC & OR). split.
          -- intros a b Ha Hb. rewrite <- (refl_cols p w c (el q) CW OC a b Ha Hb). apply rsum_ext. intros k Hk. rewrite !QR. nbp.
          -- intros a b Ha Hb. rewrite <- (refl_rows p w c (el q) CW OR a b Ha Hb). apply rsum_ext. intros k Hk. rewrite !QR. nbp.
        * lia.
        * intros a Ha. apply EX. lia.
        * intros a Ha. destruct (Nat.eq_dec a i) as [->|Na]; [left; exact NEW|].
          destruct (A8 a ltac:(lia)) as [K|(K1 & K2)]; [left; apply KEEP; [lia|auto]|right]. split.
          -- rewrite (rsum_ext p _ (fun b => if (a <=? b)%nat then el m a b ^ 2 else 0)) by (intros b Hb; rewrite ML by lia; reflexivity). exact K1.
          -- rewrite (rsum_ext p _ (fun k => (el M a k - rsum a (fun b => el m a b * el q b k)) ^ 2)); [exact K2|].
             intros k Hk. f_equal. f_equal. apply rsum_ext. intros b Hb. rewrite ML, QL by lia. reflexivity.
        * intros RE a Ha. destruct (Nat.eq_dec a i) as [->|Na]; [exact NEW|]. apply KEEP; [lia|]. apply A9; lia.
    - exists m, q, rank. split; [exact E|exact P].
  Qed.
End HH.
