From Coq Require Import Reals Lra QArith.
From Verif Require Import Prelude Prelude_Proofs Scalar RealLib Fmat Fmat_Proofs Near_Model.
From Coq Require Import List.
Local Open Scope R_scope.

Section Nearest.
  Variables (ztol : R) (dist : R -> res R) (D : R -> R) (s e : R).
  Hypothesis SE : s <= e.
  Hypothesis HD : forall x, s <= x <= e -> dist x = Ok (D x).
  Definition grid (i : nat) : R := s + (e - s) * INR i / 30.

  Lemma grid_in i : (i <= 30)%nat -> s <= grid i <= e.
  Proof.
    intros H. unfold grid. apply le_INR in H. cbn [INR] in H. pose proof (pos_INR i). replace (INR 30) with 30 in H by (cbn; lra).
    assert (0 <= (e - s) * INR i <= (e - s) * 30) by (split; [apply Rmult_le_pos; lra|apply Rmult_le_compat_l; lra]). lra.
  Qed.
  Definition first_inv (j : nat) (st : @nnstate R) : Prop :=
    let '((s1, d1), (s2, d2)) := st in
    match j with
    | O => s1 = s /\ d1 = None /\ s2 = e /\ d2 = None
    | S j' => exists i1, (i1 < j)%nat /\ s1 = grid i1 /\ d1 = Some (D (grid i1)) /\ (forall i, (i < j)%nat -> D (grid i1) <= D (grid i)) /\
        match j' with
        | O => d2 = None
        | _ => exists i2, (i2 < j)%nat /\ i2 <> i1 /\ s2 = grid i2 /\ d2 = Some (D (grid i2)) /\ (forall i, (i < j)%nat -> i <> i1 -> D (grid i2) <= D (grid i))
        end
    end.
  Lemma first_pass : exists st, nn_pass dist ((s, None), (e, None)) = Ok st /\ first_inv 31 st.
  Proof.
    unfold nn_pass. cbn [fst snd]. apply (for_inv first_inv); [lia|cbn; auto|].
    intros j st Hj P. unfold nn_sample. destruct st as [[s1 d1] [s2 d2]]. rs.
    replace ((e - s) * IZR (Z.of_nat j) / 30 + s) with (grid j) by (unfold grid; rewrite INR_IZR_INZ; field).
    rewrite HD by (apply grid_in; lia). cbn [bind]. destruct j as [|j].
    - destruct P as (-> & -> & -> & ->). cbn [below]. eexists. split; [reflexivity|]. cbn. exists 0%nat. repeat split; auto.
      intros i Hi. replace i with 0%nat by lia. lra.
    - destruct P as (i1 & L1 & -> & -> & M1 & P). cbn [below]. rs. destruct (Rltb_spec (D (grid (S j))) (D (grid i1))) as [Q|Q].
      + eexists. split; [reflexivity|]. cbn [first_inv]. exists (S j). split; [lia|]. split; auto. split; auto. split.
        { intros i Hi. destruct (Nat.eq_dec i (S j)); [subst; lra|]. specialize (M1 i ltac:(lia)). lra. }
        exists i1. split; [lia|]. split; [lia|]. split; auto. split; auto. intros i Hi N. apply M1. lia.
      + destruct j as [|j].
        * rewrite P. cbn [below]. eexists. split; [reflexivity|]. cbn [first_inv]. exists i1. split; [lia|]. split; auto. split; auto. split.
          { intros i Hi. destruct (Nat.eq_dec i 1); [subst; lra|]. apply M1. lia. }
          exists 1%nat. repeat split; auto; try lia. intros i Hi N. replace i with 1%nat by lia. lra.
        * destruct P as (i2 & L2 & N2 & -> & -> & M2). cbn [below]. rs. destruct (Rltb_spec (D (grid (S (S j)))) (D (grid i2))) as [Q2|Q2];
            (eexists; split; [reflexivity|]); cbn [first_inv]; exists i1; (split; [lia|]); (split; [auto|]); (split; [auto|]); (split;
              [intros i Hi; destruct (Nat.eq_dec i (S (S j))); [subst; lra|apply M1; lia]|]).
          { exists (S (S j)). repeat split; auto; try lia. intros i Hi N. destruct (Nat.eq_dec i (S (S j))); [subst; lra|]. specialize (M2 i ltac:(lia) N). lra. }
          { exists i2. repeat split; auto; try lia. intros i Hi N. destruct (Nat.eq_dec i (S (S j))); [subst; lra|]. apply M2; auto; lia. }
  Qed.
  (** later passes stay between the two parameters, and only improve the first *)
  Definition held (lo hi d : R) (st : @nnstate R) : Prop :=
    let '((s1, d1), (s2, d2)) := st in lo <= s1 <= hi /\ lo <= s2 <= hi /\ d1 = Some (D s1) /\ D s1 <= d /\ exists x, d2 = Some x.
  Lemma next_pass lo hi d st : s <= lo -> hi <= e -> held lo hi d st -> exists st', nn_pass dist st = Ok st' /\ held lo hi d st'.
  Proof.
    intros Hlo Hhi H. unfold nn_pass. destruct st as [[a1 b1] [a2 b2]]. cbn [fst snd]. pose proof H as (A1 & A2 & _).
    apply (for_inv (fun _ st => held lo hi d st)); [lia|auto|].
    intros j [[s1 d1] [s2 d2]] Hj (P1 & P2 & -> & P4 & (x & ->)). unfold nn_sample. rs.
    set (sj := (a2 - a1) * IZR (Z.of_nat j) / 30 + a1). assert (lo <= sj <= hi) as B.
    { unfold sj. rewrite <- INR_IZR_INZ. assert (0 <= INR j / 30 <= 1) as (K1 & K2).
      { pose proof (pos_INR j). assert (INR j <= 30) by (replace 30 with (INR 30) by (cbn; lra); apply le_INR; lia). lra. }
      replace ((a2 - a1) * INR j / 30 + a1) with (a1 + (INR j / 30) * (a2 - a1)) by field. set (k := INR j / 30) in *. clearbody k.
      destruct (Rle_lt_dec a1 a2).
      - assert (0 <= k * (a2 - a1) <= 1 * (a2 - a1)) by (split; [apply Rmult_le_pos; lra|apply Rmult_le_compat_r; lra]). lra.
      - assert (0 <= k * (a1 - a2) <= 1 * (a1 - a2)) by (split; [apply Rmult_le_pos; lra|apply Rmult_le_compat_r; lra]). lra. }
    rewrite HD by lra. cbn [bind below]. rs. destruct (Rltb_spec (D sj) (D s1)).
    - eexists. split; [reflexivity|]. cbn. repeat split; eauto; lra.
    - destruct (Rltb_spec (D sj) x); (eexists; split; [reflexivity|]); cbn; repeat split; eauto; lra.
  Qed.
  Lemma loop_held iter : forall lo hi d st, s <= lo -> hi <= e -> held lo hi d st -> exists st', nn_loop ztol iter dist st = Ok st' /\ held lo hi d st'.
  Proof.
    induction iter as [|iter IH]; intros lo hi d st H1 H2 H; cbn [nn_loop]; [eauto|].
    destruct (next_pass lo hi d st H1 H2 H) as (st' & -> & H'). cbn [bind]. destruct (nn_done ztol st'); eauto.
  Qed.
  Lemma nearest_ok iter : (0 < iter)%nat -> exists r s1 s2, nearest ztol (/ 2) iter dist s e = Ok r /\ r = (s1 + s2) / 2 /\
    s <= s1 <= e /\ s <= s2 <= e /\ (forall i, (i <= 30)%nat -> D s1 <= D (grid i)) /\
    (forall m, s <= m <= e -> (forall x y, s <= x -> x < y -> y <= m -> D y < D x) -> (forall x y, m <= x -> x < y -> y <= e -> D x < D y) -> Rabs (r - m) <= (e - s) / 15).
  Proof.
    intros Hi. destruct iter as [|iter]; [lia|]. unfold nearest. cbn [nn_loop].
    destruct first_pass as (st & -> & I). cbn [bind]. destruct st as [[a1 d1] [a2 d2]].
    destruct I as (i1 & L1 & -> & -> & M1 & i2 & L2 & N & -> & -> & M2).
    set (lo := Rmin (grid i1) (grid i2)). set (hi := Rmax (grid i1) (grid i2)).
    assert (s <= grid i1 <= e) as G1 by (apply grid_in; lia). assert (s <= grid i2 <= e) as G2 by (apply grid_in; lia).
    assert (lo <= grid i1 <= hi) as B1 by (split; [apply Rmin_l|apply Rmax_l]). assert (lo <= grid i2 <= hi) as B2 by (split; [apply Rmin_r|apply Rmax_r]).
    assert (s <= lo) as S1 by (apply Rmin_glb; lra). assert (hi <= e) as S2 by (apply Rmax_lub; lra).
    assert (held lo hi (D (grid i1)) ((grid i1, Some (D (grid i1))), (grid i2, Some (D (grid i2))))) as H0 by (cbn; repeat split; eauto; lra).
    match goal with |- context [bind ?z _] =>
      assert (exists st', z = Ok st' /\ held lo hi (D (grid i1)) st') as (st' & E' & H') end.
    { destruct (nn_done _ _); [eauto|]. now apply loop_held. }
    rewrite E'. cbn [bind]. destruct st' as [[s1 d1] [s2 d2]]. destruct H' as (Q1 & Q2 & _ & Q4 & _). cbn [fst snd]. rs.
    exists (/ 2 * (s1 + s2)), s1, s2. split; auto. split; [field|]. split; [lra|]. split; [lra|]. split.
    { intros i HI. specialize (M1 i ltac:(lia)). lra. }
    intros m Hm U1 U2. destruct (Rle_lt_or_eq_dec s e SE) as [LT|EQ].
    2:{ apply Rabs_le. rewrite <- EQ in *. lra. }
    (* neighbours on the grid *)
    assert (forall i j, (i < j)%nat -> grid i < grid j) as GI.
    { intros i j Hij. unfold grid. apply lt_INR in Hij. assert ((e - s) * INR i < (e - s) * INR j) by (apply Rmult_lt_compat_l; lra). lra. }
    assert (forall i, grid (S i) = grid i + (e - s) / 30) as GS by (intros i; unfold grid; rewrite S_INR; field).
    assert (i2 = S i1 \/ i1 = S i2) as ADJ.
    { destruct (Nat.lt_total i1 i2) as [H|[H|H]]; [|congruence|].
      - destruct (Nat.eq_dec i2 (S i1)) as [|K]; auto. exfalso. pose proof (GI i1 (S i1) ltac:(lia)). pose proof (GI (S i1) i2 ltac:(lia)).
        destruct (Rle_lt_dec m (grid (S i1))) as [W|W].
        + pose proof (U2 (grid (S i1)) (grid i2) ltac:(lra) ltac:(lra) ltac:(lra)). pose proof (M2 (S i1) ltac:(lia) ltac:(lia)). lra.
        + pose proof (U1 (grid i1) (grid (S i1)) ltac:(lra) ltac:(lra) ltac:(lra)). pose proof (M1 (S i1) ltac:(lia)). lra.
      - destruct i1 as [|k]; [lia|]. destruct (Nat.eq_dec i2 k) as [|K]; auto. exfalso. pose proof (GI k (S k) ltac:(lia)). pose proof (GI i2 k ltac:(lia)).
        destruct (Rle_lt_dec m (grid k)) as [W|W].
        + pose proof (U2 (grid k) (grid (S k)) ltac:(lra) ltac:(lra) ltac:(lra)). pose proof (M1 k ltac:(lia)). lra.
        + pose proof (U1 (grid i2) (grid k) ltac:(lra) ltac:(lra) ltac:(lra)). pose proof (M2 k ltac:(lia) ltac:(lia)). lra. }
    assert (hi - lo = (e - s) / 30) as W.
    { unfold hi, lo. destruct ADJ as [->| ->]; rewrite GS; [rewrite Rmax_right, Rmin_left by lra|rewrite Rmax_left, Rmin_right by lra]; lra. }
    assert (m <= grid i1 + (e - s) / 30) as C1.
    { destruct (Rle_lt_dec m (grid i1 + (e - s) / 30)) as [|K]; auto. exfalso. rewrite <- GS in K.
      assert (S i1 <= 30)%nat as L. { destruct (Nat.eq_dec i1 30) as [E0|]; [|lia]. exfalso. rewrite GS, E0 in K. unfold grid in K. replace (INR 30) with 30 in K by (cbn; lra). lra. }
      pose proof (GI i1 (S i1) ltac:(lia)). pose proof (U1 (grid i1) (grid (S i1)) ltac:(lra) ltac:(lra) ltac:(lra)). pose proof (M1 (S i1) ltac:(lia)). lra. }
    assert (grid i1 - (e - s) / 30 <= m) as C2.
    { destruct (Rle_lt_dec (grid i1 - (e - s) / 30) m) as [|K]; auto. exfalso. destruct i1 as [|k]; [unfold grid in K; cbn [INR] in K; lra|].
      rewrite GS in K. pose proof (GI k (S k) ltac:(lia)). pose proof (U2 (grid k) (grid (S k)) ltac:(lra) ltac:(lra) ltac:(lra)). pose proof (M1 k ltac:(lia)). lra. }
    apply Rabs_le. lra.
  Qed.
End Nearest.
