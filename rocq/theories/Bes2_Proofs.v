(** Comparison of a table of coefficients with the truncated series on a whole interval, by integer arithmetic. *)
From Coq Require Import Reals Lra Lia ZArith List.
From Verif Require Import Prelude Prelude_Proofs Scalar RealLib Bes_Tables Bes_Model Bes_Spec Bes_Proofs.
Import ListNotations.
Open Scope R_scope.

(** Horner's rule, highest coefficient first *)
Definition heval (l : list R) (x acc : R) : R := fold_left (fun r a => r * x + a) l acc.
(** polynomials in v with integer coefficients, lowest first *)
Definition peval (l : list Z) (v : R) : R := fold_right (fun c r => IZR c + v * r) 0 l.
Fixpoint padd (p q : list Z) : list Z :=
  match p, q with
  | [], _ => q
  | _, [] => p
  | a :: p', b :: q' => (a + b)%Z :: padd p' q'
  end.
Definition pscale (c : Z) (p : list Z) : list Z := map (Z.mul c) p.
Definition sumabs (p : list Z) : Z := fold_right (fun c r => (Z.abs c + r)%Z) 0%Z p.
(** D^(deg) l((a+v)/D) as a polynomial in v *)
Fixpoint hcomp (l : list Z) (a D : Z) (acc : list Z) (pw : Z) : list Z * Z :=
  match l with
  | [] => (acc, pw)
  | c :: l' => hcomp l' a D (padd (padd (pscale a acc) (0%Z :: acc)) [(c * pw)%Z]) (pw * D)
  end.

Lemma peval_padd p q v : peval (padd p q) v = peval p v + peval q v.
Proof.
  revert q. induction p as [|a p IH]; intros [|b q]; cbn; try lra.
  rewrite plus_IZR. fold (peval (padd p q) v). rewrite IH. unfold peval. lra.
Qed.
Lemma peval_pscale c p v : peval (pscale c p) v = IZR c * peval p v.
Proof. induction p as [|a p IH]; cbn; [lra|]. rewrite mult_IZR. unfold peval, pscale in IH. rewrite IH. unfold peval. lra. Qed.
Lemma peval_cons c p v : peval (c :: p) v = IZR c + v * peval p v.
Proof. reflexivity. Qed.

Lemma sumabs_pos p : (0 <= sumabs p)%Z.
Proof. induction p as [|a p IH]; cbn; [lia|]. unfold sumabs in IH. lia. Qed.
Lemma peval_bound p v : -1 <= v <= 1 -> Rabs (peval p v) <= IZR (sumabs p).
Proof.
  intros Hv. induction p as [|a p IH]; cbn; [rewrite Rabs_R0; lra|].
  rewrite plus_IZR, abs_IZR. eapply Rle_trans; [apply Rabs_triang|].
  apply Rplus_le_compat_l. rewrite Rabs_mult. fold (peval p v) in *.
  assert (Rabs v <= 1) by (apply Rabs_le; lra). pose proof (Rabs_pos v). pose proof (Rabs_pos (peval p v)).
  fold (sumabs p). nra.
Qed.

Lemma hcomp_ok l a D v : IZR D <> 0 -> forall acc pw H,
  peval acc v * IZR D = IZR pw * H ->
  let '(P, pw') := hcomp l a D acc pw in
  peval P v * IZR D = IZR pw' * heval (map IZR l) ((IZR a + v) / IZR D) H.
Proof.
  intros HD. induction l as [|c l IH]; intros acc pw H E; [exact E|].
  cbn [hcomp map heval fold_left].
  apply IH. rewrite !peval_padd, peval_pscale, !peval_cons. cbn [peval fold_right].
  rewrite !mult_IZR.
  transitivity ((IZR a + v) * (peval acc v * IZR D) + IZR c * IZR pw * IZR D); [ring|]. rewrite E. field. auto.
Qed.

(** |p((ap+v)/Dp)/dp - q((aq+v)/Dq)/dq| <= num/den for all v in [-1,1] *)
Definition chk (p q : list Z) (dp dq ap aq Dp Dq num den : Z) : bool :=
  let '(P, pp) := hcomp p ap Dp [] 1 in
  let '(Q, pq) := hcomp q aq Dq [] 1 in
  let E := padd (pscale (dq * pq * Dp) P) (pscale (- (dp * pp * Dq)) Q) in
  (sumabs E * den <=? num * pp * pq * dp * dq)%Z
  && (0 <? pp)%Z && (0 <? pq)%Z && (0 <? dp)%Z && (0 <? dq)%Z && (0 <? den)%Z && (0 <? Dp)%Z && (0 <? Dq)%Z.
(** the same relative to q *)
Definition chkr (p q : list Z) (dp dq ap aq Dp Dq num den : Z) : bool :=
  let '(P, pp) := hcomp p ap Dp [] 1 in
  let '(Q, pq) := hcomp q aq Dq [] 1 in
  let E := padd (pscale (dq * pq * Dp) P) (pscale (- (dp * pp * Dq)) Q) in
  let low := match Q with [] => 0%Z | c :: r => (c - sumabs r)%Z end in
  (sumabs E * den <=? num * low * Dq * pp * dp)%Z
  && (0 <? pp)%Z && (0 <? pq)%Z && (0 <? dp)%Z && (0 <? dq)%Z && (0 <? den)%Z && (0 <? Dp)%Z && (0 <? Dq)%Z && (0 <=? num)%Z.

Ltac bools H := repeat rewrite andb_true_iff in H.
Lemma chk_ok p q dp dq ap aq Dp Dq num den v :
  chk p q dp dq ap aq Dp Dq num den = true -> -1 <= v <= 1 ->
  Rabs (heval (map IZR p) ((IZR ap + v) / IZR Dp) 0 / IZR dp - heval (map IZR q) ((IZR aq + v) / IZR Dq) 0 / IZR dq)
  <= IZR num / IZR den.
Proof.
  intros C Hv. unfold chk in C.
  destruct (hcomp p ap Dp [] 1) as [P pp] eqn:EP. destruct (hcomp q aq Dq [] 1) as [Q pq] eqn:EQ.
  bools C. destruct C as [[[[[[[C Hpp] Hpq] Hdp] Hdq] Hden] HDp] HDq].
  apply Z.leb_le, IZR_le in C. apply Z.ltb_lt, IZR_lt in Hpp, Hpq, Hdp, Hdq, Hden, HDp, HDq.
  rewrite !mult_IZR in C.
  pose proof (hcomp_ok p ap Dp v ltac:(lra) [] 1%Z 0 ltac:(cbn; lra)) as A. rewrite EP in A.
  pose proof (hcomp_ok q aq Dq v ltac:(lra) [] 1%Z 0 ltac:(cbn; lra)) as B. rewrite EQ in B.
  set (hp := heval (map IZR p) ((IZR ap + v) / IZR Dp) 0) in *.
  set (hq := heval (map IZR q) ((IZR aq + v) / IZR Dq) 0) in *.
  set (E := padd (pscale (dq * pq * Dp) P) (pscale (- (dp * pp * Dq)) Q)) in *.
  assert (V : peval E v = IZR pp * IZR pq * (IZR dq * hp - IZR dp * hq)).
  { unfold E. rewrite peval_padd, !peval_pscale, opp_IZR, !mult_IZR.
    transitivity (IZR dq * IZR pq * (peval P v * IZR Dp) - IZR dp * IZR pp * (peval Q v * IZR Dq)); [ring|].
    rewrite A, B. ring. }
  pose proof (peval_bound E v Hv) as G.
  set (k := IZR pp * IZR pq * IZR dp * IZR dq).
  assert (Hk : 0 < k) by (unfold k; repeat apply Rmult_lt_0_compat; auto).
  replace (hp / IZR dp - hq / IZR dq) with (peval E v / k) by (rewrite V; unfold k; field; repeat split; lra).
  unfold Rdiv at 1. rewrite Rabs_mult, (Rabs_right (/ k)) by (left; apply Rinv_0_lt_compat; auto).
  apply Rmult_le_reg_r with (k * IZR den); [apply Rmult_lt_0_compat; auto|].
  replace (Rabs (peval E v) * / k * (k * IZR den)) with (Rabs (peval E v) * IZR den) by (field; lra).
  replace (IZR num / IZR den * (k * IZR den)) with (IZR num * k) by (field; lra).
  apply Rmult_le_compat_r with (r := IZR den) in G; [|lra].
  unfold k. lra.
Qed.

Lemma chkr_ok p q dp dq ap aq Dp Dq num den v :
  chkr p q dp dq ap aq Dp Dq num den = true -> -1 <= v <= 1 ->
  Rabs (heval (map IZR p) ((IZR ap + v) / IZR Dp) 0 / IZR dp - heval (map IZR q) ((IZR aq + v) / IZR Dq) 0 / IZR dq)
  <= IZR num / IZR den * (heval (map IZR q) ((IZR aq + v) / IZR Dq) 0 / IZR dq).
Proof.
  intros C Hv. unfold chkr in C.
  destruct (hcomp p ap Dp [] 1) as [P pp] eqn:EP. destruct (hcomp q aq Dq [] 1) as [Q pq] eqn:EQ.
  bools C. destruct C as [[[[[[[[C Hpp] Hpq] Hdp] Hdq] Hden] HDp] HDq] Hnum].
  apply Z.leb_le, IZR_le in C. apply Z.ltb_lt, IZR_lt in Hpp, Hpq, Hdp, Hdq, Hden, HDp, HDq.
  apply Z.leb_le, IZR_le in Hnum.
  rewrite !mult_IZR in C.
  pose proof (hcomp_ok p ap Dp v ltac:(lra) [] 1%Z 0 ltac:(cbn; lra)) as A. rewrite EP in A.
  pose proof (hcomp_ok q aq Dq v ltac:(lra) [] 1%Z 0 ltac:(cbn; lra)) as B. rewrite EQ in B.
  set (hp := heval (map IZR p) ((IZR ap + v) / IZR Dp) 0) in *.
  set (hq := heval (map IZR q) ((IZR aq + v) / IZR Dq) 0) in *.
  set (E := padd (pscale (dq * pq * Dp) P) (pscale (- (dp * pp * Dq)) Q)) in *.
  assert (V : peval E v = IZR pp * IZR pq * (IZR dq * hp - IZR dp * hq)).
  { unfold E. rewrite peval_padd, !peval_pscale, opp_IZR, !mult_IZR.
    transitivity (IZR dq * IZR pq * (peval P v * IZR Dp) - IZR dp * IZR pp * (peval Q v * IZR Dq)); [ring|].
    rewrite A, B. ring. }
  pose proof (peval_bound E v Hv) as G.
  set (low := match Q with [] => 0%Z | c :: r => (c - sumabs r)%Z end) in *.
  assert (L : IZR low <= peval Q v).
  { unfold low. destruct Q as [|c r]; [cbn; lra|]. rewrite peval_cons, minus_IZR.
    pose proof (peval_bound r v Hv) as W. apply Rabs_le_inv in W || apply Rabs_le in W || idtac.
    assert (Rabs (v * peval r v) <= IZR (sumabs r)).
    { rewrite Rabs_mult. assert (Rabs v <= 1) by (apply Rabs_le; lra). pose proof (Rabs_pos v).
      pose proof (Rabs_pos (peval r v)).
      assert (Rabs (peval r v) <= IZR (sumabs r)) by (apply peval_bound; auto). nra. }
    pose proof (Rle_abs (- (v * peval r v))). rewrite Rabs_Ropp in *. lra. }
  set (k := IZR pp * IZR pq * IZR dp * IZR dq).
  assert (Hk : 0 < k) by (unfold k; repeat apply Rmult_lt_0_compat; auto).
  replace (hp / IZR dp - hq / IZR dq) with (peval E v / k) by (rewrite V; unfold k; field; repeat split; lra).
  unfold Rdiv at 1. rewrite Rabs_mult, (Rabs_right (/ k)) by (left; apply Rinv_0_lt_compat; auto).
  apply Rmult_le_reg_r with (k * IZR den); [apply Rmult_lt_0_compat; auto|].
  replace (Rabs (peval E v) * / k * (k * IZR den)) with (Rabs (peval E v) * IZR den) by (field; lra).
  replace (IZR num / IZR den * (hq / IZR dq) * (k * IZR den)) with (IZR num * IZR pp * IZR dp * (IZR pq * hq))
    by (unfold k; field; lra).
  rewrite <- B.
  apply Rmult_le_compat_r with (r := IZR den) in G; [|lra].
  assert (0 <= IZR num * (IZR Dq * IZR pp * IZR dp)).
  { apply Rmult_le_pos; [auto|]. left. repeat apply Rmult_lt_0_compat; auto. }
  apply Rmult_le_compat_l with (r := IZR num * (IZR Dq * IZR pp * IZR dp)) in L; auto.
  lra.
Qed.

(** * The tables *)
Definition tabz (c : tab) (o dim : nat) : list Z := map (fun d => (fst d * 10 ^ (40 - snd d))%Z) (firstn dim (skipn o c)).
Definition fine (c : tab) : bool := forallb (fun d => (0 <=? snd d)%Z && (snd d <=? 40)%Z) c.

Definition E40 : Z := (10 ^ 40)%Z.
Lemma E40_pos : (0 < E40)%Z.
Proof. reflexivity. Qed.
Lemma E40_split e : (0 <= e <= 40)%Z -> E40 = (10 ^ e * 10 ^ (40 - e))%Z.
Proof. intros He. unfold E40. rewrite <- Z.pow_add_r by lia. f_equal. lia. Qed.
Global Opaque E40.

Lemma dec_z d : (0 <= snd d <= 40)%Z -> dec (T:=R) d * IZR E40 = IZR (fst d * 10 ^ (40 - snd d)).
Proof.
  intros Hd. unfold dec. cbn [sofZ sdiv RealS].
  rewrite (E40_split (snd d) Hd), !mult_IZR. field. apply not_0_IZR. apply Z.pow_nonzero; lia.
Qed.

Lemma skipn_nth (A : Type) (l : list A) o d : nth_error l o = Some d -> skipn o l = d :: skipn (S o) l.
Proof.
  revert o. induction l as [|a l IH]; intros [|o] E; cbn in *; try discriminate.
  - now injection E as ->.
  - apply IH, E.
Qed.

Lemma rec_loop_ok c k : fine c = true -> forall o x r, (o + k <= length c)%nat ->
  rec_loop c o k x r = Ok (heval (map IZR (tabz c o k)) x (r * IZR E40) / IZR E40).
Proof.
  intros F. assert (T0 : IZR E40 <> 0) by (apply not_0_IZR; pose proof E40_pos; lia).
  induction k; intros o x r L; cbn [rec_loop].
  - unfold tabz. cbn. f_equal. field. auto.
  - destruct (nth_error c o) as [d|] eqn:E.
    + rewrite IHk by lia. unfold tabz. rewrite (skipn_nth _ _ _ _ E). cbn [firstn map heval fold_left].
      repeat f_equal. cbn [sadd smul RealS].
      rewrite Rmult_plus_distr_r, dec_z; [unfold heval; f_equal; ring|].
      unfold fine in F. rewrite forallb_forall in F. specialize (F d (nth_error_In _ _ E)).
      apply andb_true_iff in F. lia.
    + apply nth_error_None in E. lia.
Qed.

Lemma bes_rec_ok c o k x : fine c = true -> (0 < k)%nat -> (o + k <= length c)%nat ->
  bes_rec c o k x = Ok (heval (map IZR (tabz c o k)) x 0 / IZR E40).
Proof.
  intros F K L. unfold bes_rec.
  assert (T0 : IZR E40 <> 0) by (apply not_0_IZR; pose proof E40_pos; lia).
  destruct (nth_error c o) as [d|] eqn:E.
  - rewrite (rec_loop_ok c (k - 1) F) by lia. unfold tabz. rewrite (skipn_nth _ _ _ _ E).
    destruct k as [|k]; [lia|]. replace (S k - 1)%nat with k by lia. cbn [firstn map heval fold_left].
    repeat f_equal. rewrite dec_z; [unfold heval; f_equal; ring|].
    unfold fine in F. rewrite forallb_forall in F. specialize (F d (nth_error_In _ _ E)).
    apply andb_true_iff in F. lia.
  - apply nth_error_None in E. lia.
Qed.

(** * The truncated series *)
Definition csum (s : R) (n M : nat) (z : R) : R :=
  sum_f_R0 (fun j => s ^ j / (INR (fact j) * INR (fact (j + n))) * z ^ j) M.
Lemma bsum_csum s n x M : sum_f_R0 (bterm s n x) M = (x / 2) ^ n * csum s n M ((x / 2) ^ 2).
Proof.
  unfold csum. rewrite scal_sum. apply sum_eq. intros j _. unfold bterm.
  rewrite pow_add, pow_mult. ring.
Qed.

Fixpoint zfact (k : nat) : Z := match k with O => 1%Z | S k' => (Z.of_nat k * zfact k')%Z end.
Lemma zfact_fact k : IZR (zfact k) = INR (fact k).
Proof.
  induction k; [reflexivity|]. cbn [zfact]. change (fact (S k)) with (S k * fact k)%nat.
  rewrite mult_INR, mult_IZR, IHk, <- INR_IZR_INZ. reflexivity.
Qed.
Fixpoint qz (n : nat) (s : Z) (k : nat) (c : Z) : list Z :=
  c :: match k with O => [] | S k' => qz n s k' (s * c * Z.of_nat k * Z.of_nat (k + n)) end.

Lemma qz_ok n s F z : (s * s)%Z = 1%Z -> forall k c acc,
  IZR c = IZR s ^ k * F / (INR (fact k) * INR (fact (k + n))) ->
  heval (map IZR (qz n s k c)) z acc = acc * z ^ (S k) + F * csum (IZR s) n k z.
Proof.
  intros Hs. apply (f_equal IZR) in Hs. rewrite mult_IZR in Hs.
  induction k as [|k IH]; intros c acc Hc; cbn [qz map heval fold_left].
  - unfold csum. cbn [sum_f_R0]. rewrite Hc.
    pose proof (INR_fact_neq_0 0). pose proof (INR_fact_neq_0 (0 + n)). cbn [pow]. field. auto.
  - change (heval (map IZR (qz n s k (s * c * Z.of_nat (S k) * Z.of_nat (S k + n)))) z (acc * z + IZR c)
            = acc * z ^ S (S k) + F * csum (IZR s) n (S k) z).
    rewrite IH.
    + unfold csum. cbn [sum_f_R0]. rewrite Hc. cbn [pow].
      pose proof (INR_fact_neq_0 (S k)). pose proof (INR_fact_neq_0 (S k + n)). field. auto.
    + rewrite !mult_IZR, Hc, <- !INR_IZR_INZ.
      replace (S k + n)%nat with (S (k + n)) by lia.
      change (fact (S k)) with (S k * fact k)%nat. change (fact (S (k + n))) with (S (k + n) * fact (k + n))%nat.
      rewrite !mult_INR.
      pose proof (INR_fact_neq_0 k). pose proof (INR_fact_neq_0 (k + n)).
      pose proof (not_0_INR (S k) ltac:(lia)). pose proof (not_0_INR (S (k + n)) ltac:(lia)).
      cbn [pow]. transitivity (IZR s * IZR s * (IZR s ^ k * F / (INR (fact k) * INR (fact (k + n))))); [field; auto|].
      rewrite Hs. ring.
Qed.
(** numerators of the series up to the power M of z = (x/2)^2, denominator [qd] *)
Definition sgnpow (s : Z) (M : nat) : Z := if Nat.even M then 1%Z else s.
Definition ql (n : nat) (s : Z) (M : nat) : list Z := qz n s M (sgnpow s M).
Definition qd (n M : nat) : Z := (zfact M * zfact (M + n))%Z.
Lemma zfact_pos k : (0 < zfact k)%Z.
Proof. induction k; cbn [zfact]; lia. Qed.
Lemma sgnpow_ok s M : (s * s)%Z = 1%Z -> IZR (sgnpow s M) = IZR s ^ M.
Proof.
  intros Hs. apply (f_equal IZR) in Hs. rewrite mult_IZR in Hs. unfold sgnpow.
  induction M as [M IH] using lt_wf_ind. destruct M as [|[|M]]; [reflexivity|cbn; ring|].
  rewrite Nat.even_succ_succ, (IH M) by lia. cbn [pow]. rewrite <- Rmult_assoc, Hs. ring.
Qed.
Lemma ql_ok n s M z : (s * s)%Z = 1%Z ->
  heval (map IZR (ql n s M)) z 0 / IZR (qd n M) = csum (IZR s) n M z.
Proof.
  intros Hs. unfold ql. rewrite (qz_ok n s (IZR (qd n M)) z Hs).
  - assert (IZR (qd n M) <> 0).
    { apply not_0_IZR. unfold qd. pose proof (zfact_pos M). pose proof (zfact_pos (M + n)). nia. }
    field. auto.
  - rewrite (sgnpow_ok s M Hs). unfold qd. rewrite mult_IZR, !zfact_fact.
    pose proof (INR_fact_neq_0 M). pose proof (INR_fact_neq_0 (M + n)). field. auto.
Qed.

(** the series as a polynomial in y = x/2 *)
Fixpoint inter (l : list Z) : list Z :=
  match l with
  | [] => []
  | [c] => [c]
  | c :: l' => c :: 0%Z :: inter l'
  end.
Definition qx (n : nat) (s : Z) (M : nat) : list Z := inter (ql n s M) ++ repeat 0%Z n.

Lemma inter_ok l y : forall acc c, heval (map IZR (inter (c :: l))) y acc = heval (map IZR l) (y ^ 2) (acc * y + IZR c).
Proof.
  induction l as [|d l IH]; intros acc c; [reflexivity|].
  change (inter (c :: d :: l)) with (c :: 0%Z :: inter (d :: l)). cbn [map heval fold_left].
  change (heval (map IZR (inter (d :: l))) y ((acc * y + IZR c) * y + 0) =
          heval (map IZR l) (y ^ 2) ((acc * y + IZR c) * y ^ 2 + IZR d)).
  rewrite IH. f_equal. ring.
Qed.
Lemma heval_app l m x acc : heval (l ++ m) x acc = heval m x (heval l x acc).
Proof. unfold heval. apply fold_left_app. Qed.
Lemma heval_zeros n x acc : heval (map IZR (repeat 0%Z n)) x acc = acc * x ^ n.
Proof.
  revert acc. induction n; intros acc; cbn [repeat map heval fold_left pow]; [lra|].
  change (heval (map IZR (repeat 0%Z n)) x (acc * x + 0) = acc * (x * x ^ n)). rewrite IHn. ring.
Qed.
Lemma qx_ok n s M y : (s * s)%Z = 1%Z ->
  heval (map IZR (qx n s M)) y 0 / IZR (qd n M) = y ^ n * csum (IZR s) n M (y ^ 2).
Proof.
  intros Hs. unfold qx. rewrite map_app, heval_app, heval_zeros.
  unfold ql at 1. destruct (qz n s M (sgnpow s M)) as [|c l] eqn:E; [destruct M; discriminate|].
  rewrite inter_ok. rewrite <- (ql_ok n s M) by auto. unfold ql. rewrite E. cbn [map heval fold_left].
  unfold heval. rewrite !Rmult_0_l. lra.
Qed.
