(** Bessel functions: every real argument stays inside of the tables; parity; recurrences. *)
From Coq Require Import Reals Lra Lia ZArith List.
From Verif Require Import Prelude Prelude_Proofs Scalar RealLib Bes_Tables Bes_Model Bes_Spec Bes_Proofs Bes2_Proofs
  Bes3_Proofs Bes4_Proofs.
Import ListNotations.
Open Scope R_scope.

(** * Totality *)
Lemma rec_loop_total (c : tab) k : forall o (x r : R), (o + k <= length c)%nat -> exists y, rec_loop c o k x r = Ok y.
Proof.
  induction k; intros o x r L; cbn [rec_loop]; [now exists r|].
  destruct (nth_error c o) as [d|] eqn:E; [apply IHk; lia|]. apply nth_error_None in E. lia.
Qed.
Lemma bes_rec_total (c : tab) o k (x : R) : (0 < k)%nat -> (o + k <= length c)%nat -> exists y, bes_rec c o k x = Ok y.
Proof.
  intros K L. unfold bes_rec. destruct (nth_error c o) as [d|] eqn:E; [apply rec_loop_total; lia|].
  apply nth_error_None in E. lia.
Qed.

Lemma blk (A : Type) hi (t : R) (f : nat -> res A) : 0 <= t < INR hi ->
  (forall k, (k < hi)%nat -> INR k <= t < INR k + 1 -> exists y, f k = Ok y) -> exists y, bind (cint hi t) f = Ok y.
Proof. intros Ht Hf. destruct (cint_ok hi t Ht) as [k [E [K1 K2]]]. rewrite E. cbn [bind]. now apply Hf. Qed.
Lemma frm (A : Type) lo k (t : R) (f : nat -> res A) : INR lo <= t -> INR k <= t < INR k + 1 ->
  (forall b, (b + lo = k)%nat -> exists y, f b = Ok y) -> exists y, bind (from lo k) f = Ok y.
Proof.
  intros Hl Hk Hf. unfold from.
  assert (lo <= k)%nat.
  { apply Nat.lt_succ_r. apply INR_lt. rewrite S_INR. lra. }
  destruct (Nat.ltb_spec k lo); [lia|]. cbn [bind]. apply Hf. lia.
Qed.
Lemma rcb (A : Type) (c : tab) o k (x : R) (f : R -> res A) : (0 < k)%nat -> (o + k <= length c)%nat ->
  (forall y, exists z, f y = Ok z) -> exists z, bind (bes_rec c o k x) f = Ok z.
Proof. intros K L F. destruct (bes_rec_total c o k x K L) as [y E]. rewrite E. cbn [bind]. apply F. Qed.

Lemma d85_2 : dec (T:=R) (85, 2)%Z = 85 / 100. Proof. unfold dec. cbn [fst snd sofZ sdiv RealS]. change (10 ^ 2)%Z with 100%Z. lra. Qed.
Lemma d86_2 : dec (T:=R) (86, 2)%Z = 86 / 100. Proof. unfold dec. cbn [fst snd sofZ sdiv RealS]. change (10 ^ 2)%Z with 100%Z. lra. Qed.
Lemma d415_2 : dec (T:=R) (415, 2)%Z = 415 / 100. Proof. unfold dec. cbn [fst snd sofZ sdiv RealS]. change (10 ^ 2)%Z with 100%Z. lra. Qed.
Lemma d45_1 : dec (T:=R) (45, 1)%Z = 45 / 10. Proof. unfold dec. cbn [fst snd sofZ sdiv RealS]. change (10 ^ 1)%Z with 10%Z. lra. Qed.
Lemma d55_1 : dec (T:=R) (55, 1)%Z = 55 / 10. Proof. unfold dec. cbn [fst snd sofZ sdiv RealS]. change (10 ^ 1)%Z with 10%Z. lra. Qed.
Lemma d8_1 : dec (T:=R) (8, 1)%Z = 8 / 10. Proof. unfold dec. cbn [fst snd sofZ sdiv RealS]. change (10 ^ 1)%Z with 10%Z. lra. Qed.

Lemma far24 x : 25 / 2 <= x -> 0 <= 24 / x * (24 / x) < INR 4.
Proof.
  intros Hx. rewrite <- IZR_nat. cbn [Z.of_nat Pos.of_succ_nat Pos.succ].
  assert (Q : 0 < 24 / x <= 24 / (25 / 2)).
  { split; [apply Rdiv_lt_0_compat; lra|]. unfold Rdiv. apply Rmult_le_compat_l; [lra|]. apply Rinv_le_contravar; lra. }
  nra.
Qed.
Lemma far60 x : 25 / 2 <= x -> 0 <= 60 / x < INR 5.
Proof.
  intros Hx. rewrite <- IZR_nat. cbn [Z.of_nat Pos.of_succ_nat Pos.succ].
  assert (Q : 0 < 60 / x <= 60 / (25 / 2)).
  { split; [apply Rdiv_lt_0_compat; lra|]. unfold Rdiv. apply Rmult_le_compat_l; [lra|]. apply Rinv_le_contravar; lra. }
  lra.
Qed.
(** x - a/x + b between its values at the ends *)
Lemma hyp a lo hi x : 0 < a -> 0 < lo <= x -> x < hi -> lo - a / lo <= x - a / x < hi - a / hi.
Proof.
  intros Ha Hl Hh. unfold Rdiv.
  assert (/ x <= / lo) by (apply Rinv_le_contravar; lra).
  assert (/ hi <= / x) by (apply Rinv_le_contravar; lra). nra.
Qed.

Lemma lens : (length J0d = 52 /\ length J1d = 52 /\ length Y0a = 16 /\ length Y0b = 112 /\ length Y0c = 126 /\ length Y0d = 52 /\
  length Y1a = 16 /\ length Y1b = 112 /\ length Y1c = 126 /\ length Y1d = 52 /\ length I0c = 45 /\ length I1c = 45 /\
  length K0a = 16 /\ length K0b = 112 /\ length K0c = 135 /\ length K0d = 40 /\ length K1a = 16 /\ length K1b = 120 /\
  length K1c = 120 /\ length K1d = 40)%nat.
Proof. vm_compute. tauto. Qed.

Ltac alllens := destruct lens as (?&?&?&?&?&?&?&?&?&?&?&?&?&?&?&?&?&?&?&?); destruct len_tabs as (?&?&?&?&?&?&?&?&?&?).
Ltac iv n := change (INR n) with (INR n); rewrite <- (IZR_nat n); cbn [Z.of_nat Pos.of_succ_nat Pos.succ].
Ltac fin := eexists; reflexivity.
Ltac rc := apply rcb; [lia|lia|intros].
Ltac bt := apply bes_rec_total; lia.

Lemma nat_ge lo k x : INR lo <= x -> x < INR k + 1 -> (lo <= k)%nat.
Proof. intros A B. apply Nat.lt_succ_r, INR_lt. rewrite (S_INR k). lra. Qed.

Section Tot.
Variables fexp flog fsin fcos : R -> R.
Variable ztol : R.

Lemma J0_total x : exists r, besJ0 fcos x = Ok r.
Proof. clear fexp flog fsin ztol.
  alllens. unfold besJ0. cbv zeta. cbn [sabs RealS]. pose proof (Rabs_pos x) as P. revert P. generalize (Rabs x). clear x. intros x P.
  change (slt (Scalar := RealS)) with Rltb. rewrite dec85, dec125, dec625. cbn [smul s1 RealS].
  destruct (Rltb_spec x 1); [bt|].
  destruct (Rltb_spec x (17 / 2)).
  - apply blk; [iv 5%nat; nra|]. intros k K1 K2. bt.
  - destruct (Rltb_spec x (25 / 2)).
    + apply blk; [iv 13%nat; lra|]. intros k K1 K2. apply frm with (t := x); auto; [iv 8%nat; lra|]. intros b B. bt.
    + apply blk; [apply (far24 x); lra|]. intros k K1 K2. cbv zeta. rc. rc. fin.
Qed.
Lemma J1p_total x : 0 <= x -> exists r, besJ1p fsin x = Ok r.
Proof. clear fexp flog fcos ztol.
  intros P. alllens. unfold besJ1p. cbv zeta. 
  change (slt (Scalar := RealS)) with Rltb. rewrite dec85, dec125, dec625. cbn [smul s1 RealS].
  destruct (Rltb_spec x 1); [rc; fin|].
  destruct (Rltb_spec x (17 / 2)).
  - apply blk; [iv 5%nat; nra|]. intros k K1 K2. rc. fin.
  - destruct (Rltb_spec x (25 / 2)).
    + apply blk; [iv 13%nat; lra|]. intros k K1 K2. apply frm with (t := x); auto; [iv 8%nat; lra|]. intros b B. bt.
    + apply blk; [apply (far24 x); lra|]. intros k K1 K2. cbv zeta. rc. rc. fin.
Qed.
Lemma J1_total x : exists r, besJ1 fsin x = Ok r.
Proof. clear fexp flog fcos ztol.
  unfold besJ1. change (slt (Scalar := RealS)) with Rltb. cbn [s0 sopp RealS]. destruct (Rltb_spec x 0).
  - destruct (J1p_total (- x)) as [rr ->]; [lra|]. fin.
  - apply J1p_total. lra.
Qed.
Lemma I0_total x : exists r, besI0 fexp x = Ok r.
Proof. clear flog fsin fcos ztol.
  alllens. unfold besI0. cbv zeta. cbn [sabs RealS]. pose proof (Rabs_pos x) as P. revert P. generalize (Rabs x). clear x. intros x P.
  change (slt (Scalar := RealS)) with Rltb. rewrite dec85, dec125, dec625. cbn [smul s1 RealS].
  destruct (Rltb_spec x (17 / 2)).
  - apply blk; [iv 5%nat; nra|]. intros k K1 K2. bt.
  - destruct (Rltb_spec x (25 / 2)).
    + apply blk; [iv 13%nat; lra|]. intros k K1 K2. apply frm with (t := x); auto; [iv 8%nat; lra|]. intros b B. bt.
    + apply blk; [apply (far60 x); lra|]. intros k K1 K2. rc. fin.
Qed.
Lemma I1p_total x : 0 <= x -> exists r, besI1p fexp x = Ok r.
Proof. clear flog fsin fcos ztol.
  intros P. alllens. unfold besI1p. cbv zeta. 
  change (slt (Scalar := RealS)) with Rltb. rewrite dec85, dec125, dec625. cbn [smul s1 RealS].
  destruct (Rltb_spec x (17 / 2)).
  - apply blk; [iv 5%nat; nra|]. intros k K1 K2. rc. fin.
  - destruct (Rltb_spec x (25 / 2)).
    + apply blk; [iv 13%nat; lra|]. intros k K1 K2. apply frm with (t := x); auto; [iv 8%nat; lra|]. intros b B. bt.
    + apply blk; [apply (far60 x); lra|]. intros k K1 K2. rc. fin.
Qed.
Lemma I1_total x : exists r, besI1 fexp x = Ok r.
Proof. clear flog fsin fcos ztol.
  unfold besI1. change (slt (Scalar := RealS)) with Rltb. cbn [s0 sopp RealS]. destruct (Rltb_spec x 0).
  - destruct (I1p_total (- x)) as [rr ->]; [lra|]. fin.
  - apply I1p_total. lra.
Qed.

Lemma Y0_total x : 0 < x -> exists r, besY0 flog fsin x = Ok (Some r).
Proof. clear fexp fcos ztol.
  intros P. alllens.
  assert (Q : forall o : res (option R), o = besY0 flog fsin x -> exists r, o = Ok (Some r)); [|now apply Q].
  intros o ->. unfold besY0. cbv zeta.
  change (slt (Scalar := RealS)) with Rltb. change (sle (Scalar := RealS)) with Rleb.
  rewrite d85_2, d45_1, dec125. cbn [sadd ssub sdiv sofZ smul s0 s1 RealS].
  assert (W : forall m : res (option R), (exists r, m = Ok r) -> (forall r, m = Ok r -> r <> None) -> exists r, m = Ok (Some r)).
  { intros m [[r|] E] N; [now exists r|]. destruct (N None E eq_refl). }
  destruct (Rleb_spec x 0); [lra|].
  destruct (Rltb_spec x (85 / 100)).
  - destruct (bes_rec_total Y0a 8 8 (x * x)) as [p ->]; [lia|lia|].
    destruct (bes_rec_total Y0a 0 8 (x * x)) as [q ->]; [lia|lia|]. fin.
  - destruct (Rltb_spec x (45 / 10)).
    + pose proof (hyp 4 (85 / 100) (45 / 10) x ltac:(lra) ltac:(lra) ltac:(lra)) as G.
      destruct (cint_ok 8 (x - 4 / x + 4)) as [k [-> [K1 K2]]]; [iv 8%nat; lra|]. cbn [bind].
      destruct (bes_rec_total Y0b (k * 14) 14 (x - 4 / x - sZ k + dec (35, 1)%Z)) as [p ->]; [lia|lia|]. fin.
    + destruct (Rltb_spec x (25 / 2)).
      * destruct (cint_ok 13 x) as [k [-> [K1 K2]]]; [iv 13%nat; lra|]. cbn [bind].
        assert (4 <= k)%nat by (apply (nat_ge 4 k x); [iv 4%nat; lra|lra]).
        unfold from. destruct (Nat.ltb_spec k 4); [lia|]. cbn [bind].
        destruct (bes_rec_total Y0c ((k - 4) * 14) 14 (x - sZ k - half)) as [p ->]; [lia|lia|]. fin.
      * destruct (cint_ok 4 (24 / x * (24 / x))) as [k [-> [K1 K2]]]; [apply far24; lra|]. cbn [bind].
        destruct (bes_rec_total Y0d (k * 13) 7 (24 / x * (24 / x))) as [p ->]; [lia|lia|].
        destruct (bes_rec_total Y0d (k * 13 + 7) 6 (24 / x * (24 / x))) as [q ->]; [lia|lia|]. fin.
Qed.
Lemma Y1_total x : 0 < x -> exists r, besY1 flog fcos x = Ok (Some r).
Proof. clear fexp fsin ztol.
  intros P. alllens. unfold besY1. cbv zeta.
  change (slt (Scalar := RealS)) with Rltb. change (sle (Scalar := RealS)) with Rleb.
  rewrite d85_2, d415_2, dec125. cbn [sadd ssub sdiv sofZ smul s0 s1 RealS].
  destruct (Rleb_spec x 0); [lra|].
  destruct (Rltb_spec x (85 / 100)).
  - destruct (bes_rec_total Y1a 8 8 (x * x)) as [p ->]; [lia|lia|].
    destruct (bes_rec_total Y1a 0 8 (x * x)) as [q ->]; [lia|lia|]. fin.
  - destruct (Rltb_spec x (415 / 100)).
    + pose proof (hyp 4 (85 / 100) (415 / 100) x ltac:(lra) ltac:(lra) ltac:(lra)) as G.
      destruct (cint_ok 8 (x - 4 / x + 4)) as [k [-> [K1 K2]]]; [iv 8%nat; lra|]. cbn [bind].
      destruct (bes_rec_total Y1b (k * 14) 14 (x - 4 / x - sZ k + dec (35, 1)%Z)) as [p ->]; [lia|lia|]. fin.
    + destruct (Rltb_spec x (25 / 2)).
      * destruct (cint_ok 13 x) as [k [-> [K1 K2]]]; [iv 13%nat; lra|]. cbn [bind].
        assert (4 <= k)%nat by (apply (nat_ge 4 k x); [iv 4%nat; lra|lra]).
        unfold from. destruct (Nat.ltb_spec k 4); [lia|]. cbn [bind].
        destruct (bes_rec_total Y1c ((k - 4) * 14) 14 (x - sZ k - half)) as [p ->]; [lia|lia|]. fin.
      * destruct (cint_ok 4 (24 / x * (24 / x))) as [k [-> [K1 K2]]]; [apply far24; lra|]. cbn [bind].
        destruct (bes_rec_total Y1d (k * 13) 7 (24 / x * (24 / x))) as [p ->]; [lia|lia|].
        destruct (bes_rec_total Y1d (k * 13 + 7) 6 (24 / x * (24 / x))) as [q ->]; [lia|lia|]. fin.
Qed.
Lemma K0_total x : 0 < x -> exists r, besK0 fexp flog x = Ok (Some r).
Proof. clear fsin fcos ztol.
  intros P. alllens. unfold besK0. cbv zeta.
  change (slt (Scalar := RealS)) with Rltb. change (sle (Scalar := RealS)) with Rleb.
  rewrite d86_2, d415_2, dec125. cbn [sadd ssub sdiv sofZ smul s0 s1 RealS].
  destruct (Rleb_spec x 0); [lra|].
  destruct (Rltb_spec x (86 / 100)).
  - destruct (bes_rec_total K0a 8 8 (x * x)) as [p ->]; [lia|lia|].
    destruct (bes_rec_total K0a 0 8 (x * x)) as [q ->]; [lia|lia|]. fin.
  - destruct (Rltb_spec x (415 / 100)).
    + pose proof (hyp 5 (86 / 100) (415 / 100) x ltac:(lra) ltac:(lra) ltac:(lra)) as G.
      destruct (cint_ok 8 (x - 5 / x + 5)) as [k [-> [K1 K2]]]; [iv 8%nat; lra|]. cbn [bind].
      destruct (bes_rec_total K0b (k * 14) 14 (sZ k - (x - 5 / x) - 4)) as [p ->]; [lia|lia|]. fin.
    + destruct (Rltb_spec x (25 / 2)).
      * destruct (cint_ok 13 x) as [k [-> [K1 K2]]]; [iv 13%nat; lra|]. cbn [bind].
        assert (4 <= k)%nat by (apply (nat_ge 4 k x); [iv 4%nat; lra|lra]).
        unfold from. destruct (Nat.ltb_spec k 4); [lia|]. cbn [bind].
        destruct (bes_rec_total K0c ((k - 4) * 15) 15 (sZ k - x + 1)) as [p ->]; [lia|lia|]. fin.
      * destruct (cint_ok 5 (60 / x)) as [k [-> [K1 K2]]]; [apply far60; lra|]. cbn [bind].
        destruct (bes_rec_total K0d (k * 8) 8 (60 / x)) as [p ->]; [lia|lia|]. fin.
Qed.
Lemma K1_total x : exists r, besK1 fexp flog x = Ok r.
Proof. clear fsin fcos ztol.
  alllens. unfold besK1. cbv zeta.
  change (slt (Scalar := RealS)) with Rltb.
  rewrite d8_1, d55_1, dec125. cbn [sadd ssub sdiv sofZ smul s0 s1 RealS].
  destruct (Rltb_spec x (8 / 10)).
  - destruct (bes_rec_total K1a 8 8 (x * x)) as [p ->]; [lia|lia|].
    destruct (bes_rec_total K1a 0 8 (x * x)) as [q ->]; [lia|lia|]. fin.
  - destruct (Rltb_spec x (55 / 10)).
    + pose proof (hyp 3 (8 / 10) (55 / 10) x ltac:(lra) ltac:(lra) ltac:(lra)) as G.
      destruct (cint_ok 8 (x - 3 / x + 3)) as [k [-> [K1 K2]]]; [iv 8%nat; lra|]. cbn [bind].
      destruct (bes_rec_total K1b (k * 15) 15 (sZ k - (x - 3 / x) - 2)) as [p ->]; [lia|lia|]. fin.
    + destruct (Rltb_spec x (25 / 2)).
      * destruct (cint_ok 13 x) as [k [-> [K1 K2]]]; [iv 13%nat; lra|]. cbn [bind].
        assert (5 <= k)%nat by (apply (nat_ge 5 k x); [iv 5%nat; lra|lra]).
        unfold from. destruct (Nat.ltb_spec k 5); [lia|]. cbn [bind].
        destruct (bes_rec_total K1c ((k - 5) * 15) 15 (sZ k - x + 1)) as [p ->]; [lia|lia|]. fin.
      * destruct (cint_ok 5 (60 / x)) as [k [-> [K1 K2]]]; [apply far60; lra|]. cbn [bind].
        destruct (bes_rec_total K1d (k * 8) 8 (60 / x)) as [p ->]; [lia|lia|]. fin.
Qed.

Lemma Jn_total n x : exists r, besJn fsin fcos ztol n x = Ok r.
Proof. clear fexp flog.
  unfold besJn. destruct (n =? 0)%nat; [apply J0_total|]. destruct (n =? 1)%nat; [apply J1_total|].
  cbv zeta. destruct (slt (sabs x) ztol); [fin|]. destruct (slt (sZ n) (sabs x)).
  - destruct (J0_total (sabs x)) as [a ->]. destruct (J1_total (sabs x)) as [b ->]. fin.
  - destruct (J_down (J_start n) n (sofZ 2 / sabs x)%S s0 s1 s0 s0 false) as [[a b] c]. fin.
Qed.
Lemma In_total n x : exists r, besIn fexp ztol n x = Ok r.
Proof. clear flog fsin fcos.
  unfold besIn. destruct (n =? 0)%nat; [apply I0_total|]. destruct (n =? 1)%nat; [apply I1_total|].
  cbv zeta. destruct (slt (sabs x) ztol); [fin|].
  destruct (I_down (I_start n) n (sofZ 2 / sabs x)%S s0 s1 s0) as [a b].
  destruct (I0_total x) as [y ->]. fin.
Qed.
Lemma Yn_total n x : 0 < x -> exists r, besYn flog fsin fcos n x = Ok (Some r).
Proof. clear fexp ztol.
  intros P. unfold besYn. destruct (n =? 0)%nat; [now apply Y0_total|]. destruct (n =? 1)%nat; [now apply Y1_total|].
  destruct (Y0_total x P) as [a ->]. destruct (Y1_total x P) as [b ->]. fin.
Qed.
Lemma Kn_total n x : 0 < x -> exists r, besKn fexp flog n x = Ok (Some r).
Proof. clear fsin fcos ztol.
  intros P. unfold besKn. destruct (n =? 0)%nat; [now apply K0_total|].
  destruct (K1_total x) as [b ->]. cbn [bind]. destruct (n =? 1)%nat; [fin|].
  destruct (K0_total x P) as [a ->]. fin.
Qed.

(** * Parity *)
Lemma J0_even x : besJ0 fcos (- x) = besJ0 fcos x.
Proof. clear fexp flog fsin ztol. unfold besJ0. cbn [sabs RealS]. now rewrite Rabs_Ropp. Qed.
Lemma I0_even x : besI0 fexp (- x) = besI0 fexp x.
Proof. clear flog fsin fcos ztol. unfold besI0. cbn [sabs RealS]. now rewrite Rabs_Ropp. Qed.
Lemma J1_at0 : besJ1p fsin 0 = Ok 0.
Proof. clear fexp flog fcos ztol.
  unfold besJ1p. change (slt (Scalar := RealS)) with Rltb. cbn [s1 smul RealS].
  destruct (Rltb_spec 0 1); [|lra]. destruct (bes_rec_total J1a 0 8 (0 * 0)) as [p ->]; [lia|vm_compute; lia|].
  cbn [bind]. now rewrite Rmult_0_r.
Qed.
Lemma I1_at0 : besI1p fexp 0 = Ok 0.
Proof. clear flog fsin fcos ztol.
  alllens. unfold besI1p. cbv zeta. change (slt (Scalar := RealS)) with Rltb. cbn [s1 smul RealS]. rewrite dec85, dec625.
  destruct (Rltb_spec 0 (17 / 2)); [|lra].
  destruct (cint_ok 5 (0 * 0 * (1 / 16))) as [k [-> [K1 K2]]]; [iv 5%nat; lra|]. cbn [bind].
  destruct (bes_rec_total I1a (k * 12) 12 (0 * 0 * (1 / 16))) as [p ->]; [lia|lia|].
  cbn [bind]. now rewrite Rmult_0_r.
Qed.
Lemma J1_odd x r : besJ1 fsin x = Ok r -> besJ1 fsin (- x) = Ok (- r).
Proof. clear fexp flog fcos ztol.
  unfold besJ1. change (slt (Scalar := RealS)) with Rltb. cbn [s0 sopp RealS]. rewrite Ropp_involutive.
  destruct (Rltb_spec x 0) as [A|A]; destruct (Rltb_spec (- x) 0) as [B|B]; try lra.
  - destruct (besJ1p fsin (- x)) as [p|]; [|discriminate]. cbn [bind]. intros E. injection E as <-. now rewrite Ropp_involutive.
  - intros ->. reflexivity.
  - assert (x = 0) by lra. subst x. rewrite Ropp_0, J1_at0. intros E. injection E as <-. now rewrite Ropp_0.
Qed.
Lemma I1_odd x r : besI1 fexp x = Ok r -> besI1 fexp (- x) = Ok (- r).
Proof. clear flog fsin fcos ztol.
  unfold besI1. change (slt (Scalar := RealS)) with Rltb. cbn [s0 sopp RealS]. rewrite Ropp_involutive.
  destruct (Rltb_spec x 0) as [A|A]; destruct (Rltb_spec (- x) 0) as [B|B]; try lra.
  - destruct (besI1p fexp (- x)) as [p|]; [|discriminate]. cbn [bind]. intros E. injection E as <-. now rewrite Ropp_involutive.
  - intros ->. reflexivity.
  - assert (x = 0) by lra. subst x. rewrite Ropp_0, I1_at0. intros E. injection E as <-. now rewrite Ropp_0.
Qed.

Lemma pow_odd n : Nat.odd n = true -> (-1) ^ n = -1.
Proof. clear fexp flog fsin fcos ztol. intros E. apply Nat.odd_spec in E. destruct E as [k ->]. rewrite pow_add, pow_mult. replace ((-1)^2) with 1 by lra. rewrite pow1. lra. Qed.
Lemma pow_nodd n : Nat.odd n = false -> (-1) ^ n = 1.
Proof. clear fexp flog fsin fcos ztol.
  intros E. assert (Ev : Nat.even n = true) by (rewrite <- Nat.negb_odd, E; reflexivity).
  apply Nat.even_spec in Ev. destruct Ev as [k ->]. rewrite pow_mult. replace ((-1)^2) with 1 by lra. now rewrite pow1.
Qed.

Lemma sgn_flip x n ret : x <> 0 ->
  (if Rltb (- x) 0 && Nat.odd n then - ret else ret) = (-1) ^ n * (if Rltb x 0 && Nat.odd n then - ret else ret).
Proof. clear fexp flog fsin fcos ztol.
  intros Hx. destruct (Nat.odd n) eqn:O.
  - rewrite (pow_odd n O), !andb_true_r. destruct (Rltb_spec (- x) 0); destruct (Rltb_spec x 0); lra.
  - rewrite (pow_nodd n O), !andb_false_r. lra.
Qed.

Lemma Jn_parity n x r : 0 < ztol ->
  besJn fsin fcos ztol n x = Ok r -> besJn fsin fcos ztol n (- x) = Ok ((-1) ^ n * r).
Proof. clear fexp flog.
  intros Hz. unfold besJn. destruct (Nat.eqb_spec n 0) as [->|N0].
  - rewrite J0_even. intros ->. now rewrite pow_O, Rmult_1_l.
  - destruct (Nat.eqb_spec n 1) as [->|N1].
    + intros E. rewrite (J1_odd _ _ E). rewrite pow_1. f_equal. lra.
    + cbv zeta. cbn [sabs RealS]. rewrite Rabs_Ropp. change (slt (Scalar := RealS)) with Rltb.
      destruct (Rltb_spec (Rabs x) ztol) as [L|L].
      * intros E. injection E as <-. cbn [s0 RealS]. now rewrite Rmult_0_r.
      * intros E. assert (x <> 0) by (intros ->; rewrite Rabs_R0 in L; lra).
        match type of E with bind ?m ?f = _ => destruct m as [ret|] end; [|discriminate].
        cbn [bind] in E |- *. injection E as <-. f_equal. apply sgn_flip. auto.
Qed.
Lemma In_parity n x r : 0 < ztol ->
  besIn fexp ztol n x = Ok r -> besIn fexp ztol n (- x) = Ok ((-1) ^ n * r).
Proof. clear flog fsin fcos.
  intros Hz. unfold besIn. destruct (Nat.eqb_spec n 0) as [->|N0].
  - rewrite I0_even. intros ->. now rewrite pow_O, Rmult_1_l.
  - destruct (Nat.eqb_spec n 1) as [->|N1].
    + intros E. rewrite (I1_odd _ _ E). rewrite pow_1. f_equal. lra.
    + cbv zeta. cbn [sabs RealS]. rewrite Rabs_Ropp. change (slt (Scalar := RealS)) with Rltb.
      destruct (Rltb_spec (Rabs x) ztol) as [L|L].
      * intros E. injection E as <-. cbn [s0 RealS]. now rewrite Rmult_0_r.
      * intros E. assert (x <> 0) by (intros ->; rewrite Rabs_R0 in L; lra).
        rewrite I0_even. destruct (I_down _ _ _ _ _ _) as [a b].
        destruct (besI0 fexp x) as [y|]; [|discriminate]. cbn [bind] in E |- *. injection E as <-. f_equal.
        apply sgn_flip. auto.
Qed.

(** * Recurrences *)
Lemma J_up_rec c : forall i (ax j0 j1 : R),
  J_up (S (S c)) i ax j0 j1 = INR (i + S c) * ax * J_up (S c) i ax j0 j1 - J_up c i ax j0 j1.
Proof. clear fexp flog fsin fcos ztol.
  induction c; intros i ax j0 j1.
  - cbn [J_up]. rewrite !sZ_R. replace (i + 1)%nat with (S i) by lia. reflexivity.
  - change (J_up (S (S (S c))) i ax j0 j1) with (J_up (S (S c)) (S i) ax j1 (sZ i * ax * j1 - j0)%S).
    rewrite IHc. replace (S i + S c)%nat with (i + S (S c))%nat by lia. reflexivity.
Qed.
Lemma K_up_rec c : forall i (ax j0 j1 : R),
  K_up (S (S c)) i ax j0 j1 = INR (i + S c) * ax * K_up (S c) i ax j0 j1 + K_up c i ax j0 j1.
Proof. clear fexp flog fsin fcos ztol.
  induction c; intros i ax j0 j1.
  - cbn [K_up]. rewrite !sZ_R. replace (i + 1)%nat with (S i) by lia. reflexivity.
  - change (K_up (S (S (S c))) i ax j0 j1) with (K_up (S (S c)) (S i) ax j1 (sZ i * ax * j1 + j0)%S).
    rewrite IHc. replace (S i + S c)%nat with (i + S (S c))%nat by lia. reflexivity.
Qed.

Lemma Yn_up n x y0 y1 : besY0 flog fsin x = Ok (Some y0) -> besY1 flog fcos x = Ok (Some y1) ->
  besYn flog fsin fcos (S n) x = Ok (Some (J_up n 1 (2 / x) y0 y1)).
Proof. clear fexp ztol.
  intros A B. unfold besYn. destruct n as [|n]; [cbn; now rewrite B|].
  change (S (S n) =? 0)%nat with false. change (S (S n) =? 1)%nat with false. cbv iota. rewrite A, B. cbn [bind].
  replace (S (S n) - 1)%nat with (S n) by lia. reflexivity.
Qed.
Lemma Kn_up n x y0 y1 : besK0 fexp flog x = Ok (Some y0) -> besK1 fexp flog x = Ok y1 ->
  besKn fexp flog (S n) x = Ok (Some (K_up n 1 (2 / x) y0 y1)).
Proof. clear fsin fcos ztol.
  intros A B. unfold besKn. destruct n as [|n]; [cbn; now rewrite B|].
  change (S (S n) =? 0)%nat with false. change (S (S n) =? 1)%nat with false. cbv iota. rewrite A, B. cbn [bind].
  replace (S (S n) - 1)%nat with (S n) by lia. reflexivity.
Qed.

Lemma Yn_rec n x : 0 < x -> exists a b c,
  besYn flog fsin fcos n x = Ok (Some a) /\ besYn flog fsin fcos (S n) x = Ok (Some b) /\
  besYn flog fsin fcos (S (S n)) x = Ok (Some c) /\ a + c = 2 * INR (S n) / x * b.
Proof. clear fexp ztol.
  intros P. destruct (Y0_total x P) as [y0 A]. destruct (Y1_total x P) as [y1 B].
  destruct n as [|n].
  - exists y0, y1, (J_up 1 1 (2 / x) y0 y1). split; [exact A|]. split; [exact B|]. split; [apply Yn_up; auto|].
    cbn [J_up]. rewrite sZ_R. cbn [sadd smul ssub RealS INR]. field. lra.
  - rewrite !(Yn_up _ x y0 y1 A B). do 3 eexists. split; [reflexivity|]. split; [reflexivity|]. split; [reflexivity|].
    rewrite J_up_rec. change (1 + S n)%nat with (S (S n)). field. lra.
Qed.
Lemma Kn_rec n x : 0 < x -> exists a b c,
  besKn fexp flog n x = Ok (Some a) /\ besKn fexp flog (S n) x = Ok (Some b) /\
  besKn fexp flog (S (S n)) x = Ok (Some c) /\ c - a = 2 * INR (S n) / x * b.
Proof. clear fsin fcos ztol.
  intros P. destruct (K0_total x P) as [y0 A]. destruct (K1_total x) as [y1 B].
  destruct n as [|n].
  - exists y0, y1, (K_up 1 1 (2 / x) y0 y1). split; [exact A|]. split; [unfold besKn; cbn; now rewrite B|]. split; [apply Kn_up; auto|].
    cbn [K_up]. rewrite sZ_R. cbn [sadd smul ssub RealS INR]. field. lra.
  - rewrite !(Kn_up _ x y0 y1 A B). do 3 eexists. split; [reflexivity|]. split; [reflexivity|]. split; [reflexivity|].
    rewrite K_up_rec. change (1 + S n)%nat with (S (S n)). field. lra.
Qed.

Lemma Jn_up n x j0 j1 : ztol <= x -> 0 < x -> INR (S n) < x -> besJ0 fcos x = Ok j0 -> besJ1 fsin x = Ok j1 ->
  besJn fsin fcos ztol (S n) x = Ok (J_up n 1 (2 / x) j0 j1).
Proof. clear fexp flog.
  intros Zt P L A B. unfold besJn. destruct n as [|n]; [cbn; now rewrite B|].
  change (S (S n) =? 0)%nat with false. change (S (S n) =? 1)%nat with false. cbv zeta iota. cbn [sabs RealS].
  rewrite Rabs_right by lra. change (slt (Scalar := RealS)) with Rltb.
  destruct (Rltb_spec x ztol); [lra|]. rewrite sZ_R. destruct (Rltb_spec (INR (S (S n))) x) as [Q|Q]; [|lra].
  rewrite A, B. cbn [bind]. cbn [s0 RealS]. destruct (Rltb_spec x 0); [lra|]. cbn [andb].
  replace (S (S n) - 1)%nat with (S n) by lia. reflexivity.
Qed.
Lemma Jn_rec n x : ztol <= x -> 0 < x -> INR (S (S n)) < x -> exists a b c,
  besJn fsin fcos ztol n x = Ok a /\ besJn fsin fcos ztol (S n) x = Ok b /\
  besJn fsin fcos ztol (S (S n)) x = Ok c /\ a + c = 2 * INR (S n) / x * b.
Proof. clear fexp flog.
  intros Zt P L. destruct (J0_total x) as [y0 A]. destruct (J1_total x) as [y1 B].
  assert (L1 : INR (S n) < x) by (rewrite S_INR in L; lra).
  destruct n as [|n].
  - exists y0, y1, (J_up 1 1 (2 / x) y0 y1). split; [exact A|]. split; [exact B|]. split; [apply Jn_up; auto|].
    cbn [J_up]. rewrite sZ_R. cbn [sadd smul ssub RealS INR]. field. lra.
  - rewrite (Jn_up n x y0 y1), (Jn_up (S n) x y0 y1), (Jn_up (S (S n)) x y0 y1) by (auto; rewrite S_INR in L1; lra).
    do 3 eexists. split; [reflexivity|]. split; [reflexivity|]. split; [reflexivity|].
    rewrite J_up_rec. change (1 + S n)%nat with (S (S n)). field. lra.
Qed.

(** the error of the upward recurrence *)
Lemma up_err c : forall i x j0 j1 (J : nat -> R) e,
  0 < x -> 0 <= e ->
  (forall k, (i <= k <= i + c)%nat -> 2 * INR k / x <= 2) ->
  (forall k, (i - 1 <= k)%nat -> J k + J (S (S k)) = 2 * INR (S k) / x * J (S k)) ->
  (1 <= i)%nat -> Rabs (j0 - J (i - 1)%nat) <= e -> Rabs (j1 - J i) <= 3 * e ->
  Rabs (J_up c i (2 / x) j0 j1 - J (i + c)%nat) <= 3 ^ c * (3 * e).
Proof. clear fexp flog fsin fcos ztol.
  induction c; intros i x j0 j1 J e Hx He Hk HJ Hi A B.
  - cbn [J_up pow]. rewrite Nat.add_0_r. lra.
  - cbn [J_up]. replace (i + S c)%nat with (S i + c)%nat by lia.
    replace (3 ^ S c * (3 * e)) with (3 ^ c * (3 * (3 * e))) by (cbn [pow]; ring).
    apply IHc; auto; try lia; try lra.
    + intros k Hk1. apply Hk. lia.
    + intros k Hk1. apply HJ. lia.
    + replace (S i - 1)%nat with i by lia. auto.
    + rewrite sZ_R. cbn [smul ssub RealS].
      pose proof (HJ (i - 1)%nat ltac:(lia)) as R. replace (S (i - 1)) with i in R by lia.
      replace (INR i * (2 / x) * j1 - j0 - J (S i)) with (2 * INR i / x * (j1 - J i) - (j0 - J (i - 1)%nat)) by (unfold Rdiv in *; lra).
      pose proof (Hk i ltac:(lia)) as G.
      assert (G0 : 0 <= 2 * INR i / x) by (apply Rmult_le_pos; [pose proof (pos_INR i); lra|left; apply Rinv_0_lt_compat; auto]).
      eapply Rle_trans; [apply Rabs_triang|]. rewrite Rabs_Ropp, Rabs_mult, (Rabs_right (2 * INR i / x)) by lra.
      pose proof (Rabs_pos (j1 - J i)). nra.
Qed.
End Tot.
