(** The initial estimate and whole runs, for C107. *)
From Coq Require Import Reals Lra Lia List.
From Verif Require Cluster2_Proofs.
From Verif Require Import Prelude Prelude_Proofs Scalar RealLib Fmat Fmat_Proofs LE_Model LE_Spec IP_Model IP_Proofs Vop Misc_Model Stat_Model Stat2_Proofs
  Det_Proofs Cluster_Model LE_Props Stab_Proofs Small_Props Gmm_Model Gmm_Spec Gmm_Proofs Gmm2_Proofs Gmm3_Proofs.
Import ListNotations.
Local Open Scope R_scope.

Lemma psd_pd n A : symmetric n A -> psd n A -> nonsingular n A -> pd n A.
Proof.
  intros SA PA NS x (i & Hi & Nx). destruct (Rle_lt_or_eq_dec 0 (qf n A x) (PA x)) as [|E]; auto. exfalso. apply Nx, (NS x); auto. intros r Hr.
  pose proof (bf_cauchy n A (fun k => if (k =? r)%nat then 1 else 0) x SA PA) as C. rewrite <- E, Rmult_0_r in C.
  assert (B : bf n A (fun k => if (k =? r)%nat then 1 else 0) x = mv n A x r).
  { unfold bf. rewrite (rsum_ext n _ (fun k => if (k =? r)%nat then mv n A x r else 0)); [apply rsum_if; auto|]. intros k Hk. destruct (Nat.eqb_spec k r) as [->|]; ring. }
  rewrite B in C. nra.
Qed.

(** ** the estimate from a cluster *)
Definition qfz (n : nat) (A : nat -> nat -> R) : Prop := exists v, (exists a, (a < n)%nat /\ v a <> 0) /\ qf n A v = 0.
Definition flat (n : nat) (c : list (fvec R)) : Prop := exists v b, (exists a, (a < n)%nat /\ v a <> 0) /\ forall p, In p c -> rsum n (fun a => v a * vel p a) = b.
Lemma estim_ok ctol n (u : Runit) (c : list (fvec R)) : 0 <= ctol < 1 -> (0 < n)%nat -> shape n u -> c <> [] -> (forall p, In p c -> vlen p = n) ->
  exists u', _zGMMUnitEstim 0 ctol n u c = Ok u' /\ shape n u' /\ uweight u' = uweight u /\ (udet u' = 0 \/ regular n u') /\ (flat n c -> udet u' = 0).
Proof.
  intros HT Hn (S1 & S2 & S3 & S4 & S5) NE SZ. unfold _zGMMUnitEstim, default_core.
  destruct (Stat2_Proofs.mean_ok ctol c n HT NE SZ (ucore u) S1) as (mu & -> & M1 & M2). cbn [bind].
  match goal with |- context [foreach c ?f ?s0] => destruct (foreach_n (fun m (s : fmat R) => nr s = n /\ nc s = n /\ forall a b, (a < n)%nat -> (b < n)%nat -> el s a b = rsum m (fun i => (vel (nth i c (zvec 0)) a - vel mu a) * (vel (nth i c (zvec 0)) b - vel mu b))) f (zvec 0) c s0) as (c1 & -> & A & B & C) end.
  - cbn. conjs; auto.
  - intros m c1 Hm (A & B & C). assert (Hp : vlen (nth m c (zvec 0)) = n) by (apply SZ, nth_In; auto). rewrite error_ok by auto. cbn [bind].
    match goal with |- context [add_dyad c1 ?v1 ?v2] => destruct (dyad_ok c n SZ c1 v1 v2) as (c' & E & A' & B' & D') end; auto. rewrite E. eexists. split; [reflexivity|]. conjs; auto.
    intros a b Ha Hb. rewrite D', C by auto. cbn [vel rsum]. reflexivity.
  - cbn [bind]. set (cv := mat_div_nc c1 _). assert (CR : nr cv = n /\ nc cv = n) by (cbn; auto). destruct CR as (CR1 & CR2).
    assert (LP : 0 < INR (length c)). { apply lt_0_INR. destruct c; [congruence|cbn; lia]. }
    assert (CE : forall a b, (a < n)%nat -> (b < n)%nat -> el cv a b = rsum (length c) (fun i => (vel (nth i c (zvec 0)) a - vel mu a) * (vel (nth i c (zvec 0)) b - vel mu b)) / INR (length c)).
    { intros a b Ha Hb. cbn [cv mat_div_nc el]. rewrite C by auto. rs. rewrite <- INR_IZR_INZ. field. lra. }
    assert (SC : symmetric n (el cv)). { intros a b Ha Hb. rewrite !CE by auto. f_equal. apply rsum_ext. intros. ring. }
    assert (QE : forall x, qf n (el cv) x = rsum (length c) (fun i => rsum n (fun a => x a * (vel (nth i c (zvec 0)) a - vel mu a)) ^ 2) / INR (length c)).
    { intros x. unfold qf. rewrite (rsum_ext n (fun r => rsum n (fun k => x r * el cv r k * x k)) (fun r => rsum (length c) (fun i => rsum n (fun k => (x r * (vel (nth i c (zvec 0)) r - vel mu r)) * (x k * (vel (nth i c (zvec 0)) k - vel mu k)))) * / INR (length c))).
        + rewrite rsum_scal_r. unfold Rdiv. f_equal. rewrite rsum_swap. apply rsum_ext. intros i Hi. cbn [pow]. rewrite Rmult_1_r, <- rsum_scal_r. apply rsum_ext. intros r Hr. rewrite rsum_scal. auto.
        + intros r Hr. rewrite rsum_swap, <- rsum_scal_r. apply rsum_ext. intros k Hk. rewrite CE by auto. unfold Rdiv. rewrite <- rsum_scal_r, <- rsum_scal, <- rsum_scal_r, <- rsum_scal_r. apply rsum_ext. intros. ring. }
    assert (PC : psd n (el cv)). { intros x. rewrite QE. apply Rle_mult_inv_pos; auto. apply rsum_nonneg. intros. apply pow2_ge_0. }
    rewrite (C28_det_exact n cv) by auto. cbn [bind].
    assert (ONE : flat n c -> qfz n (el cv)).
    { intros (v & b & Nv & Hv). exists v. split; auto. rewrite QE. rewrite (rsum_0 (length c)); [unfold Rdiv; ring|]. intros i Hi.
      assert (HM : rsum n (fun a => v a * vel mu a) = b).
      { rewrite (rsum_ext n _ (fun a => rsum (length c) (fun i => v a * vel (nth i c (zvec 0)) a) * / INR (length c))).
        - rewrite rsum_scal_r, rsum_swap. rewrite (rsum_ext (length c) _ (fun _ => b)) by (intros j Hj; apply Hv, nth_In; auto). rewrite rsum_const. field. lra.
        - intros a Ha. rewrite M2. unfold vmean. rewrite rsum_scal, (Cluster2_Proofs.lsum_nth _ c (zvec 0)). field. lra. }
      replace (rsum n (fun a => v a * (vel (nth i c (zvec 0)) a - vel mu a))) with (b - b); [ring|].
      rewrite <- HM at 2. rewrite <- (Hv (nth i c (zvec 0))) by (apply nth_In; auto). rewrite <- rsum_sub. apply rsum_ext. intros. ring. }
    destruct (is_tol 0 (det n (el cv))) eqn:T.
    + apply is_tol_0 in T. cbn [bind]. eexists. split; [reflexivity|]. unfold shape. cbn. conjs; auto.
    + assert (ND : det n (el cv) <> 0) by (intros Z; rewrite (proj2 (is_tol_0 _) Z) in T; discriminate).
      pose proof (sym_nonsingular n (el cv) Hn SC ND) as NS. destruct (C29_inverse_partial n cv (uinv u)) as (X & -> & X1 & X2 & XI); auto. cbn [bind]. eexists. split; [reflexivity|]. unfold shape, regular. cbn [ucore ucov uweight uinv udet]. conjs; auto.
      + right. conjs; auto. apply psd_pd; auto.
      + intros FL. destruct (ONE FL) as (v & Nv & Q0). pose proof (psd_pd n _ SC PC NS v Nv). lra.
Qed.

(** ** one step *)
Definition LL (n : nat) (us : list Runit) (pts : list (fvec R)) : R := rsum (length pts) (fun i => ln (mixed (length us) (wts us) (fdens n us pts) i)).
Definition start (n : nat) (us : list Runit) : Prop := forall u, In u us -> shape n u /\ 0 < uweight u /\ (udet u = 0 \/ regular n u).
Definition fit (n : nat) (us : list Runit) : Prop := (forall u, In u us -> shape n u /\ 0 < uweight u /\ regular n u) /\ rsum (length us) (wts us) = 1.
Lemma fit_start n us : fit n us -> start n us.
Proof. intros (F & _) u Iu. destruct (F u Iu) as (A & B & C). auto. Qed.
Lemma seq_sum (f : nat -> R) n a : fold_left (fun s i => s + f i) (List.seq 0 n) a = a + rsum n f.
Proof. induction n as [|n IH]; [cbn; ring|]. rewrite seq_S, fold_left_app, IH. cbn. ring. Qed.

Section Run.
Variables (ltol : R) (n : nat) (pts : list (fvec R)).
Notation N := (length pts).
Hypothesis HN : (0 < N)%nat.
Hypothesis Hn : (0 < n)%nat.
Hypothesis SZ : forall p, In p pts -> vlen p = n.
Hypothesis SP : spread n N (pnt pts).
Notation E_ := (_zGMMCreateEMExpect 0 exp (2 * PI)).
Lemma expect_ok us pdf ld dt nk : start n us -> nr pdf = length us -> nc pdf = N -> nr ld = length us -> nc ld = N -> vlen dt = N -> vlen nk = length us ->
  exists pdf' ld' dt' nk', E_ n us pts pdf ld dt nk = Ok (pdf', ld', dt', nk') /\ nr pdf' = length us /\ nc pdf' = N /\ nr ld' = length us /\ nc ld' = N /\ vlen dt' = N /\ vlen nk' = length us /\
    (forall i, (i < N)%nat -> vel dt' i = mixed (length us) (wts us) (fdens n us pts) i) /\
    (forall k i, (k < length us)%nat -> (i < N)%nat -> el ld' k i = gam (length us) (wts us) (fdens n us pts) k i) /\
    (forall k, (k < length us)%nat -> vel nk' k = nks (length us) N (wts us) (fdens n us pts) k).
Proof.
  intros ST P1 P2 L1 L2 D1 K1. unfold _zGMMCreateEMExpect. assert (SH : forall u, In u us -> shape n u) by (intros u Iu; apply ST; auto).
  destruct (densities_ok n us pts SH SZ pdf dt P1 P2 D1) as (pdf' & dt' & -> & A1 & A2 & A3 & A4 & A5). cbn [bind].
  destruct (loads_ok n us pts SZ pdf' ld dt' nk A1 A2 L1 L2 A3 K1 A4 A5) as (ld' & nk' & -> & B1 & B2 & B3 & B4 & B5). cbn [bind].
  exists pdf', ld', dt', nk'. conjs; auto.
Qed.
Lemma step_ok us ld nk : us <> [] -> start n us -> nr ld = length us -> nc ld = N -> vlen nk = length us ->
  (forall k i, (k < length us)%nat -> (i < N)%nat -> el ld k i = gam (length us) (wts us) (fdens n us pts) k i) ->
  (forall k, (k < length us)%nat -> vel nk k = nks (length us) N (wts us) (fdens n us pts) k) ->
  exists us', _zGMMCreateEMMaximize 0 n us pts ld nk = Ok us' /\ length us' = length us /\ fit n us' /\ (fit n us -> LL n us pts <= LL n us' pts) /\
    forall k, (k < length us)%nat -> let u := nth k us' u0 in uweight u = w1 (length us) N (wts us) (fdens n us pts) k /\ (forall a, vel (ucore u) a = mu1 (length us) N (pnt pts) (wts us) (fdens n us pts) k a) /\
      forall a b, (a < n)%nat -> (b < n)%nat -> el (ucov u) a b = cov1 (length us) N (pnt pts) (wts us) (fdens n us pts) k a b.
Proof.
  intros NE ST L1 L2 K1 LE KE. assert (HK : (0 < length us)%nat) by (destruct us; [congruence|cbn; lia]).
  assert (SH : forall u, In u us -> shape n u) by (intros u Iu; apply ST; auto).
  assert (Hw : forall k, (k < length us)%nat -> 0 < wts us k) by (intros k Hk; apply ST, nth_In; auto).
  assert (Hd : forall k, (k < length us)%nat -> udet (nth k us u0) = 0 \/ regular n (nth k us u0)) by (intros k Hk; apply ST, nth_In; auto).
  destruct (max_ok n us pts SH SZ ld nk L1 L2 K1 LE KE HN Hn Hw Hd SP) as (us' & -> & LU & M). exists us'.
  assert (FP : forall k i, (k < length us)%nat -> (i < N)%nat -> 0 < fdens n us pts k i) by (intros; apply udens_pos; auto).
  split; [reflexivity|]. split; [exact LU|]. split; [|split].
  - split.
    + intros u Iu. destruct (In_nth _ _ u0 Iu) as (k & Hk & <-). rewrite LU in Hk. destruct (M k Hk) as (A & B & C & _). split; [exact A|]. split; [|exact B]. rewrite C. apply w1_pos; auto.
    + rewrite LU. rewrite (rsum_ext _ (wts us') (w1 (length us) N (wts us) (fdens n us pts))) by (intros k Hk; destruct (M k Hk) as (A & B & C & _); exact C). apply w1_sum; auto.
  - intros (F & SW). unfold LL. rewrite LU.
    assert (R1 : forall k, (k < length us)%nat -> regular n (nth k us u0)) by (intros k Hk; apply F, nth_In; auto).
    pose proof (em_monotone n (length us) N (pnt pts) (wts us) (fun k => vel (ucore (nth k us u0))) (fun k => el (ucov (nth k us u0))) (fun k => el (uinv (nth k us u0))) HK HN Hw SW) as EM.
    assert (FD : forall k i, (k < length us)%nat -> dens n (pnt pts) (fun k => vel (ucore (nth k us u0))) (fun k => el (ucov (nth k us u0))) (fun k => el (uinv (nth k us u0))) k i = fdens n us pts k i) by (intros k i Hk; unfold fdens; rewrite udens_regular by auto; reflexivity).
    set (D := dens n (pnt pts) (fun k => vel (ucore (nth k us u0))) (fun k => el (ucov (nth k us u0))) (fun k => el (uinv (nth k us u0)))) in *.
    assert (MX : forall i, mixed (length us) (wts us) D i = mixed (length us) (wts us) (fdens n us pts) i) by (intros i; apply rsum_ext; intros k Hk; rewrite FD; auto).
    assert (GM_ : forall k i, (k < length us)%nat -> gam (length us) (wts us) D k i = gam (length us) (wts us) (fdens n us pts) k i) by (intros k i Hk; unfold gam; rewrite MX, FD; auto).
    assert (NK : forall k, (k < length us)%nat -> nks (length us) N (wts us) D k = nks (length us) N (wts us) (fdens n us pts) k) by (intros k Hk; apply rsum_ext; intros; apply GM_; auto).
    assert (W1 : forall k, (k < length us)%nat -> w1 (length us) N (wts us) D k = wts us' k) by (intros k Hk; unfold w1; rewrite NK by auto; symmetry; apply M; auto).
    assert (MU : forall k a, (k < length us)%nat -> mu1 (length us) N (pnt pts) (wts us) D k a = vel (ucore (nth k us' u0)) a).
    { intros k a Hk. destruct (M k Hk) as (_ & _ & _ & Mm & _). rewrite Mm. unfold mu1. rewrite NK by auto. f_equal. apply rsum_ext. intros. rewrite GM_; auto. }
    assert (CV : forall k a b, (k < length us)%nat -> (a < n)%nat -> (b < n)%nat -> cov1 (length us) N (pnt pts) (wts us) D k a b = el (ucov (nth k us' u0)) a b).
    { intros k a b Hk Ha Hb. destruct (M k Hk) as (_ & _ & _ & Mm & Mc). rewrite Mc by auto. unfold cov1. rewrite NK by auto. f_equal. apply rsum_ext. intros. rewrite GM_, !MU, !Mm by auto. auto. }
    specialize (EM ltac:(intros k Hk; apply R1; auto) ltac:(intros k Hk; apply R1; auto) ltac:(intros k Hk; apply R1; auto) (fun k => el (uinv (nth k us' u0))) SP).
    eapply Rle_trans; [|eapply Rle_trans; [apply EM|]].
    + apply Req_le, rsum_ext. intros i Hi. f_equal. symmetry. apply MX.
    + intros k Hk. destruct (M k Hk) as (_ & (_ & _ & IV & _) & _). intros r c Hr Hc. rewrite <- (IV r c Hr Hc). unfold mm. apply rsum_ext. intros j Hj. rewrite CV by auto. auto.
    + apply Req_le, rsum_ext. intros i Hi. f_equal. apply rsum_ext. intros k Hk. fold D. rewrite W1 by auto. f_equal. destruct (M k Hk) as (_ & RG & _). unfold fdens. rewrite (udens_regular n _ _ RG). unfold normal. f_equal.
      * f_equal. f_equal. apply LE6_Proofs.qf_ext. intros. rewrite !MU by auto. auto.
      * f_equal. f_equal. apply det_ext. intros. apply CV; auto.
  - intros k Hk u. destruct (M k Hk) as (_ & _ & A & B & C). auto.
Qed.

(** ** the loop *)
Notation EM_ := (em_loop 0 ltol exp ln (2 * PI)).
Lemma loglik_ok g (dt : fvec R) : vlen dt = N -> (forall i, (i < N)%nat -> vel dt i = mixed (length (glist g)) (wts (glist g)) (fdens n (glist g) pts) i) ->
  _zGMMLogLikelihood ltol ln g dt = if is_tol ltol (loglik g - LL n (glist g) pts) then (true, g) else (false, GM (glist g) (LL n (glist g) pts)).
Proof.
  intros V E. unfold _zGMMLogLikelihood. cbv zeta. match goal with |- context [fold_left ?f ?l ?a] => replace (fold_left f l a) with (LL n (glist g) pts) end; [reflexivity|].
  rewrite V. rs. rewrite (seq_sum (fun i => ln (vel dt i))). unfold LL. rewrite Rplus_0_l. apply rsum_ext. intros i Hi. rewrite E by auto. reflexivity.
Qed.
Lemma loop_fit iter : forall g pdf ld dt nk, glist g <> [] -> fit n (glist g) ->
  nr pdf = length (glist g) -> nc pdf = N -> nr ld = length (glist g) -> nc ld = N -> vlen dt = N -> vlen nk = length (glist g) ->
  exists g' b, EM_ iter n g pts pdf ld dt nk = Ok (g', b) /\ length (glist g') = length (glist g) /\ fit n (glist g') /\ LL n (glist g) pts <= LL n (glist g') pts /\
    (b = true -> Rabs (loglik g' - LL n (glist g') pts) <= ltol) /\ (b = false -> (0 < iter)%nat \/ loglik g <= LL n (glist g) pts -> loglik g' <= LL n (glist g') pts).
Proof.
  induction iter as [|iter IH]; intros g pdf ld dt nk NE F P1 P2 L1 L2 D1 K1; cbn [em_loop].
  - exists g, false. split; [reflexivity|]. conjs; auto; try lra; try discriminate. intros _ [H|H]; [lia|auto].
  - destruct (expect_ok (glist g) pdf ld dt nk (fit_start _ _ F) P1 P2 L1 L2 D1 K1) as (pdf' & ld' & dt' & nk' & -> & A1 & A2 & A3 & A4 & A5 & A6 & A7 & A8 & A9). cbn [bind]. rewrite loglik_ok by auto.
    destruct (is_tol ltol (loglik g - LL n (glist g) pts)) eqn:T.
    + exists g, true. split; [reflexivity|]. conjs; auto; try lra; try discriminate. intros _. rewrite is_tol_R in T. destruct (Rleb_spec (Rabs (loglik g - LL n (glist g) pts)) ltol); [auto|discriminate].
    + cbn [glist loglik]. destruct (step_ok (glist g) ld' nk' NE (fit_start _ _ F) A3 A4 A6 A8 A9) as (us' & -> & B1 & B2 & B3 & _). cbn [bind]. specialize (B3 F).
      destruct (IH (GM us' (LL n (glist g) pts)) pdf' ld' dt' nk') as (g' & b & E & C1 & C2 & C3 & C4 & C5); cbn [glist loglik]; auto; try congruence.
      * intros Z. rewrite Z in B1. destruct (glist g); [congruence|discriminate].
      * cbn [glist loglik] in *. exists g', b. split; [exact E|]. conjs; auto; try congruence. lra.
Qed.
Lemma loop_start iter g pdf ld dt nk : glist g <> [] -> start n (glist g) -> ltol < Rabs (loglik g - LL n (glist g) pts) ->
  nr pdf = length (glist g) -> nc pdf = N -> nr ld = length (glist g) -> nc ld = N -> vlen dt = N -> vlen nk = length (glist g) ->
  exists g' b, EM_ (S iter) n g pts pdf ld dt nk = Ok (g', b) /\ length (glist g') = length (glist g) /\ fit n (glist g') /\ (fit n (glist g) -> LL n (glist g) pts <= LL n (glist g') pts) /\
    (b = true -> Rabs (loglik g' - LL n (glist g') pts) <= ltol) /\ (b = false -> (0 < iter)%nat \/ fit n (glist g) -> loglik g' <= LL n (glist g') pts).
Proof.
  intros NE F NT P1 P2 L1 L2 D1 K1. cbn [em_loop].
  destruct (expect_ok (glist g) pdf ld dt nk F P1 P2 L1 L2 D1 K1) as (pdf' & ld' & dt' & nk' & -> & A1 & A2 & A3 & A4 & A5 & A6 & A7 & A8 & A9). cbn [bind]. rewrite loglik_ok by auto.
  rewrite is_tol_R. destruct (Rleb_spec (Rabs (loglik g - LL n (glist g) pts)) ltol); [lra|].
  cbn [glist loglik]. destruct (step_ok (glist g) ld' nk' NE F A3 A4 A6 A8 A9) as (us' & -> & B1 & B2 & B3 & _). cbn [bind].
  destruct (loop_fit iter (GM us' (LL n (glist g) pts)) pdf' ld' dt' nk') as (g' & b & E & C1 & C2 & C3 & C4 & C5); cbn [glist loglik]; auto; try congruence.
  - intros Z. rewrite Z in B1. destruct (glist g); [congruence|discriminate].
  - cbn [glist loglik] in *. exists g', b. split; [exact E|]. conjs; auto; try congruence.
    + intros X. specialize (B3 X). lra.
    + intros Z [X|X]; apply C5; auto.
Qed.
End Run.

(** ** the initial estimates *)
Lemma estimates_ok ctol n w : 0 <= ctol < 1 -> (0 < n)%nat -> 0 < w -> forall cs us, length cs = length us -> (forall u, In u us -> shape n u) -> (forall c, In c cs -> c <> [] /\ forall p, In p c -> vlen p = n) ->
  exists us', estimates 0 ctol n us cs w = Ok us' /\ length us' = length us /\ start n us' /\ (forall u, In u us' -> uweight u = w) /\ ((forall c, In c cs -> flat n c) -> forall u, In u us' -> udet u = 0).
Proof.
  intros HT Hn Hw. induction cs as [|c cs IH]; intros [|u us] LU SU SC; try discriminate; cbn [estimates].
  - exists []. split; [reflexivity|]. conjs; auto; [intros u []|intros u []|intros _ u []].
  - destruct (SC c (or_introl eq_refl)) as (Cn & Cs). destruct (estim_ok ctol n u c HT Hn (SU u (or_introl eq_refl)) Cn Cs) as (u' & -> & U1 & U2 & U3 & U4). cbn [bind].
    destruct (IH us) as (us' & -> & A & B & C & D). { cbn in LU. lia. } { intros; apply SU; right; auto. } { intros; apply SC; right; auto. }
    cbn [bind]. eexists. split; [reflexivity|]. conjs.
    + cbn. congruence.
    + intros v [<-|Iv]; [|apply B; auto]. unfold shape, regular in *. cbn [ucore ucov uweight uinv udet]. split; [exact U1|]. split; [exact Hw|exact U3].
    + intros v [<-|Iv]; [reflexivity|apply C; auto].
    + intros O1 v [<-|Iv]; [cbn; apply U4, O1; left; auto|apply D; auto]. intros c' Ic'. apply O1. right. auto.
Qed.
(** nothing of the initial units but their sizes matters: the huge determinant of zGMMInit disappears *)
Lemma estimates_huge stol ctol n w h h' m : forall k cs, length cs = k ->
  estimates (T := R) stol ctol n (repeat (GU (zvec m) (zmat m m) 0 (zmat m m) h) k) cs w = estimates stol ctol n (repeat (GU (zvec m) (zmat m m) 0 (zmat m m) h') k) cs w.
Proof. induction k as [|k IH]; intros [|c cs] L; try discriminate; auto. cbn [repeat estimates]. cbn in L. rewrite (IH cs) by lia. reflexivity. Qed.

(** ** equal densities *)
Lemma inverse_unique n C P Q : nonsingular n C -> inverse n C P -> inverse n C Q -> forall a b, (a < n)%nat -> (b < n)%nat -> P a b = Q a b.
Proof.
  intros NS HP HQ a b Ha Hb. assert (Z : P a b - Q a b = 0); [|lra]. apply (NS (fun r => P r b - Q r b)); auto. intros r Hr. unfold mv. rewrite (rsum_ext n _ (fun k => C r k * P k b - C r k * Q k b)) by (intros; ring). rewrite rsum_sub.
  pose proof (HP r b Hr Hb) as E1. pose proof (HQ r b Hr Hb) as E2. unfold mm in E1, E2. lra.
Qed.
Section Alike.
Variables (ltol : R) (n : nat) (pts : list (fvec R)).
Notation N := (length pts).
Hypothesis HN : (0 < N)%nat.
Hypothesis Hn : (0 < n)%nat.
Hypothesis SZ : forall p, In p pts -> vlen p = n.
Hypothesis SP : spread n N (pnt pts).
Definition alike (us : list Runit) : Prop := forall k, (k < length us)%nat -> wts us k = 1 / INR (length us) /\ forall i, (i < N)%nat -> fdens n us pts k i = fdens n us pts 0 i.
Definition same (us : list Runit) : Prop := forall k, (k < length us)%nat -> let u := nth k us u0 in uweight u = 1 / INR (length us) /\ (forall a, vel (ucore u) a = smean N (pnt pts) a) /\ forall a b, (a < n)%nat -> (b < n)%nat -> el (ucov u) a b = scov N (pnt pts) a b.
Lemma alike_next us : us <> [] -> start n us -> alike us -> let K := length us in forall k, (k < K)%nat -> w1 K N (wts us) (fdens n us pts) k = 1 / INR K /\
  (forall a, mu1 K N (pnt pts) (wts us) (fdens n us pts) k a = smean N (pnt pts) a) /\ forall a b, cov1 K N (pnt pts) (wts us) (fdens n us pts) k a b = scov N (pnt pts) a b.
Proof.
  intros NE ST AL K k Hk. assert (HK : 0 < INR K) by (apply lt_0_INR; lia). assert (HNR : 0 < INR N) by (apply lt_0_INR; lia).
  assert (FP : forall k i, (k < K)%nat -> 0 < fdens n us pts k i) by (intros; apply udens_pos, ST, nth_In; auto).
  assert (MX : forall i, (i < N)%nat -> mixed K (wts us) (fdens n us pts) i = fdens n us pts 0 i).
  { intros i Hi. unfold mixed. rewrite (rsum_ext K _ (fun _ => 1 / INR K * fdens n us pts 0 i)) by (intros j Hj; destruct (AL j Hj) as (-> & ->); auto). rewrite rsum_const. field. lra. }
  assert (G : forall i, (i < N)%nat -> gam K (wts us) (fdens n us pts) k i = 1 / INR K).
  { intros i Hi. unfold gam. rewrite MX by auto. destruct (AL k Hk) as (-> & E). rewrite E by auto. fold K. field. pose proof (FP 0%nat i ltac:(lia)). lra. }
  assert (NK : nks K N (wts us) (fdens n us pts) k = INR N / INR K). { unfold nks. rewrite (rsum_ext N _ (fun _ => 1 / INR K)) by auto. rewrite rsum_const. field. lra. }
  assert (MU : forall a, mu1 K N (pnt pts) (wts us) (fdens n us pts) k a = smean N (pnt pts) a).
  { intros a. unfold mu1, smean. rewrite NK, (rsum_ext N _ (fun i => 1 / INR K * pnt pts i a)) by (intros; rewrite G; auto). rewrite rsum_scal. field. lra. }
  split; [|split; [exact MU|]].
  - unfold w1. rewrite NK. field. lra.
  - intros a b. unfold cov1, scov. rewrite NK, (rsum_ext N _ (fun i => 1 / INR K * ((pnt pts i a - smean N (pnt pts) a) * (pnt pts i b - smean N (pnt pts) b)))) by (intros; rewrite G, !MU by auto; ring). rewrite rsum_scal. field. lra.
Qed.
Lemma same_alike us : fit n us -> same us -> alike us.
Proof.
  intros (F & _) S_ k Hk. destruct (S_ k Hk) as (A & B & C). split; [exact A|]. intros i Hi. assert (H0 : (0 < length us)%nat) by lia. destruct (S_ 0%nat H0) as (_ & B0 & C0).
  destruct (F (nth k us u0)) as (_ & _ & RK); [apply nth_In; auto|]. destruct (F (nth 0 us u0)) as (_ & _ & R0); [apply nth_In; auto|].
  unfold fdens. rewrite !udens_regular by auto. unfold normal. destruct RK as (KS & KP & KI & _), R0 as (ZS & ZP & ZI & _).
  assert (CE : forall a b, (a < n)%nat -> (b < n)%nat -> el (ucov (nth k us u0)) a b = el (ucov (nth 0 us u0)) a b) by (intros; rewrite C, C0; auto).
  assert (KI' : inverse n (el (ucov (nth 0 us u0))) (el (uinv (nth k us u0)))). { intros r c Hr Hc. rewrite <- (KI r c Hr Hc). unfold mm. apply rsum_ext. intros. rewrite CE; auto. }
  pose proof (inverse_unique n _ _ _ (pd_nonsingular n _ ZP) KI' ZI) as PE. f_equal.
  - f_equal. f_equal. apply LE6_Proofs.qf_ext. intros. rewrite !B, !B0, PE by auto. auto.
  - f_equal. f_equal. apply det_ext. auto.
Qed.
Lemma same_next us us' : us <> [] -> start n us -> alike us -> length us' = length us ->
  (forall k, (k < length us)%nat -> let u := nth k us' u0 in uweight u = w1 (length us) N (wts us) (fdens n us pts) k /\ (forall a, vel (ucore u) a = mu1 (length us) N (pnt pts) (wts us) (fdens n us pts) k a) /\
      forall a b, (a < n)%nat -> (b < n)%nat -> el (ucov u) a b = cov1 (length us) N (pnt pts) (wts us) (fdens n us pts) k a b) -> same us'.
Proof.
  intros NE ST AL LU M k Hk. rewrite LU in *. destruct (M k Hk) as (A & B & C). destruct (alike_next us NE ST AL k Hk) as (A' & B' & C'). cbv zeta. conjs; [congruence| |].
  - intros a. rewrite B. apply B'.
  - intros a b Ha Hb. rewrite C by auto. apply C'.
Qed.
Notation EM_ := (em_loop 0 ltol exp ln (2 * PI)).
Lemma loop_same iter : forall g pdf ld dt nk g' b, glist g <> [] -> start n (glist g) -> alike (glist g) -> (same (glist g) /\ fit n (glist g) \/ ltol < Rabs (loglik g - LL n (glist g) pts) /\ (0 < iter)%nat) ->
  nr pdf = length (glist g) -> nc pdf = N -> nr ld = length (glist g) -> nc ld = N -> vlen dt = N -> vlen nk = length (glist g) ->
  EM_ iter n g pts pdf ld dt nk = Ok (g', b) -> same (glist g').
Proof.
  induction iter as [|iter IH]; intros g pdf ld dt nk g' b NE F AL D P1 P2 L1 L2 D1 K1; cbn [em_loop].
  - intros [= <- <-]. destruct D as [(D & _)|D]; [exact D|lia].
  - destruct (expect_ok n pts SZ (glist g) pdf ld dt nk F P1 P2 L1 L2 D1 K1) as (pdf' & ld' & dt' & nk' & -> & A1 & A2 & A3 & A4 & A5 & A6 & A7 & A8 & A9). cbn [bind]. rewrite (loglik_ok ltol n pts) by auto.
    rewrite is_tol_R. destruct (Rleb_spec (Rabs (loglik g - LL n (glist g) pts)) ltol) as [LT|LT].
    + intros [= <- <-]. destruct D as [(D & _)|D]; [exact D|lra].
    + cbn [glist loglik]. destruct (step_ok n pts HN Hn SZ SP (glist g) ld' nk' NE F A3 A4 A6 A8 A9) as (us' & -> & B1 & B2 & _ & B4). cbn [bind].
      pose proof (same_next (glist g) us' NE F AL B1 B4) as SM. apply IH; cbn [glist]; auto; try congruence.
      * intros Z. rewrite Z in B1. destruct (glist g); [congruence|discriminate].
      * apply fit_start; auto.
      * apply same_alike; auto.
Qed.
End Alike.
