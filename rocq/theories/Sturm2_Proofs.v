(** Bisection: the model against the specification. *)
From Coq Require Import Reals Lra.
From Verif Require Import Prelude Prelude_Proofs Scalar RealLib Fmat Fmat_Proofs Sturm_Model Sturm_Spec Sturm_Proofs.
From Coq Require Import List.
Import ListNotations.
Local Open Scope list_scope.
Local Open Scope R_scope.

Lemma sturm_ok ztol (m : fmat R) e n : nr m = S n -> nc m = S n -> regular (S n) (el m) e -> sturm ztol m e = Ok (cneg (el m) e (S n)).
Proof.
  intros E1 E2 Rg. unfold sturm. rewrite mget_ok by lia. cbn [bind].
  set (p := fun i => minor (el m) e (S i) / minor (el m) e i).
  assert (forall i, (i <= n)%nat -> p i <> 0) as NP by (intros i Hi; apply (pivot_neq (el m) e (S n)); auto; lia).
  assert (forall i, neg (el m) e i = Rltb (p i) 0) as NG by reflexivity.
  assert (p 0%nat = e - el m 0 0) as P0 by apply pivot_0.
  match goal with |- context [for_ 1 ?h ?f ?s] =>
    destruct (for_inv (fun i st => fst st = cneg (el m) e i /\ snd st = p (i - 1)%nat) 1 h f s) as (st & E & H) end.
  - lia.
  - cbn [fst snd Nat.sub]. rs. rewrite cneg_S, NG, P0. split; auto. cbn [cneg List.seq filter length Nat.add].
    specialize (NP 0%nat ltac:(lia)). rewrite P0 in NP. unfold cneg. cbn [List.seq filter length Nat.add].
    destruct (Rleb_spec (e - el m 0 0) 0), (Rltb_spec (e - el m 0 0) 0); auto; lra.
  - intros i (c & q) (H1 & H2) (I1 & I2). cbn [fst snd] in *. subst c q. rewrite !mget_ok by lia. cbn [bind].
    eexists; split; [reflexivity|]. cbn [fst snd]. rs.
    destruct i as [|i]; [lia|]. replace (S i - 1)%nat with i by lia. replace (S (S i) - 1)%nat with (S i) by lia.
    destruct (Reqb_spec (p i) 0) as [Z|N]; [exfalso; apply (NP i); auto; lia|].
    assert (e - el m (S i) (S i) - el m (S i) i * el m (S i) i / p i = p (S i)) as EP by (symmetry; apply pivot_S; apply Rg; lia).
    split; [|exact EP]. rewrite (cneg_S (el m) e (S i)), NG. rewrite EP. destruct (Rltb (p (S i)) 0); lia.
  - rewrite E. cbn [bind]. destruct H as (-> & _). now rewrite E1.
Qed.

(** ** the range *)
Lemma mid_abs b x y : 2 * b * x * y <= Rabs b * (x * x) + Rabs b * (y * y) /\ - (Rabs b * (x * x) + Rabs b * (y * y)) <= 2 * b * x * y.
Proof.
  assert (0 <= Rabs b) by apply Rabs_pos. assert (0 <= (x - y) * (x - y)) by apply Rle_0_sqr. assert (0 <= (x + y) * (x + y)) by apply Rle_0_sqr.
  unfold Rabs in *. destruct (Rcase_abs b); nra.
Qed.
Definition lo_ (A : nat -> nat -> R) i := match i with O => 0 | S k => Rabs (A (S k) k) end.
Lemma gersh A n x : tridiagonal (S n) A ->
  quad (S n) A x <= rsum n (fun i => (A i i + (lo_ A i + Rabs (A (S i) i))) * (x i * x i)) + (A n n + lo_ A n) * (x n * x n) /\
  rsum n (fun i => (A i i - (lo_ A i + Rabs (A (S i) i))) * (x i * x i)) + (A n n - lo_ A n) * (x n * x n) <= quad (S n) A x.
Proof.
  induction n as [|n IH]; intros T.
  - unfold quad, mulv. cbn. lra.
  - destruct (IH (tri_less _ _ T)) as (I1 & I2). rewrite quad_S by auto. cbn [rsum lo_].
    destruct (mid_abs (A (S n) n) (x (S n)) (x n)) as (M1 & M2). split; lra.
Qed.
Lemma range_ok junk (m : fmat R) n : nr m = S n -> nc m = S n -> tridiagonal (S n) (el m) ->
  exists emin emax, bisec_range_junk junk m = Ok (emin, emax) /\ emin <= emax /\
    forall x, emin * sqn (S n) x <= quad (S n) (el m) x <= emax * sqn (S n) x.
Proof.
  intros E1 E2 T. unfold bisec_range_junk.
  set (up := fun i => if (i + 1 <? S n)%nat then Rabs (el m (S i) i) else Rabs junk).
  match goal with |- context [for_ 0 ?h ?f ?s] =>
    destruct (for_inv (fun k '(emin, emax, ml) => emin <= 0 <= emax /\ ml = match k with O => 0 | S i => up i end /\
      forall i, (i < k)%nat -> el m i i + (lo_ (el m) i + up i) <= emax /\ emin <= el m i i - (lo_ (el m) i + up i)) 0 h f s) as (((emin & emax) & ml) & E & H) end.
  - lia.
  - cbn. split; [lra|]. split; auto. intros; lia.
  - intros i ((a & b) & ml) (_ & Hi) (H1 & H2 & H3). rewrite E1 in *.
    assert ((if (i + 1 <? S n)%nat then x <- mget m i (i + 1) ;; Ok (sabs x) else Ok (sabs junk)) = Ok (up i)) as ->.
    { unfold up. destruct (Nat.ltb_spec (i + 1) (S n)); auto. rewrite mget_ok by lia. cbn [bind]. rs. do 2 f_equal.
      rewrite Nat.add_1_r. apply T; lia. }
    cbn [bind]. rewrite mget_ok by lia. cbn [bind]. eexists; split; [reflexivity|]. cbv beta iota. rs.
    assert (ml = lo_ (el m) i) as ->. { subst ml. destruct i as [|k]; auto. unfold up, lo_. now replace (k + 1 <? S n)%nat with true by lia. }
    set (d := el m i i) in *. set (w := lo_ (el m) i + up i) in *.
    assert (b <= (if Rltb b (d + w) then d + w else b) /\ d + w <= (if Rltb b (d + w) then d + w else b)) as (B1 & B2) by (destruct (Rltb_spec b (d + w)); lra).
    assert ((if Rltb (d - w) a then d - w else a) <= a /\ (if Rltb (d - w) a then d - w else a) <= d - w) as (A1 & A2) by (destruct (Rltb_spec (d - w) a); lra).
    split; [lra|]. split; auto. intros k Hk. destruct (Nat.eq_dec k i) as [->|N]; [fold d w; lra|]. destruct (H3 k ltac:(lia)). lra.
  - rewrite E. cbn [bind fst]. exists emin, emax. split; auto. destruct H as (H1 & _ & H3). rewrite E1 in H3. split; [lra|]. intros x.
    destruct (gersh (el m) n x T) as (G1 & G2). 
    assert (0 <= Rabs junk) as J by apply Rabs_pos.
    assert (forall i, (i < n)%nat -> up i = Rabs (el m (S i) i)) as U by (intros i Hi; unfold up; now replace (i + 1 <? S n)%nat with true by lia).
    assert (up n = Rabs junk) as UN by (unfold up; now replace (n + 1 <? S n)%nat with false by lia).
    assert (0 <= x n * x n) as XN by apply Rle_0_sqr. destruct (H3 n ltac:(lia)) as (N1 & N2). rewrite UN in N1, N2. split.
    + eapply Rle_trans; [|exact G2]. unfold sqn. cbn [rsum]. rewrite Rmult_plus_distr_l. apply Rplus_le_compat; [|nra].
      rewrite <- rsum_scal. apply rsum_le. intros i Hi. destruct (H3 i ltac:(lia)) as (K1 & K2). rewrite U in K2 by auto.
      apply Rmult_le_compat_r; [apply Rle_0_sqr|lra].
    + eapply Rle_trans; [exact G1|]. unfold sqn. cbn [rsum]. rewrite Rmult_plus_distr_l. apply Rplus_le_compat; [|nra].
      rewrite <- rsum_scal. apply rsum_le. intros i Hi. destruct (H3 i ltac:(lia)) as (K1 & K2). rewrite U in K1 by auto.
      apply Rmult_le_compat_r; [apply Rle_0_sqr|lra].
Qed.
(** the counts at the ends *)
Lemma upper_0 n A e : tridiagonal n A -> regular n A e -> (forall x, quad n A x <= e * sqn n x) -> cneg A e n = 0%nat.
Proof.
  intros T Rg H. destruct (sturm_exceed A e n T Rg) as (_ & (L & EL & HL)). destruct (cneg A e n) as [|c]; auto. exfalso.
  destruct (homog n L) as (x & N & K); [lia|]. specialize (HL x K N). specialize (H x). lra.
Qed.
Lemma lower_n n A e : tridiagonal n A -> regular n A e -> (forall x, e * sqn n x <= quad n A x) -> cneg A e n = n.
Proof.
  intros T Rg H. set (p := fun i => minor A e (S i) / minor A e i).
  assert (forall i, (i < n)%nat -> neg A e i = true) as ALL.
  { intros i Hi. destruct (neg A e i) eqn:Q; auto. exfalso.
    assert (~ p i < 0) as Hp. { intros Z. apply (proj2 (neg_spec A e i)) in Z. congruence. }
    assert (p i <> 0) as Np by (apply (pivot_neq A e n); auto).
    destruct (homog n (map (yf A e) (List.seq 0 i ++ List.seq (S i) (n - S i)))) as (x & N & K).
    { rewrite map_length, app_length, !seq_length. lia. }
    assert (forall j, (j < n)%nat -> j <> i -> yv A e n x j = 0) as Y0.
    { intros j Hj Nj. apply K. apply in_map. apply in_or_app. destruct (Nat.lt_ge_cases j i); [left|right]; apply in_seq; lia. }
    assert (yv A e n x i <> 0) as Y.
    { intros Z. apply (yv_0 A e n x); auto. intros j Hj. destruct (Nat.eq_dec j i) as [->|]; auto. }
    specialize (H x). pose proof (ldl A e n x T Rg) as LD. 
    rewrite (rsum_delta n i) in LD by (auto; intros j Hj Nj; rewrite (Y0 j) by auto; ring).
    fold (p i) in LD. assert (0 < yv A e n x i * yv A e n x i) by nra. nra. }
  unfold cneg. assert (filter (neg A e) (List.seq 0 n) = List.seq 0 n) as ->; [|apply seq_length].
  assert (forall l, (forall i, In i l -> neg A e i = true) -> filter (neg A e) l = l) as F.
  { induction l as [|i l IH]; intros Hl; auto. cbn. rewrite Hl by (left; auto). f_equal. apply IH. intros; apply Hl. now right. }
  apply F. intros i Hi. apply ALL. apply in_seq in Hi. lia.
Qed.

(** ** bisection *)
Section Bisect.
  Variable ztol : R.
  Variable m : fmat R.
  Variable n : nat.
  Hypothesis E1 : nr m = S n.
  Hypothesis E2 : nc m = S n.
  Hypothesis TR : tridiagonal (S n) (el m).
  Let A := el m.
  Let cn e := cneg A e (S n).
  Definition ok_in (lo hi : R) := forall e, dyadic lo hi e -> regular (S n) A e.
  Lemma dyadic_in lo hi x y e : dyadic lo hi x -> dyadic lo hi y -> dyadic x y e -> dyadic lo hi e.
  Proof. intros Hx Hy. induction 1; auto. now apply dy_mid. Qed.
  Lemma ok_sub lo hi x y : ok_in lo hi -> dyadic lo hi x -> dyadic lo hi y -> ok_in x y.
  Proof. intros H Hx Hy e He. apply H. now apply (dyadic_in lo hi x y). Qed.
  Lemma dyadic_mid lo hi : dyadic lo hi (lo + / 2 * (hi - lo)).
  Proof. replace (lo + / 2 * (hi - lo)) with ((lo + hi) / 2) by field. apply dy_mid; constructor. Qed.
  Lemma cn_mono x y : x <= y -> regular (S n) A x -> regular (S n) A y -> (cn y <= cn x)%nat.
  Proof. intros L Rx Ry. apply (exceed_mono (S n) A x y); auto; now apply sturm_exceed. Qed.
  Lemma one_ok steps : forall emin emax d_old c, emin <= emax -> ok_in emin emax -> cn emin = S c -> cn emax = c ->
    (forall o, d_old = Some o -> o = 2 * (emax - emin)) ->
    exists e, bisec_one ztol (/ 2) steps m emin (S c) emax d_old = Ok e /\ approximates (S n) A ((emax - emin) / 2 ^ steps) c e.
  Proof.
    induction steps as [|steps IH]; intros emin emax d_old c L OK C1 C2 D; cbn [bisec_one].
    - eexists; split; [reflexivity|]. rs.
      destruct (jump_eigen (S n) A emin emax c) as (l & Hl & EV); auto; [lia|apply OK; constructor|apply OK; constructor|].
      exists emin, emax, l. split; [lra|]. split; [cbn; lra|]. split; [rewrite <- C1; apply sturm_exceed; auto; apply OK; constructor|].
      split; [rewrite <- C2; apply sturm_exceed; auto; apply OK; constructor|]. auto.
    - rs. match goal with |- context [if ?t then Ok ?e else _] => destruct t eqn:Q end.
      + destruct d_old as [o|]; [|discriminate]. rewrite (D o eq_refl) in Q.
        assert (emax - emin = 0) as Z. { match type of Q with Reqb ?x ?y = true => destruct (Reqb_spec x y); [lra|discriminate] end. }
        eexists; split; [reflexivity|].
        destruct (jump_eigen (S n) A emin emax c) as (l & Hl & EV); auto; [lia|apply OK; constructor|apply OK; constructor|].
        exists emin, emax, l. split; [lra|]. split; [rewrite Z; unfold Rdiv; lra|]. split; [rewrite <- C1; apply sturm_exceed; auto; apply OK; constructor|].
        split; [rewrite <- C2; apply sturm_exceed; auto; apply OK; constructor|]. auto.
      + set (e := emin + / 2 * (emax - emin)). assert (dyadic emin emax e) as DY by apply dyadic_mid.
        rewrite (sturm_ok ztol m e n) by (auto; now apply OK). cbn [bind]. fold A. fold (cn e).
        assert (0 < 2 ^ steps) by (apply pow_lt; lra). assert (emin <= e <= emax) as (L1 & L2) by (unfold e; lra).
        assert (cn e <= cn emin)%nat by (apply cn_mono; auto; apply OK; auto; constructor).
        assert (cn emax <= cn e)%nat by (apply cn_mono; auto; apply OK; auto; constructor).
        assert ((emax - e) / 2 ^ steps = (emax - emin) / 2 ^ S steps /\ (e - emin) / 2 ^ steps = (emax - emin) / 2 ^ S steps) as (W1 & W2).
        { unfold e. cbn [pow]. split; field; lra. }
        destruct (Nat.eqb_spec (cn e) (S c)) as [EQ|NE].
        * destruct (IH e emax (Some (emax - emin)) c) as (r & Er & Ap); auto.
          -- apply (ok_sub emin emax); auto. constructor.
          -- intros o Ho. injection Ho as <-. unfold e. lra.
          -- exists r. split; auto. now rewrite <- W1.
        * destruct (IH emin e (Some (emax - emin)) c) as (r & Er & Ap); auto.
          -- apply (ok_sub emin emax); auto. constructor.
          -- lia.
          -- intros o Ho. injection Ho as <-. unfold e. lra.
          -- exists r. split; auto. now rewrite <- W2.
  Qed.
  Lemma approx_le w w' k e : w <= w' -> approximates (S n) A w k e -> approximates (S n) A w' k e.
  Proof. intros H (lo & hi & l & H1 & H2 & H3). exists lo, hi, l. split; auto. split; auto. lra. Qed.
  Lemma rec_ok depth steps : forall emin emax nmin nmax eig (off : nat), emin <= emax -> ok_in emin emax -> cn emin = nmin -> cn emax = nmax ->
    (off + (nmin - nmax) <= length eig)%nat ->
    exists r, bisec_rec ztol (/ 2) depth steps m emin nmin emax nmax eig (Z.of_nat off) = Ok r /\
      (forall eig', r = Some eig' -> length eig' = length eig /\
         (forall k, (k < nmin - nmax)%nat -> approximates (S n) A ((emax - emin) / 2 ^ steps) (nmax + k) (nth (off + k) eig' 0)) /\
         (forall k, (k < off \/ off + (nmin - nmax) <= k)%nat -> nth k eig' 0 = nth k eig 0)) /\
      (forall D, depth = S D -> (forall x y, dyadic emin emax x -> dyadic emin emax y -> x <= y -> y - x <= (emax - emin) / 2 ^ D -> (cn x <= S (cn y))%nat) -> r <> None).
  Proof.
    induction depth as [|depth IH]; intros emin emax nmin nmax eig off L OK C1 C2 LE; cbn [bisec_rec].
    - exists None. split; auto. split; [discriminate|]. intros D H. discriminate H.
    - assert (nmax <= nmin)%nat as MN by (subst; apply cn_mono; auto; apply OK; constructor).
      destruct (Z.eqb_spec (Z.of_nat nmin - Z.of_nat nmax) 1) as [ONE|NONE].
      + assert (nmin = S nmax) as -> by lia. clear MN.
        destruct (one_ok steps emin emax None nmax) as (e & E & Ap); auto; [discriminate|]. rewrite E. cbn [bind].
        replace (0 <=? Z.of_nat off)%Z with true by lia. rewrite Nat2Z.id, set_ok by lia. cbn [rmap]. eexists; split; [reflexivity|].
        split; [|intros; discriminate]. intros eig' H. injection H as <-. split; [apply upd_length|]. split.
        * intros k Hk. assert (k = 0%nat) as -> by lia. rewrite !Nat.add_0_r. rewrite nth_upd_eq by lia. auto.
        * intros k Hk. apply nth_upd_neq. lia.
      + rs. replace (/ 2 * (emax + emin)) with (emin + / 2 * (emax - emin)) by field.
        set (e := emin + / 2 * (emax - emin)). assert (dyadic emin emax e) as DY by apply dyadic_mid.
        rewrite (sturm_ok ztol m e n) by (auto; now apply OK). cbn [bind]. fold A. fold (cn e).
        assert (0 < 2 ^ steps) by (apply pow_lt; lra). assert (emin <= e <= emax) as (L1 & L2) by (unfold e; lra).
        assert (cn e <= cn emin)%nat by (apply cn_mono; auto; apply OK; auto; constructor).
        assert (cn emax <= cn e)%nat by (apply cn_mono; auto; apply OK; auto; constructor).
        assert ((emax - e) / 2 ^ steps <= (emax - emin) / 2 ^ steps /\ (e - emin) / 2 ^ steps <= (emax - emin) / 2 ^ steps) as (W1 & W2).
        { unfold Rdiv. split; (apply Rmult_le_compat_r; [left; now apply Rinv_0_lt_compat|lra]). }
        assert (ok_in e emax) as OK1 by (apply (ok_sub emin emax); auto; constructor).
        assert (ok_in emin e) as OK2 by (apply (ok_sub emin emax); auto; constructor).
        assert (exists r1, (if (nmax <? cn e)%nat then bisec_rec ztol (/ 2) depth steps m e (cn e) emax nmax eig (Z.of_nat off) else Ok (Some eig)) = Ok r1 /\
          (forall eig', r1 = Some eig' -> length eig' = length eig /\
            (forall k, (k < cn e - nmax)%nat -> approximates (S n) A ((emax - emin) / 2 ^ steps) (nmax + k) (nth (off + k) eig' 0)) /\
            (forall k, (k < off \/ off + (cn e - nmax) <= k)%nat -> nth k eig' 0 = nth k eig 0)) /\
          (forall D, depth = D -> (forall x y, dyadic emin emax x -> dyadic emin emax y -> x <= y -> y - x <= (emax - emin) / 2 ^ D -> (cn x <= S (cn y))%nat) -> r1 <> None)) as (r1 & -> & R1 & R1').
        { destruct (Nat.ltb_spec nmax (cn e)) as [G|G].
          - destruct (IH e emax (cn e) nmax eig off) as (r & Er & Hr & HD); auto; [lia|]. exists r. split; auto. split.
            + intros eig' HE. destruct (Hr eig' HE) as (Q1 & Q2 & Q3). split; auto. split; auto. intros k Hk. eapply approx_le; [exact W1|]. auto.
            + intros D -> HX. destruct D as [|D]; [exfalso|].
              * specialize (HX emin emax (dy_lo _ _) (dy_hi _ _) L ltac:(cbn; lra)). lia.
              * apply (HD D); auto. intros x y Hx Hy Lxy Wxy. apply HX; auto.
                -- apply (dyadic_in emin emax e emax); auto; constructor.
                -- apply (dyadic_in emin emax e emax); auto; constructor.
                -- assert (0 < 2 ^ D) by (apply pow_lt; lra). replace ((emax - emin) / 2 ^ S D) with ((emax - e) / 2 ^ D) by (unfold e; cbn [pow]; field; lra). auto.
          - exists (Some eig). split; auto. split; [|intros; discriminate]. intros eig' HE. injection HE as <-. split; auto. split; auto. intros k Hk. lia. }
        cbn [bind]. destruct r1 as [eig1|].
        2:{ exists None. split; auto. split; [discriminate|]. intros D HD HX. injection HD as HD. apply (R1' D); auto. }
        destruct (R1 eig1 eq_refl) as (Q1 & Q2 & Q3).
        destruct (Nat.ltb_spec (cn e) nmin) as [G|G].
        * replace (Z.of_nat off + (Z.of_nat (cn e) - Z.of_nat nmax))%Z with (Z.of_nat (off + (cn e - nmax))) by lia.
          destruct (IH emin e nmin (cn e) eig1 (off + (cn e - nmax))%nat) as (r & Er & Hr & HD); auto; [lia|]. exists r. split; auto. split.
          -- intros eig' HE. destruct (Hr eig' HE) as (S1 & S2 & S3). split; [congruence|]. split.
             ++ intros k Hk. destruct (Nat.lt_ge_cases k (cn e - nmax)) as [K|K].
                ** rewrite S3 by lia. auto.
                ** specialize (S2 (k - (cn e - nmax))%nat ltac:(lia)). replace (off + (cn e - nmax) + (k - (cn e - nmax)))%nat with (off + k)%nat in S2 by lia.
                   replace (cn e + (k - (cn e - nmax)))%nat with (nmax + k)%nat in S2 by lia. eapply approx_le; [exact W2|]. auto.
             ++ intros k Hk. rewrite S3 by lia. apply Q3. lia.
          -- intros D HD' HX. injection HD' as ->. destruct D as [|D]; [exfalso|].
             ++ specialize (HX emin emax (dy_lo _ _) (dy_hi _ _) L ltac:(cbn; lra)). lia.
             ++ apply (HD D); auto. intros x y Hx Hy Lxy Wxy. apply HX; auto.
                ** apply (dyadic_in emin emax emin e); auto; constructor.
                ** apply (dyadic_in emin emax emin e); auto; constructor.
                ** assert (0 < 2 ^ D) by (apply pow_lt; lra). replace ((emax - emin) / 2 ^ S D) with ((e - emin) / 2 ^ D) by (unfold e; cbn [pow]; field; lra). auto.
        * exists (Some eig1). split; auto. split; [|intros; discriminate]. intros eig' HE. injection HE as <-. split; auto. split.
          -- intros k Hk. apply Q2. lia.
          -- intros k Hk. apply Q3. lia.
  Qed.
End Bisect.
