(** Savitzky-Golay smoothing (Stat_Model.v) reproduces polynomials. *)
From Coq Require Import Reals Lra Lia Psatz.
From Verif Require Import Prelude Prelude_Proofs Scalar RealLib Fmat Fmat_Proofs Pex_Spec Pex_Proofs IP4_Proofs Curve_Model Curve_Proofs Curve_Props Stat_Model Stat_Proofs.
Local Open Scope R_scope.

Lemma ispoly_plus n f g : ispoly n f -> ispoly n g -> ispoly n (fun t => f t + g t).
Proof. intros (c & A) (d & B). exists (fun i => c i + d i). intros t. rewrite A, B. unfold pcoef. rewrite <- rsum_add. apply rsum_ext. intros; ring. Qed.
Lemma ispoly_k n f k : ispoly n f -> ispoly n (fun t => k * f t).
Proof. intros (c & A). exists (fun i => k * c i). intros t. rewrite A. unfold pcoef. rewrite <- rsum_scal. apply rsum_ext. intros; ring. Qed.
Lemma ispoly_x n f : ispoly n f -> ispoly (S n) (fun t => t * f t).
Proof. intros (c & A). exists (fun i => match i with O => 0 | S i => c i end). intros t. rewrite pcoef_S, A. cbv beta iota. change (pcoef n (fun i => c i) t) with (pcoef n c t). ring. Qed.
Lemma ispoly_up n f : ispoly n f -> ispoly (S n) f.
Proof. intros (c & A). exists (fun i => if (i <? n)%nat then c i else 0). intros t. rewrite A. unfold pcoef. cbn [rsum]. destruct (Nat.ltb_spec n n); [lia|]. rewrite Rmult_0_l, Rplus_0_r. apply rsum_ext. intros i Hi. destruct (Nat.ltb_spec i n); [auto|lia]. Qed.
Lemma ispoly_const n k : ispoly (S n) (fun _ => k).
Proof. exists (fun i => match i with O => k | _ => 0 end). intros t. rewrite pcoef_S. unfold pcoef. rewrite rsum_0 by (intros; ring). ring. Qed.
Lemma ispoly_eq n f g : (forall t, f t = g t) -> ispoly n f -> ispoly n g.
Proof. intros H (c & A). exists c. intros t. now rewrite <- H. Qed.
Lemma ispoly_affine n : forall f a b, ispoly n f -> ispoly n (fun t => f (a + b * t)).
Proof.
  induction n as [|n IH]; intros f a b (c & A).
  - exists c. intros t. rewrite A. reflexivity.
  - assert (P : ispoly n (pcoef n (fun i => c (S i)))) by (eexists; reflexivity). specialize (IH _ a b P).
    apply (ispoly_eq _ (fun t => c O + (a * pcoef n (fun i => c (S i)) (a + b * t) + b * (t * pcoef n (fun i => c (S i)) (a + b * t))))).
    + intros t. rewrite A, pcoef_S. ring.
    + apply ispoly_plus; [apply ispoly_const|]. apply ispoly_plus; [apply ispoly_up, ispoly_k, IH|apply ispoly_k, ispoly_x, IH].
Qed.
Lemma ispoly_peval p : ispoly (length p) (peval p).
Proof. exists (coef p). intros t. reflexivity. Qed.
Lemma ispoly_list n f : ispoly n f -> exists q, length q = n /\ forall t, peval q t = f t.
Proof.
  intros (c & A). exists (map c (List.seq 0 n)). split; [now rewrite map_length, seq_length|]. intros t. rewrite A. unfold peval, pcoef. rewrite map_length, seq_length. apply rsum_ext. intros i Hi.
  unfold coef. rewrite (nth_indep _ 0 (c O)) by (rewrite map_length, seq_length; auto). rewrite map_nth, seq_nth by auto. reflexivity.
Qed.
Lemma ispoly_agree n f g (a : nat -> R) : ispoly n f -> ispoly n g -> (forall i j, (i < j < n)%nat -> a i <> a j) -> (forall i, (i < n)%nat -> f (a i) = g (a i)) -> forall t, f t = g t.
Proof.
  intros (c & A) (d & B) D H t. apply Rminus_diag_uniq.
  assert (E : forall t, f t - g t = pcoef n (fun i => c i - d i) t). { intros u. rewrite A, B. unfold pcoef. rewrite <- rsum_sub. apply rsum_ext. intros; ring. }
  rewrite E. apply (roots n _ a); auto. intros i Hi. rewrite <- E, H by auto. ring.
Qed.

(** least squares in a window of polynomial data give that polynomial *)
Lemma lsm_exact (p p' : R -> R) w dim st (win : fvec R) : ispoly (dim + 1) p -> (forall x, derivable_pt_lim p x (p' x)) -> (2 <= w)%nat -> (dim < w)%nat -> vlen win = w ->
  (forall i, (i < w)%nat -> vel win i = p (INR st + INR i)) ->
  exists pc, zPexIPCreateLSM 0 (IZR (Z.of_nat (w - 1))) dim (FV w (fun i => IZR (Z.of_nat i))) win = Ok (Some pc) /\
    forall t, zPexIPVal pc t = Ok (p (INR st + t)) /\ zPexIPVel pc t = Ok (p' (INR st + t)).
Proof.
  intros HP HD HW HK HL HV. set (term := IZR (Z.of_nat (w - 1))). assert (T0 : 0 < term) by (apply IZR_lt; lia).
  destruct (C70_least_squares_partial term dim (FV w (fun i => IZR (Z.of_nat i))) win) as (pc & pos & vl & acc & E & (I1 & I2 & I3) & L & M).
  - lra.
  - cbn. auto.
  - exists (fun i => i). cbn. split; [intros; lia|]. intros i j H Q. apply eq_IZR in Q. lia.
  - exists pc. split; [exact E|].
    assert (HQ : ispoly (dim + 1) (fun s => p (INR st + term * s))) by (now apply ispoly_affine).
    apply ispoly_list in HQ as (q & Lq & Eq). specialize (M q Lq).
    assert (Z : sq_error (fun s => peval q (s / term)) (FV w (fun i => IZR (Z.of_nat i))) win = 0).
    { unfold sq_error. cbn [vlen vel]. apply rsum_0. intros i Hi. rewrite Eq, HV by auto. replace (INR st + term * (IZR (Z.of_nat i) / term)) with (INR st + INR i) by (rewrite (INR_IZR_INZ i); field; lra). ring. }
    rewrite Z in M.
    assert (NE : pip_c pc <> []) by (intros C; rewrite C in L; cbn in L; lia).
    assert (POS : forall t, pos t = ppos pc t). { intros t. destruct (I1 t) as (A & _). rewrite pip_val in A by auto. congruence. }
    assert (PP : ispoly (dim + 1) pos).
    { apply (ispoly_eq _ (fun t => peval (pip_c pc) (0 + / pip_term pc * t))). - intros t. rewrite POS. unfold ppos. f_equal. unfold Rdiv. ring. - apply (ispoly_affine _ (peval (pip_c pc))). rewrite <- L. apply ispoly_peval. }
    assert (EQ : forall t, pos t = p (INR st + t)).
    { apply (ispoly_agree (dim + 1) pos (fun t => p (INR st + t)) INR); auto.
      - apply (ispoly_eq _ (fun t => p (INR st + 1 * t))); [intros; now rewrite Rmult_1_l|now apply ispoly_affine].
      - intros i j H Q. apply INR_eq in Q. lia.
      - intros i Hi. unfold sq_error in M. cbn [vlen vel] in M.
        assert (Z1 : (pos (IZR (Z.of_nat i)) - vel win i) ^ 2 = 0).
        { apply (rsum_nonneg_0 w (fun i => (pos (IZR (Z.of_nat i)) - vel win i) ^ 2)); [intros; apply pow2_ge_0| |lia]. apply Rle_antisym; auto. apply rsum_nonneg. intros; apply pow2_ge_0. }
        rewrite HV in Z1 by lia. rewrite <- INR_IZR_INZ in Z1. assert (pos (INR i) - p (INR st + INR i) = 0); [|lra]. apply Rsqr_0_uniq. unfold Rsqr. lra. }
    intros t. destruct (I1 t) as (A & B & _). rewrite A, B, EQ. split; auto. f_equal.
    apply (uniqueness_limite pos t); [apply I2|]. 
    assert (D : derivable_pt_lim (fun t => p (INR st + t)) t (p' (INR st + t))).
    { replace (p' (INR st + t)) with (p' (INR st + t) * (0 + 1)) by ring. apply (derivable_pt_lim_comp (fun t => INR st + t) p); [|apply HD].
      apply (derivable_pt_lim_plus (fun _ => INR st) (fun t => t)); [apply derivable_pt_lim_const|apply derivable_pt_lim_id]. }
    intros eps He. destruct (D eps He) as (d & Hd). exists d. intros h H1 H2. rewrite !EQ. now apply Hd.
Qed.
Lemma smooth_ok (p p' g : R -> R) (val : pexip -> R -> res R) (src dest : list R) size wh dim :
  ispoly (dim + 1) p -> (forall x, derivable_pt_lim p x (p' x)) -> (1 <= wh)%nat -> (dim < 2 * wh)%nat -> (2 * wh <= size)%nat -> (size <= length src)%nat -> (size <= length dest)%nat ->
  (forall i, (i < size)%nat -> nth i src 0 = p (INR i)) ->
  (forall pc st, (forall t, zPexIPVal pc t = Ok (p (INR st + t)) /\ zPexIPVel pc t = Ok (p' (INR st + t))) -> forall t, val pc t = Ok (g (INR st + t))) ->
  exists d, smoothSG 0 val src size (2 * wh) dim dest = Ok (Some d) /\ length d = length dest /\ (forall i, (i < size)%nat -> nth i d 0 = g (INR i)) /\ (forall i, (size <= i)%nat -> nth i d 0 = nth i dest 0).
Proof.
  intros HP HD H1 H2 H3 H4 H5 HS HV. unfold smoothSG. set (w := (2 * wh)%nat) in *.
  destruct (Nat.leb_spec w 1); [lia|]. replace (w / 2)%nat with wh by (unfold w; rewrite Nat.mul_comm, Nat.div_mul; lia).
  rewrite alloc_pip. 2:{ cbn. intros Q. apply eq_IZR in Q. lia. }
  assert (CR : forall st, (st + w <= size)%nat -> exists pc, (win <- window src st w ;; zPexIPCreateLSM 0 (IZR (Z.of_nat (w - 1))) dim (FV w (fun i => IZR (Z.of_nat i))) win) = Ok (Some pc) /\ forall t, val pc t = Ok (g (INR st + t))).
  { intros st Hst. unfold window. destruct (Nat.leb_spec (st + w) (length src)); [|lia]. cbn [bind].
    destruct (lsm_exact p p' w dim st (FV w (fun i => nth (st + i) src 0))) as (pc & E & V); auto; try lia.
    - intros i Hi. cbn [vel]. rewrite HS by lia. now rewrite plus_INR.
    - exists pc. split; auto. }
  cbv zeta. cbn [sofZ RealS].
  change (@s0 R RealS) with 0. destruct (CR O ltac:(lia)) as (pc0 & E0 & V0). rewrite E0. cbn [bind].
  match goal with |- context [for_ 0 wh ?f dest] => destruct (for_inv (fun k (d : list R) => length d = length dest /\ (forall i, (i < k)%nat -> nth i d 0 = g (INR i)) /\ (forall i, (k <= i)%nat -> nth i d 0 = nth i dest 0)) 0 wh f dest) as (d1 & E1 & L1 & A1 & B1); [lia| | |] end.
  - conjs; auto. intros; lia.
  - intros i d Hi (L & A & B). rewrite V0. cbn [bind]. rewrite set_ok by lia. eexists. split; [reflexivity|]. rewrite upd_length. conjs; auto.
    + intros j Hj. assert (j = i \/ (j < i)%nat) as [->|K] by lia; [rewrite nth_upd_eq by lia|rewrite nth_upd_neq by lia; auto]. f_equal. cbn. rewrite <- INR_IZR_INZ. ring.
    + intros j Hj. rewrite nth_upd_neq by lia. apply B. lia.
  - rewrite E1. cbn [bind]. destruct (Nat.ltb_spec size wh); [lia|]. set (nw := (size - wh)%nat). replace (Nat.max wh nw) with nw by lia.
    match goal with |- context [for_ wh nw ?f ?s00] => destruct (for_inv (fun k (s : option (pexip * list R)) => exists pc d, s = Some (pc, d) /\ (forall t, val pc t = Ok (g (INR (k - wh) + t))) /\ length d = length dest /\ (forall i, (i < k)%nat -> nth i d 0 = g (INR i)) /\ (forall i, (k <= i)%nat -> nth i d 0 = nth i dest 0)) wh nw f s00) as (s2 & E2 & pc2 & d2 & -> & V2 & L2 & A2 & B2); [lia| | |] end.
    + exists pc0, d1. rewrite Nat.sub_diag. conjs; auto.
    + intros i s Hi (pc & d & -> & V & L & A & B). destruct (CR (i - wh + 1)%nat ltac:(lia)) as (pc' & E' & V'). rewrite E'. cbn [bind]. rewrite V'. cbn [bind]. rewrite set_ok by lia. cbn [bind].
      eexists. split; [reflexivity|]. eexists _, _. split; [reflexivity|]. replace (S i - wh)%nat with (i - wh + 1)%nat by lia. rewrite upd_length. conjs; auto.
      * intros j Hj. assert (j = i \/ (j < i)%nat) as [->|K] by lia; [rewrite nth_upd_eq by lia|rewrite nth_upd_neq by lia; auto]. f_equal.
        rewrite minus_IZR, <- INR_IZR_INZ. rewrite plus_INR, minus_INR by lia. cbn. ring.
      * intros j Hj. rewrite nth_upd_neq by lia. apply B. lia.
    + rewrite E2. cbn [bind].
      match goal with |- context [for_ nw size ?f d2] => destruct (for_inv (fun k (d : list R) => length d = length dest /\ (forall i, (i < k)%nat -> nth i d 0 = g (INR i)) /\ (forall i, (k <= i)%nat -> nth i d 0 = nth i dest 0)) nw size f d2) as (d3 & E3 & L3 & A3 & B3); [lia| | |] end.
      * conjs; auto.
      * intros i d Hi (L & A & B). rewrite V2. cbn [bind]. rewrite set_ok by lia. eexists. split; [reflexivity|]. rewrite upd_length. conjs; auto.
        -- intros j Hj. assert (j = i \/ (j < i)%nat) as [->|K] by lia; [rewrite nth_upd_eq by lia|rewrite nth_upd_neq by lia; auto]. f_equal.
           rewrite plus_IZR, minus_IZR, <- !INR_IZR_INZ. rewrite minus_INR by lia. ring.
        -- intros j Hj. rewrite nth_upd_neq by lia. apply B. lia.
      * rewrite E3. cbn. exists d3. auto.
Qed.
