(** Determinant and adjugate. *)
From Verif Require Import Prelude Prelude_Proofs Scalar RealLib Fmat Fmat_Proofs LE_Model LE_Proofs LE2_Proofs LE3_Proofs LE_Spec Det_Proofs.
Local Open Scope R_scope.

Section DetAlg.
Variables (tol : R) (n : nat) (M : nat -> nat -> R).
Hypothesis Ht : 0 <= tol.
Implicit Types (m : fmat R).
(** the matrix under work: rows in index order, eliminated entries read as 0 *)
Definition vm i m idx : nat -> nat -> R := fun r c => if (c <? Nat.min r i)%nat then 0 else el m (pos idx r) c.
Record dinv i m idx (dv : R) : Prop := {
  di_p : perm n idx; di_d : nr m = n /\ nc m = n;
  di_s : exists s, s * s = 1 /\ det n M = s * det n (vm i m idx) /\ dv = s * dprod i (fun t => vm i m idx t t);
  di_n : dv <> 0 }.
Definition det_body i (st : fmat R * list nat * R) : res ((fmat R * list nat * R) + unit) :=
      let '(m, idx, det) := st in
      p <- get idx i ;;
      idx <- zMatPivoting m idx i i ;;
      p' <- get idx i ;;
      let det := if negb (p =? p')%nat then - det else det in
      x <- mget m p' i ;;
      let det := det * x in
      if is_tol tol det then Ok (inr tt)
      else
        m <- for_ (S i) (nr m) (fun j m =>
               q <- get idx j ;;
               for_ (S i) (nr m) (fun k m =>
                 x <- mget m p' k ;; y <- mget m p' i ;; z <- mget m q i ;;
                 mmod m q k (fun w => w - x / y * z)) m) m ;;
        Ok (inl (m, idx, det)).

Lemma dprod_ext k f g : (forall t, (t < k)%nat -> f t = g t) -> dprod k f = dprod k g.
Proof. induction k; intros H; auto. cbn. rewrite IHk by auto. rewrite H; auto. Qed.

Lemma det_elim_loop i m idx : perm n idx -> (i < n)%nat -> nr m = n -> nc m = n ->
  exists m', for_ (S i) n (fun j m =>
               q <- get idx j ;;
               for_ (S i) (nr m) (fun k m =>
                 x <- mget m (pos idx i) k ;; y <- mget m (pos idx i) i ;; z <- mget m q i ;;
                 mmod m q k (fun w => w - x / y * z)) m) m = Ok m' /\ nr m' = n /\ nc m' = n /\
   forall a k, (a < n)%nat -> (k < n)%nat -> el m' (pos idx a) k = if ((i <? a) && (i <? k))%nat then el m (pos idx a) k - el m (pos idx i) k / el m (pos idx i) i * el m (pos idx a) i else el m (pos idx a) k.
Proof.
  intros P Hi M1 M2. pose proof (perm_lt n idx i P Hi) as Hp. match goal with |- context [for_ ?lo ?hi ?f m] =>
   destruct (for_inv (fun t m' => nr m' = n /\ nc m' = n /\ forall a k, (a < n)%nat -> (k < n)%nat -> el m' (pos idx a) k =
     if ((i <? a) && (a <? t) && (i <? k))%nat then el m (pos idx a) k - el m (pos idx i) k / el m (pos idx i) i * el m (pos idx a) i else el m (pos idx a) k) lo hi f m) as (m' & E & D1 & D2 & D3) end.
  - lia.
  - conjs; auto. intros. nbp.
  - intros j m1 Hj (D1 & D2 & D3). rewrite (perm_get n) by (auto; lia). cbn [bind]. rewrite D1. pose proof (perm_lt n idx j P ltac:(lia)) as Hq.
    assert (NE : pos idx i <> pos idx j) by (intros E; apply (perm_inj n) in E; auto; lia).
    match goal with |- context [for_ ?lo ?hi ?f m1] =>
      destruct (row_loop m1 (pos idx j) lo hi f (fun k => el m (pos idx j) k - el m (pos idx i) k / el m (pos idx i) i * el m (pos idx j) i)) as (m2 & E2 & F1 & F2 & F3) end; try lia.
    { intros k m2 Hk G1 G2 G3. rewrite !mget_ok by lia. cbn [bind]. rewrite mmod_ok by lia. f_equal.
      rewrite !G3 by lia. rewrite !D3 by lia. rs. nbp. }
    exists m2. split; auto. conjs; try lia. intros a k Ha Hk. rewrite F3.
    destruct (Nat.eqb_spec (pos idx a) (pos idx j)) as [E|N].
    + apply (perm_inj n) in E; auto; try lia. subst a. rewrite D3 by lia. nbp.
    + destruct (Nat.eq_dec a j) as [->|]; [congruence|]. cbn [andb]. rewrite D3 by lia. nbp.
  - exists m'. split; auto. conjs; auto. intros a k Ha Hk. rewrite D3 by auto. nbp.
Qed.

Lemma det_body_ok i m idx dv : (i < n)%nat -> dinv i m idx dv ->
  exists o, det_body i (m, idx, dv) = Ok o /\
   match o with inl (m', idx', dv') => dinv (S i) m' idx' dv' /\ tol < Rabs dv' | inr _ => tol = 0 -> det n M = 0 end.
Proof.
  intros Hi [Dp (D1 & D2) (s & S2 & SM & SV) DN]. unfold det_body. rewrite (perm_get n) by auto. cbn [bind].
  destruct (zMatPivoting_ok m n idx i i) as (idx' & pi & EP & P & Hpi & Sw & Mx); auto; try lia. rewrite EP. cbn [bind].
  rewrite (perm_get n) by auto. cbn [bind]. pose proof (perm_lt n idx' i P Hi) as Hp. rewrite mget_ok by lia. cbn [bind].
  set (p := pos idx' i) in *. set (s' := if negb (pos idx i =? p)%nat then - s else s).
  set (W := vm i m idx').
  assert (S2' : s' * s' = 1) by (unfold s'; destruct (negb _); lra).
  assert (LT : forall t, (t < i)%nat -> pos idx' t = pos idx t) by (intros; apply (swapped_lt idx idx' i pi); auto; lia).
  assert (SM' : det n M = s' * det n W).
  { rewrite SM. unfold s'. destruct (Nat.eqb_spec (pos idx i) p) as [E|N]; cbn [negb].
    - assert (pi = i) as ->. { unfold p in E. rewrite Sw in E. rewrite Nat.eqb_refl in E. apply (perm_inj n) in E; auto. lia. }
      f_equal. apply det_ext. intros r c Hr Hc. unfold W, vm. rewrite Sw. nbp.
    - assert (pi <> i). { intros ->. apply N. unfold p. rewrite Sw, Nat.eqb_refl. auto. }
      rewrite <- (Ropp_involutive (det n (vm i m idx))). rewrite <- (det_swap n (vm i m idx) i pi) by lia.
      rewrite (det_ext n (swaprow (vm i m idx) i pi) W); [ring|]. intros r c Hr Hc. unfold swaprow, W, vm. rewrite Sw. nbi; nbp. }
  assert (SV' : (if negb (pos idx i =? p)%nat then - dv else dv) = s' * dprod i (fun t => W t t)).
  { rewrite SV. unfold s'. rewrite (dprod_ext i (fun t => W t t) (fun t => vm i m idx t t)). { destruct (negb _); ring. }
    intros t Hlt. unfold W, vm. rewrite LT by auto. auto. }
  cbv zeta. rewrite is_tol_R. rs. rewrite SV'. set (P0 := s' * dprod i (fun t => W t t)) in *.
  assert (N0 : P0 <> 0) by (rewrite <- SV'; destruct (negb _); lra).
  assert (Wi : W i i = el m p i) by (unfold W, vm; nbp).
  destruct (Rleb_spec (Rabs (P0 * el m p i)) tol) as [Z|NZ].
  - eexists; split; [reflexivity|]. cbn. intros T0. rewrite SM'.
    assert (Rabs (P0 * el m p i) = 0) by (pose proof (Rabs_pos (P0 * el m p i)); lra).
    assert (Z' : el m p i = 0). { destruct (Req_dec (el m p i) 0); auto. exfalso. apply (Rabs_no_R0 (P0 * el m p i)); auto. }
    rewrite (det_block n W i); [ring|auto|]. intros r c Hr Hc. unfold W, vm. destruct (Nat.ltb_spec c (Nat.min r i)); auto.
    replace c with i by lia. specialize (Mx r Hr). fold p in Mx. rewrite Z', Rabs_R0 in Mx.
    destruct (Req_dec (el m (pos idx' r) i) 0); auto. pose proof (Rabs_pos_lt (el m (pos idx' r) i)). lra.
  - destruct (det_elim_loop i m idx' P Hi D1 D2) as (m' & E' & F1 & F2 & F3). rs. rewrite D1. fold p in E'. rewrite E'. cbn [bind].
    eexists; split; [reflexivity|]. cbn. split; [|lra].
    assert (NW : W i i <> 0). { rewrite Wi. intros Q. rewrite Q, Rmult_0_r, Rabs_R0 in NZ. lra. }
    constructor; auto.
    + exists s'. split; auto. split.
      * rewrite SM'. f_equal. rewrite <- (det_elim n W i (fun r => if (i <? r)%nat then - (W r i / W i i) else 0)) by (auto; nbp).
        apply det_ext. intros r c Hr Hc. unfold vm at 1. rewrite F3 by auto.
        destruct (lt_eq_lt_dec c i) as [[G|G]|G].
        -- assert (W i c = 0) as -> by (unfold W, vm; nbp). unfold W, vm. nbp; lra.
        -- subst c. destruct (Nat.ltb_spec i r).
           ++ replace (i <? Nat.min r (S i))%nat with true by nbp. field. auto.
           ++ replace (i <? Nat.min r (S i))%nat with false by nbp. cbn [andb]. unfold W, vm. nbp. lra.
        -- replace (c <? Nat.min r (S i))%nat with false by nbp. replace (i <? c)%nat with true by nbp. rewrite Bool.andb_true_r.
           assert (W r c = el m (pos idx' r) c) as -> by (unfold W, vm; nbp). assert (W i c = el m p c) as -> by (unfold W, vm; nbp).
           destruct (Nat.ltb_spec i r); [|lra]. assert (W r i = el m (pos idx' r) i) as -> by (unfold W, vm; nbp). rewrite Wi in *. fold p. field. auto.
      * cbn [dprod]. rewrite (dprod_ext i (fun t => vm (S i) m' idx' t t) (fun t => W t t)).
        -- unfold P0. assert (vm (S i) m' idx' i i = el m p i) as ->. { unfold vm. rewrite F3 by auto. nbp. } ring.
        -- intros t Hlt. unfold vm, W. rewrite F3 by lia. unfold vm. nbp.
    + intros Q. rewrite Q, Rabs_R0 in NZ. lra.
Qed.
End DetAlg.

Theorem detDST_ok tol n (m : fmat R) : 0 <= tol < 1 -> nr m = n -> nc m = n ->
  exists x, zMatDetDST tol m n = Ok x /\ (x = det n (el m) \/ x = 0 /\ 0 < tol) /\ (x = 0 \/ tol < Rabs x).
Proof.
  intros Ht M1 M2. unfold zMatDetDST. rewrite M1.
  match goal with |- context [forb ?lo ?hi ?f ?s00] => destruct (forb_inv (fun k st => let '(m', idx', dv) := st in dinv n (el m) k m' idx' dv /\ tol < Rabs dv)
     (fun _ => tol = 0 -> det n (el m) = 0) lo hi f s00) as (o & EO & HO) end.
  - lia.
  - split; [|rs; rewrite Rabs_R1; lra]. constructor; auto using perm_seq.
    + exists 1. split; [lra|]. split; [|cbn; rs; lra]. rewrite Rmult_1_l. apply det_ext. intros r c Hr Hc. unfold vm. rewrite pos_seq by auto. nbp.
    + rs. lra.
  - intros k [[m' idx'] dv] Hk (I & _). pose proof (det_body_ok tol n (el m) (proj1 Ht) k m' idx' dv ltac:(lia) I) as (o & E & H). exists o. split; auto.
  - rs. rewrite EO. cbn [bind]. destruct o as [[[m' idx'] dv]|[]].
    + destruct HO as ([Dp Dd (s & S2 & SM & SV) DN] & BD). eexists; split; [reflexivity|]. split; [|right; auto]. left. rewrite SM, SV. f_equal. symmetry. apply det_upper.
      intros r c Hr Hc. unfold vm. nbp.
    + eexists; split; [reflexivity|]. split; [|left; auto]. destruct (Req_dec tol 0); [left; symmetry; auto|right; split; auto; lra].
Qed.

(** ** adjugate *)
Lemma minor_into_ok n1 (m sm : fmat R) i j : nr m = S n1 -> nc m = S n1 -> nr sm = n1 -> nc sm = n1 -> (i < S n1)%nat -> (j < S n1)%nat ->
  exists s', minor_into m sm i j = Ok s' /\ nr s' = n1 /\ nc s' = n1 /\ forall r c, (r < n1)%nat -> (c < n1)%nat -> el s' r c = minor (el m) i j r c.
Proof.
  intros M1 M2 N1 N2 Hi Hj. unfold minor_into. rewrite M1, M2.
  match goal with |- context [for_ ?lo ?hi ?f ?s00] => destruct (for_inv (fun k su => nr (fst su) = n1 /\ nc (fst su) = n1 /\ snd su = (if (i <? k)%nat then k - 1 else k)%nat /\
     forall r c, (r < snd su)%nat -> (c < n1)%nat -> el (fst su) r c = minor (el m) i j r c) lo hi f s00) as ([s' u] & E & D1 & D2 & D3 & D4) end.
  - lia.
  - cbn [fst snd]. conjs; auto. intros; lia.
  - intros k [s1 u] Hk (D1 & D2 & D3 & D4). cbn [fst snd] in *. destruct (Nat.eqb_spec k i) as [->|N].
    + eexists; split; [reflexivity|]. cbn [fst snd]. conjs; auto. rewrite D3. nbp.
    + assert (Hu : (u < n1)%nat) by (rewrite D3; nbp). assert (Sk : skip i u = k) by (rewrite D3; unfold skip; nbp).
      match goal with |- context [for_ ?lo ?hi ?f (s1, 0%nat)] => destruct (for_inv (fun k2 sv => nr (fst sv) = n1 /\ nc (fst sv) = n1 /\ snd sv = (if (j <? k2)%nat then k2 - 1 else k2)%nat /\
        (forall r c, r <> u -> el (fst sv) r c = el s1 r c) /\ forall c, (c < snd sv)%nat -> el (fst sv) u c = minor (el m) i j u c) lo hi f (s1, 0%nat)) as ([s2 v] & E & F1 & F2 & F3 & F4 & F5) end.
      * lia.
      * cbn [fst snd]. conjs; auto. intros; lia.
      * intros k2 [s2 v] Hk2 (F1 & F2 & F3 & F4 & F5). cbn [fst snd] in *. destruct (Nat.eqb_spec k2 j) as [->|N'].
        -- eexists; split; [reflexivity|]. cbn [fst snd]. conjs; auto. rewrite F3. nbp.
        -- assert (Hv : (v < n1)%nat) by (rewrite F3; nbp). assert (Sv : skip j v = k2) by (rewrite F3; unfold skip; nbp).
           rewrite mget_ok by lia. cbn [bind]. rewrite mset_ok by lia. cbn [bind]. eexists; split; [reflexivity|]. cbn [fst snd nr nc el]. conjs; auto.
           ++ rewrite F3. nbp.
           ++ intros r c Hr. rewrite F4 by auto. nbp.
           ++ intros c Hc. destruct (Nat.eqb_spec c v) as [->|]; [rewrite Nat.eqb_refl; unfold minor; cbn [andb]; congruence|]. rewrite Bool.andb_false_r. apply F5. lia.
      * rewrite E. cbn [bind]. eexists; split; [reflexivity|]. cbn [fst snd] in *. conjs; auto.
        -- rewrite D3. nbp.
        -- intros r c Hr Hc. destruct (Nat.eq_dec r u) as [->|]; [|rewrite F4 by auto; apply D4; auto; lia]. apply F5. rewrite F3. nbp.
  - rewrite E. cbn [bind fst snd] in *. exists s'. conjs; auto. intros r c Hr Hc. apply D4; auto. rewrite D3. nbp.
Qed.

Theorem adj_ok tol n1 (m adj : fmat R) : 0 <= tol < 1 -> (0 < n1)%nat -> nr m = S n1 -> nc m = S n1 -> nr adj = S n1 -> nc adj = S n1 ->
  exists a, zMatAdj tol m adj = Ok (Some a) /\ nr a = S n1 /\ nc a = S n1 /\
   forall i j, (i < S n1)%nat -> (j < S n1)%nat -> el a j i = sgn (i + j) * det n1 (minor (el m) i j) \/ el a j i = 0 /\ 0 < tol.
Proof.
  intros Ht Hn M1 M2 A1 A2. unfold zMatAdj. rewrite M1, M2, A1, A2, !Nat.eqb_refl. cbn [negb orb andb]. replace (S n1 =? 1)%nat with false by nbp.
  rewrite Nat.sub_succ, Nat.sub_0_r.
  match goal with |- context [for_ ?lo ?hi ?f ?s00] => destruct (for_inv (fun k st => nr (fst st) = S n1 /\ nc (fst st) = S n1 /\ nr (snd st) = n1 /\ nc (snd st) = n1 /\
     forall i j, (i < k)%nat -> (j < S n1)%nat -> el (fst st) j i = sgn (i + j) * det n1 (minor (el m) i j) \/ el (fst st) j i = 0 /\ 0 < tol) lo hi f s00) as ([a sm] & E & D1 & D2 & D3 & D4 & D5) end.
  - lia.
  - cbn [fst snd nr nc zmat]. conjs; auto. intros; lia.
  - intros i st Hi (D1 & D2 & D3 & D4 & D5).
    match goal with |- context [for_ ?lo ?hi ?f st] => destruct (for_inv (fun k st' => nr (fst st') = S n1 /\ nc (fst st') = S n1 /\ nr (snd st') = n1 /\ nc (snd st') = n1 /\
      forall i' j, (i' < i \/ i' = i /\ j < k)%nat -> (j < S n1)%nat -> el (fst st') j i' = sgn (i' + j) * det n1 (minor (el m) i' j) \/ el (fst st') j i' = 0 /\ 0 < tol) lo hi f st) as (st' & E & F1 & F2 & F3 & F4 & F5) end.
    + lia.
    + conjs; auto. intros; apply D5; lia.
    + intros j st' Hj (F1 & F2 & F3 & F4 & F5).
      destruct (minor_into_ok n1 m (snd st') i j) as (s' & Es & G1 & G2 & G3); auto; try lia. rewrite Es. cbn [bind].
      destruct (detDST_ok tol n1 s') as (x & Ex & Hx & _); auto. rewrite Ex. cbn [bind]. rewrite mset_ok by lia. cbn [bind].
      eexists; split; [reflexivity|]. cbn [fst snd nr nc el]. conjs; auto. intros i' j' Hij Hj'.
      destruct (Nat.eqb_spec j' j) as [->|]; [|cbn [andb]; apply F5; auto; lia]. destruct (Nat.eqb_spec i' i) as [->|]; [|cbn [andb]; apply F5; auto; lia].
      cbn [andb]. rewrite (det_ext n1 (el s') (minor (el m) i j)) in Hx by auto. unfold sgn. rs. destruct Hx as [->|(-> & ?)]; [left|right; split; auto].
      * destruct (Nat.odd (i + j)); lra.
      * destruct (Nat.odd (i + j)); lra.
    + exists st'. split; auto. conjs; auto. intros i' j Hij Hj. apply F5; auto. lia.
  - rewrite E. cbn [rmap fst snd] in *. exists a. conjs; auto.
Qed.
