(** Proofs about vector lists (mean, variance, covariance, range) of Stat_Model.v. *)
From Coq Require Import Reals Lra Lia Psatz.
From Verif Require Import Prelude Prelude_Proofs Scalar RealLib Fmat Fmat_Proofs IP_Model IP_Proofs Stat_Model Stat_Proofs.
Local Open Scope R_scope.

(** sum of a function over a list *)
Definition lsum {A} (f : A -> R) (l : list A) : R := fold_right (fun a s => f a + s) 0 l.
Lemma lsum_app {A} (f : A -> R) l1 l2 : lsum f (l1 ++ l2) = lsum f l1 + lsum f l2.
Proof. unfold lsum. induction l1; cbn; lra. Qed.
Lemma lsum_ext {A} (f g : A -> R) l : (forall a, In a l -> f a = g a) -> lsum f l = lsum g l.
Proof. intros H. induction l; [reflexivity|]. cbn. fold (lsum f l) (lsum g l). rewrite H by (now left). rewrite IHl; auto. intros; apply H; now right. Qed.
Lemma lsum_rsum {A} (f : A -> nat -> R) n l : lsum (fun a => rsum n (f a)) l = rsum n (fun i => lsum (fun a => f a i) l).
Proof. induction l; cbn; [now rewrite rsum_0|]. fold (lsum (fun a => rsum n (f a)) l). rewrite IHl, <- rsum_add. reflexivity. Qed.
Lemma lsum_scal {A} (f : A -> R) k l : lsum (fun a => k * f a) l = k * lsum f l.
Proof. unfold lsum. induction l; cbn; lra. Qed.
Lemma lsum_sub {A} (f g : A -> R) l : lsum (fun a => f a - g a) l = lsum f l - lsum g l.
Proof. unfold lsum. induction l; cbn; lra. Qed.
Lemma lsum_nonneg {A} (f : A -> R) l : (forall a, In a l -> 0 <= f a) -> 0 <= lsum f l.
Proof. intros H. induction l; [apply Rle_refl|]. cbn. fold (lsum f l). specialize (IHl (fun x h => H x (or_intror h))). specialize (H a (or_introl eq_refl)). lra. Qed.

(** loop over a list *)
Lemma foreach_inv {A St} (P : list A -> St -> Prop) (f : A -> St -> res St) l : forall pre s, P pre s ->
  (forall pre a s, In a l -> P pre s -> exists s', f a s = Ok s' /\ P (pre ++ [a]) s') ->
  exists s', foreach l f s = Ok s' /\ P (pre ++ l) s'.
Proof.
  unfold foreach. induction l as [|a l IH]; intros pre s H0 H; cbn.
  - exists s. now rewrite app_nil_r.
  - destruct (H pre a s) as (s1 & E & P1); [now left|auto|]. rewrite E. destruct (IH (pre ++ [a]) s1) as (s2 & E2 & P2); auto.
    + intros; apply H; auto. now right.
    + exists s2. split; auto. now rewrite <- app_assoc in P2.
Qed.
Section VL.
  Variables (tol : R) (l : list (fvec R)) (m : nat).
  Hypothesis TP : 0 <= tol < 1.
  Hypothesis NE : l <> [].
  Hypothesis SZ : forall v, In v l -> vlen v = m.
  Local Notation n := (INR (length l)).
  Definition vmean (i : nat) : R := lsum (fun v => vel v i) l / n.
  Definition vcov (i j : nat) : R := lsum (fun v => (vel v i - vmean i) * (vel v j - vmean j)) l / n.
  Lemma n_ge1 : 1 <= n.
  Proof. replace 1 with (INR 1) by reflexivity. apply le_INR. destruct l; [congruence|]. cbn. lia. Qed.
  Lemma hd_ok {X} (x : X) (f : fvec R -> X) : exists h, In h l /\ match rev l with [] => x | h :: _ => f h end = f h.
  Proof.
    destruct (rev l) as [|h t] eqn:E.
    - apply (f_equal (@rev _)) in E. rewrite rev_involutive in E. cbn in E. congruence.
    - exists h. split; auto. apply in_rev. rewrite E. now left.
  Qed.
  Lemma sum_ok s : vlen s = m -> exists s', zVecListSum l s = Ok s' /\ vlen s' = m /\ forall i, vel s' i = lsum (fun v => vel v i) l.
  Proof.
    intros L. unfold zVecListSum.
    destruct (foreach_inv (fun pre (s : fvec R) => vlen s = m /\ forall i, vel s i = lsum (fun v => vel v i) pre) (fun v sum => zVecAddC sum v sum) l [] (zVecZero s)) as (s' & E & A & B).
    - split; auto.
    - intros pre a s1 Ia (A & B). unfold zVecAddC, zVecAddNC. rewrite (SZ a Ia), A, Nat.eqb_refl. cbn [andb]. rewrite vop2_ok by (rewrite ?(SZ a Ia); auto).
      eexists. split; [reflexivity|]. split; auto. intros i. cbn [vel]. rewrite B, lsum_app. cbn. rs. lra.
    - eauto.
  Qed.
  Lemma mean_ok s : vlen s = m -> exists s', zVecListMean tol l s = Ok s' /\ vlen s' = m /\ forall i, vel s' i = vmean i.
  Proof.
    intros L. unfold zVecListMean. destruct (sum_ok s L) as (s' & E & A & B). rewrite E. cbn [bind].
    pose proof n_ge1 as N1. assert (F : is_tol tol (sofZ (Z.of_nat (length l))) = false).
    { rewrite is_tol_R. cbn [sofZ RealS]. rewrite <- INR_IZR_INZ. apply Rleb_false. rewrite Rabs_pos_eq by lra. lra. }
    unfold zVecDivDRC. rewrite F. unfold zVecDivNC. rewrite vop1_ok by auto. eexists. split; [reflexivity|]. split; auto.
    intros i. cbn [vel]. rewrite B. unfold vmean. rs. rewrite <- INR_IZR_INZ. field. lra.
  Qed.
  Lemma sqrdist_ok v1 v2 : vlen v1 = m -> vlen v2 = m -> sqrdist v1 v2 = Ok (rsum m (fun i => (vel v1 i - vel v2 i) ^ 2)).
  Proof.
    intros L1 L2. unfold sqrdist. rewrite L1.
    match goal with |- for_ 0 m ?f ?s0 = _ => destruct (fsum_inv (fun i => (vel v1 i - vel v2 i) ^ 2) m f s0 (fun s => s) (fun s => True)) as (s & E & Q & V) end; auto.
    - intros i s Hi _. rewrite !vget_ok by lia. cbn [bind]. eexists. split; [reflexivity|]. split; auto. unfold Stat_Model.sqr. rs. ring.
    - rewrite E. f_equal. rewrite V. cbn. lra.
  Qed.
  Lemma var_ok mean : vlen mean = m -> zVecListVar l mean = Ok (Some (lsum (fun v => rsum m (fun i => (vel v i - vel mean i) ^ 2)) l / n)).
  Proof.
    intros L. unfold zVecListVar. destruct (hd_ok UB (fun hd => if negb (vlen mean =? vlen hd)%nat then Ok None
        else s <- foreach l (fun v s => d <- sqrdist v mean ;; Ok (sadd s d)) s0 ;; Ok (Some (sdiv s (sofZ (Z.of_nat (length l))))))) as (h & Ih & ->).
    rewrite L, (SZ h Ih), Nat.eqb_refl. cbn [negb].
    destruct (foreach_inv (fun pre (s : R) => s = lsum (fun v => rsum m (fun i => (vel v i - vel mean i) ^ 2)) pre) (fun v s => d <- sqrdist v mean ;; Ok (sadd s d)) l [] s0) as (s & E & A).
    - reflexivity.
    - intros pre a s1 Ia A. rewrite sqrdist_ok by auto. cbn [bind]. eexists. split; [reflexivity|]. rewrite lsum_app, A. cbn. rs. lra.
    - rewrite E. cbn [bind]. rewrite A. do 2 f_equal. rs. now rewrite <- INR_IZR_INZ.
  Qed.
  Lemma dyad_ok M (v1 v2 : fvec R) : nr M = m -> nc M = m -> vlen v1 = m -> vlen v2 = m ->
    exists M', add_dyad M v1 v2 = Ok M' /\ nr M' = m /\ nc M' = m /\ forall i j, (i < m)%nat -> (j < m)%nat -> el M' i j = el M i j + vel v1 i * vel v2 j.
  Proof.
    intros R1 C1 L1 L2. unfold add_dyad. rewrite L1, L2.
    match goal with |- context [for_ 0 m ?f M] => destruct (for_inv (fun k (M' : fmat R) => nr M' = m /\ nc M' = m /\ forall i j, (i < m)%nat -> (j < m)%nat -> el M' i j = el M i j + (if (i <? k)%nat then vel v1 i * vel v2 j else 0)) 0 m f M) as (M' & E & A & B & D); [lia| | |] end.
    - conjs; auto. intros. cbn. lra.
    - intros i M1 Hi (A & B & D).
      match goal with |- context [for_ 0 m ?f M1] => destruct (for_inv (fun k (M' : fmat R) => nr M' = m /\ nc M' = m /\ forall i' j, (i' < m)%nat -> (j < m)%nat -> el M' i' j = el M1 i' j + (if (i' =? i)%nat && (j <? k)%nat then vel v1 i * vel v2 j else 0)) 0 m f M1) as (M' & E & A' & B' & D'); [lia| | |] end.
      + conjs; auto. intros. rewrite Bool.andb_false_r. lra.
      + intros j M2 Hj (A2 & B2 & D2). rewrite !vget_ok by lia. cbn [bind]. rewrite mmod_ok, mset_ok by lia. eexists. split; [reflexivity|]. cbn [nr nc el]. conjs; auto.
        intros i' j' Hi' Hj'. specialize (D2 i' j' Hi' Hj'). revert D2; nbp; cbn [andb]; intros D2; subst; try lia; rs; try lra.
      + exists M'. split; auto. conjs; auto. intros i' j' Hi' Hj'. rewrite D' by auto. rewrite D by auto. nbp; cbn [andb]; subst; try lia; lra.
    - exists M'. split; auto. conjs; auto. intros i j Hi Hj. rewrite D by auto. destruct (Nat.ltb_spec i m); [lra|lia].
  Qed.
  Lemma cov_ok mean C : vlen mean = m -> (forall i, vel mean i = vmean i) -> nr C = m -> nc C = m ->
    exists C', zVecListCov tol l mean C = Ok (Some C') /\ nr C' = m /\ nc C' = m /\ forall i j, (i < m)%nat -> (j < m)%nat -> el C' i j = vcov i j.
  Proof.
    intros L MV R1 C1. unfold zVecListCov.
    destruct (rev l) as [|h t] eqn:E0. { apply (f_equal (@rev _)) in E0. rewrite rev_involutive in E0. cbn in E0. congruence. }
    assert (Ih : In h l) by (apply in_rev; rewrite E0; now left). cbv zeta. rewrite L, R1, C1, (SZ h Ih), Nat.eqb_refl. cbn [negb andb].
    match goal with |- context [foreach l ?f ?s0] => destruct (foreach_inv (fun pre (s : fmat R * fvec R) => nr (fst s) = m /\ nc (fst s) = m /\ vlen (snd s) = m /\ forall i j, (i < m)%nat -> (j < m)%nat -> el (fst s) i j = lsum (fun v => (vel v i - vmean i) * (vel v j - vmean j)) pre) f l [] s0) as ((C' & v') & E & A & B & D & F) end.
    - conjs; auto.
    - intros pre a (c & v) Ia (A & B & D & F). cbn [fst snd] in *. unfold zVecSubC, zVecSubNC. rewrite (SZ a Ia), L, D, Nat.eqb_refl. cbn [andb]. rewrite vop2_ok by (rewrite ?(SZ a Ia); congruence). cbn [bind].
      match goal with |- context [add_dyad c ?v1 ?v2] => destruct (dyad_ok c v1 v2) as (c' & E & A' & B' & D') end; auto.
      rewrite E. cbn [bind]. eexists. split; [reflexivity|]. cbn [fst snd]. conjs; auto. intros i j Hi Hj. rewrite D', F by auto. cbn [vel]. rewrite !MV, lsum_app. cbn. lra.
    - rewrite E. cbn [bind]. pose proof n_ge1. unfold mat_div. assert (F2 : is_tol tol (sofZ (Z.of_nat (length l))) = false).
      { rewrite is_tol_R. cbn [sofZ RealS]. rewrite <- INR_IZR_INZ. apply Rleb_false. rewrite Rabs_pos_eq by lra. lra. }
      rewrite F2. eexists. split; [reflexivity|]. cbn [nr nc el fst snd app] in *. conjs; auto. intros i j Hi Hj. rewrite F by auto. unfold vcov. rs. rewrite <- INR_IZR_INZ. field. lra.
  Qed.
  Lemma vcov_sym i j : vcov i j = vcov j i.
  Proof. unfold vcov. f_equal. apply lsum_ext. intros. ring. Qed.
  Lemma vcov_psd u : 0 <= rsum m (fun i => rsum m (fun j => u i * vcov i j * u j)).
  Proof.
    assert (E : rsum m (fun i => rsum m (fun j => u i * vcov i j * u j)) = lsum (fun v => (rsum m (fun i => u i * (vel v i - vmean i))) ^ 2) l / n).
    { unfold vcov. rewrite (lsum_ext (fun v => (rsum m (fun i => u i * (vel v i - vmean i))) ^ 2) (fun v => rsum m (fun i => rsum m (fun j => u i * ((vel v i - vmean i) * (vel v j - vmean j)) * u j)))).
      - rewrite lsum_rsum. unfold Rdiv. rewrite <- rsum_scal_r. apply rsum_ext. intros i Hi. rewrite lsum_rsum, <- rsum_scal_r. apply rsum_ext. intros j Hj.
        rewrite (lsum_ext (fun v => u i * ((vel v i - vmean i) * (vel v j - vmean j)) * u j) (fun v => (u i * u j) * ((vel v i - vmean i) * (vel v j - vmean j)))) by (intros; ring). rewrite lsum_scal. ring.
      - intros v Iv. replace ((rsum m (fun i => u i * (vel v i - vmean i))) ^ 2) with (rsum m (fun i => u i * (vel v i - vmean i)) * rsum m (fun i => u i * (vel v i - vmean i))) by ring.
        rewrite <- rsum_scal_r. apply rsum_ext. intros i Hi. rewrite <- rsum_scal. apply rsum_ext. intros. ring. }
    rewrite E. pose proof n_ge1. apply Rmult_le_pos; [|left; apply Rinv_0_lt_compat; lra]. apply lsum_nonneg. intros. apply pow2_ge_0.
  Qed.
  Lemma vmean_min (c : nat -> R) : lsum (fun v => rsum m (fun i => (vel v i - vmean i) ^ 2)) l <= lsum (fun v => rsum m (fun i => (vel v i - c i) ^ 2)) l.
  Proof.
    assert (0 <= lsum (fun v => rsum m (fun i => (vel v i - c i) ^ 2) - rsum m (fun i => (vel v i - vmean i) ^ 2)) l); [|rewrite lsum_sub in H; lra].
    rewrite (lsum_ext _ (fun v => rsum m (fun i => (c i - vmean i) * (c i + vmean i) - 2 * (c i - vmean i) * vel v i))).
    2:{ intros. rewrite <- rsum_sub. apply rsum_ext. intros. ring. }
    rewrite lsum_rsum. pose proof n_ge1. rewrite (rsum_ext m _ (fun i => n * (c i - vmean i) ^ 2)).
    - apply rsum_nonneg. intros i Hi. apply Rmult_le_pos; [lra|apply pow2_ge_0].
    - intros i Hi. rewrite lsum_sub.
      assert (K : forall k, lsum (fun _ : fvec R => k) l = n * k). { intros k. clear. induction l as [|a t IH]; [cbn; lra|]. cbn [lsum fold_right length]. fold (lsum (fun _ : fvec R => k) t). rewrite IH, S_INR. ring. }
      rewrite K, lsum_scal. replace (lsum (fun v => vel v i) l) with (n * vmean i) by (unfold vmean; field; lra). ring.
  Qed.

  (** ** range *)
  Definition is_best (le : R -> R -> Prop) (pre : list (fvec R)) (i : nat) (o : option R) : Prop :=
    match o with
    | None => pre = []
    | Some x => (exists v, In v pre /\ vel v i = x) /\ forall v, In v pre -> le x (vel v i)
    end.
  Lemma upd_ok better (le : R -> R -> Prop) : (forall x y, better x y = true -> le x y) -> (forall x y, better x y = false -> le y x) ->
    (forall x, le x x) -> (forall x y z, le x y -> le y z -> le x z) ->
    forall pre v b, vlen v = m -> vlen b = m -> (forall i, (i < m)%nat -> is_best le pre i (vel b i)) ->
    exists b', upd_best better b v = Ok b' /\ vlen b' = m /\ forall i, (i < m)%nat -> is_best le (pre ++ [v]) i (vel b' i).
  Proof.
    intros H1 H2 HR HT pre v b Lv Lb HB. unfold upd_best. rewrite Lb.
    match goal with |- context [for_ 0 m ?f b] => destruct (for_inv (fun k (b' : fvec (option R)) => vlen b' = m /\ forall i, (i < m)%nat -> if (i <? k)%nat then is_best le (pre ++ [v]) i (vel b' i) else is_best le pre i (vel b' i)) 0 m f b) as (b' & E & A & B); [lia| | |] end.
    - split; auto.
    - intros i b1 Hi (A & B). rewrite vget_ok by lia. unfold vget. rewrite A. destruct (Nat.ltb_spec i m) as [_|]; [|lia]. cbn [bind].
      pose proof (B i ltac:(lia)) as Bi. destruct (Nat.ltb_spec i i) as [|_]; [lia|].
      assert (OTH : forall b2 : fvec (option R), vlen b2 = m -> (forall k, k <> i -> vel b2 k = vel b1 k) -> is_best le (pre ++ [v]) i (vel b2 i) ->
         vlen b2 = m /\ (forall k, (k < m)%nat -> if (k <? S i)%nat then is_best le (pre ++ [v]) k (vel b2 k) else is_best le pre k (vel b2 k))).
      { intros b2 Lb2 EQ IB. split; auto. intros k Hk. destruct (Nat.eq_dec k i) as [->|ne].
        - destruct (Nat.ltb_spec i (S i)); [auto|lia].
        - specialize (B k Hk). rewrite EQ by auto. destruct (Nat.ltb_spec k i), (Nat.ltb_spec k (S i)); auto; lia. }
      destruct (vel b1 i) as [y|] eqn:Ey; [destruct (better (vel v i) y) eqn:Eb|].
      + unfold vset. rewrite A. destruct (Nat.ltb_spec i m) as [_|]; [|lia]. eexists. split; [reflexivity|]. apply OTH; auto.
        * intros k ne. cbn. destruct (Nat.eqb_spec k i); congruence.
        * cbn. rewrite Nat.eqb_refl. cbn in Bi. destruct Bi as (Bi1 & Bi2). split; [exists v; split; auto; apply in_or_app; right; now left|].
          intros u Iu. apply in_app_or in Iu as [Iu|[<-|[]]]; auto. apply HT with y; auto.
      + eexists. split; [reflexivity|]. apply OTH; auto. rewrite Ey. cbn in Bi |- *. destruct Bi as ((u & Iu & Eu) & Bi2). split; [exists u; split; auto; apply in_or_app; now left|].
        intros w Iw. apply in_app_or in Iw as [Iw|[<-|[]]]; auto.
      + unfold vset. rewrite A. destruct (Nat.ltb_spec i m) as [_|]; [|lia]. eexists. split; [reflexivity|]. apply OTH; auto.
        * intros k ne. cbn. destruct (Nat.eqb_spec k i); congruence.
        * cbn. rewrite Nat.eqb_refl. cbn in Bi. subst pre. cbn. split; [exists v; auto|]. intros u [<-|[]]. auto.
    - exists b'. split; auto. split; auto. intros i Hi. specialize (B i Hi). destruct (Nat.ltb_spec i m); auto; lia.
  Qed.
  Lemma listminmax_ok : exists mn mx, zVecListMinMax l m m = Ok (Some (mn, mx)) /\ vlen mn = m /\ vlen mx = m /\
    forall i, (i < m)%nat -> is_best Rle l i (vel mn i) /\ is_best Rge l i (vel mx i).
  Proof.
    unfold zVecListMinMax. destruct (rev l) as [|h t] eqn:E0. { apply (f_equal (@rev _)) in E0. rewrite rev_involutive in E0. cbn in E0. congruence. }
    assert (Ih : In h l) by (apply in_rev; rewrite E0; now left). rewrite (SZ h Ih), Nat.eqb_refl. cbn [negb andb].
    match goal with |- context [foreach l ?f ?s0] => destruct (foreach_inv (fun pre (s : fvec (option R) * fvec (option R)) => vlen (fst s) = m /\ vlen (snd s) = m /\ forall i, (i < m)%nat -> is_best Rle pre i (vel (fst s) i) /\ is_best Rge pre i (vel (snd s) i)) f l [] s0) as ((mn & mx) & E & A & B & D) end.
    - conjs; auto. intros. split; reflexivity.
    - intros pre a (mn & mx) Ia (A & B & D). cbn [fst snd] in *.
      destruct (upd_ok (fun x y => slt x y) Rle) with (pre := pre) (v := a) (b := mn) as (mn' & E1 & A1 & B1); auto; try (cbn [slt RealS]; intros; try lra); try (match goal with H : Rltb ?x ?y = _ |- _ => destruct (Rltb_spec x y); [lra|try discriminate; lra] end).
      { now apply D. }
      destruct (upd_ok (fun x y => slt y x) Rge) with (pre := pre) (v := a) (b := mx) as (mx' & E2 & A2 & B2); auto; try (cbn [slt RealS]; intros; try lra); try (match goal with H : Rltb ?x ?y = _ |- _ => destruct (Rltb_spec x y); [lra|try discriminate; lra] end).
      { now apply D. }
      change (exists s1, (mn0 <- upd_best (fun x y : R => slt x y) mn a ;; mx0 <- upd_best (fun x y : R => slt y x) mx a ;; Ok (mn0, mx0)) = Ok s1 /\ vlen (fst s1) = m /\ vlen (snd s1) = m /\ (forall i, (i < m)%nat -> is_best Rle (pre ++ [a]) i (vel (fst s1) i) /\ is_best Rge (pre ++ [a]) i (vel (snd s1) i))). rewrite E1. cbn [bind]. rewrite E2. cbn [bind]. eexists. split; [reflexivity|]. cbn [fst snd]. conjs; auto.
    - rewrite E. cbn. exists mn, mx. auto.
  Qed.
End VL.
