From Verif Require Import Prelude Prelude_Proofs Scalar Raw_Model Raw_Spec.

Lemma padd_padd p a b : padd (padd p a) b = padd p (a + b).
Proof. destruct p; unfold padd; cbn. f_equal; lia. Qed.
Lemma padd_0 p : padd p 0 = p.
Proof. destruct p; unfold padd; cbn. f_equal; lia. Qed.
Lemma padd_inj p a b : padd p a = padd p b -> a = b.
Proof. destruct p; unfold padd; cbn. intros H; inversion H; lia. Qed.
Lemma ptr_dec (p q : ptr) : {p = q} + {p <> q}.
Proof. decide equality; [apply Z.eq_dec|apply Nat.eq_dec]. Qed.
Lemma ptr_eq (p q : ptr) : fst p = fst q -> snd p = snd q -> p = q.
Proof. destruct p, q; cbn; intros; subst; auto. Qed.
Lemma inrange_iff p n q : inrange p n q <-> exists i, i < n /\ q = padd p (Z.of_nat i).
Proof.
  unfold inrange, padd. split.
  - intros [E H]. exists (Z.to_nat (snd q - snd p)). split; [lia|].
    apply ptr_eq; cbn; lia.
  - intros (i & Hi & ->). cbn. lia.
Qed.

Section Mem.
  Context {T : Type}.
  Implicit Types (m : mem T) (p q s d : ptr).

  Lemma load_ok m p x : cell m p = Some x -> load m p = Ok x.
  Proof. unfold load. now intros ->. Qed.

  Lemma store_spec m p x : cell m p <> None ->
    exists m', store m p x = Ok m' /\ cell m' p = Some x /\ (forall q, q <> p -> cell m' q = cell m q).
  Proof.
    unfold cell, store, setZ. destruct p as [b o]; cbn.
    destruct (Z.ltb_spec o 0); [congruence|]. intros H1.
    apply nth_error_Some in H1. rewrite set_ok by auto. cbn.
    eexists. split; [reflexivity|]. cbn. rewrite Nat.eqb_refl. split.
    - now rewrite nth_error_upd_eq.
    - intros [b' o'] N. cbn. destruct (Z.ltb_spec o' 0); auto.
      destruct (Nat.eqb_spec b' b); auto. subst b'. apply nth_error_upd_neq.
      intros E. apply N. f_equal. lia.
  Qed.

  Lemma store_UB m p x : cell m p = None -> store m p x = UB.
  Proof.
    unfold cell, store, setZ. destruct p as [b o]; cbn.
    destruct (Z.ltb_spec o 0); [auto|]. intros H1.
    apply nth_error_None in H1. now rewrite set_oob.
  Qed.

  (** General composition: iteration [i] rewrites exactly the cells in [R i]. *)
  Lemma forZ_cells (n : nat) (R : nat -> ptr -> Prop) (V : nat -> ptr -> T) f m :
    (forall i j q, i < j < n -> R i q -> R j q -> False) ->
    (forall i m', i < n ->
       (forall q, (forall k, k < i -> ~ R k q) -> cell m' q = cell m q) ->
       (forall k q, k < i -> R k q -> cell m' q = Some (V k q)) ->
       exists m'', f (Z.of_nat i) m' = Ok m'' /\
         (forall q, R i q -> cell m'' q = Some (V i q)) /\
         (forall q, ~ R i q -> cell m'' q = cell m' q)) ->
    exists m', forZ (Z.of_nat n) f m = Ok m' /\
      (forall i q, i < n -> R i q -> cell m' q = Some (V i q)) /\
      (forall q, (forall i, i < n -> ~ R i q) -> cell m' q = cell m q).
  Proof.
    intros Hd Hs. unfold forZ. rewrite Nat2Z.id.
    destruct (for_inv (fun k m' =>
       (forall q, (forall i, i < k -> ~ R i q) -> cell m' q = cell m q) /\
       (forall i q, i < k -> R i q -> cell m' q = Some (V i q)))
       0 n (fun i => f (Z.of_nat i)) m) as (m' & E & H1 & H2).
    - lia.
    - split; auto; intros; lia.
    - intros k m1 Hk [H1 H2].
      destruct (Hs k m1) as (m2 & E & A & B); auto; [lia|].
      exists m2. split; auto. split.
      + intros q Hq. rewrite B by (apply Hq; lia). apply H1. intros; apply Hq; lia.
      + intros i q Hi Hq. destruct (Nat.eq_dec i k) as [->|N]; auto.
        rewrite B. { apply H2; auto; lia. }
        intros Hk'. apply (Hd i k q); auto; lia.
    - exists m'. auto.
  Qed.

  (** One store per iteration at distinct addresses [a i]. *)
  Lemma forZ_store (n : nat) (a : nat -> ptr) (g : nat -> T) (e : Z -> mem T -> res T) (A : Z -> ptr) m :
    (forall i j, i < j < n -> a i <> a j) ->
    (forall i, i < n -> A (Z.of_nat i) = a i) ->
    (forall i, i < n -> cell m (a i) <> None) ->
    (forall i m', i < n -> (forall q, (forall k, k < i -> q <> a k) -> cell m' q = cell m q) ->
        e (Z.of_nat i) m' = Ok (g i)) ->
    exists m', forZ (Z.of_nat n) (fun i m => x <- e i m ;; store m (A i) x) m = Ok m' /\
      (forall i, i < n -> cell m' (a i) = Some (g i)) /\
      (forall q, (forall i, i < n -> q <> a i) -> cell m' q = cell m q).
  Proof.
    intros Hi HA Ha He.
    destruct (forZ_cells n (fun i q => q = a i) (fun i _ => g i)
      (fun i m => x <- e i m ;; store m (A i) x) m) as (m' & E & H1 & H2).
    - intros i j q Hij -> E. now apply (Hi i j).
    - intros i m1 Hi1 H1 H2. rewrite (He i m1) by auto. cbn. rewrite HA by auto.
      destruct (store_spec m1 (a i) (g i)) as (m2 & E & A1 & A2).
      + rewrite H1; auto. intros k Hk. intros E. apply (Hi k i); auto; lia.
      + exists m2. split; auto. split; [now intros q ->|auto].
    - exists m'. split; [auto|]. split; eauto.
  Qed.
End Mem.

Section Pass.
  Context {T : Type}.
  Implicit Types (m : mem T) (p q s d : ptr).

  Lemma pass_ok (n : nat) d e (g : nat -> T) m :
    allocated m d n ->
    (forall i m', i < n -> frame m m' d i -> e (Z.of_nat i) m' = Ok (g i)) ->
    exists m', pass (Z.of_nat n) d e m = Ok m' /\ vecat m' d n g /\ frame m m' d n.
  Proof.
    intros Ha He. unfold pass.
    destruct (forZ_store n (fun i => padd d (Z.of_nat i)) g e (fun i => padd d i) m) as (m' & E & H1 & H2); auto.
    - intros i j Hij E. apply padd_inj in E. lia.
    - intros i m' Hi Hf. apply He; auto. intros q Hq. apply Hf.
      intros k Hk ->. apply Hq. apply inrange_iff. eauto.
    - exists m'. split; auto. split; [exact H1|].
      intros q Hq. apply H2. intros i Hi ->. apply Hq. apply inrange_iff. eauto.
  Qed.

  (** Reading a not-yet-overwritten source cell. *)
  Lemma fwd_read m m' s d (n i : nat) x :
    vecat m s n x -> fwd s d n -> i < n -> frame m m' d i -> cell m' (padd s (Z.of_nat i)) = Some (x i).
  Proof.
    intros Hv Hf Hi Hm. rewrite Hm; auto.
    unfold inrange, padd; cbn. unfold fwd in Hf. lia.
  Qed.
  Lemma fwd_refl d n : fwd d d n.
  Proof. unfold fwd. lia. Qed.
  Lemma apart_fwd s d n : apart s n d n -> fwd s d n.
  Proof.
    unfold apart, fwd. intros H. destruct (Nat.eq_dec (fst s) (fst d)) as [E|N]; auto.
    right. destruct (Z_le_gt_dec (snd d) (snd s)) as [|H1]; auto. right.
    destruct (Z_le_gt_dec (snd s + Z.of_nat n) (snd d)) as [|H2]; auto. exfalso.
    apply (H d); unfold inrange; lia.
  Qed.
  Lemma vecat_alloc m p n x : vecat m p n x -> allocated m p n.
  Proof. intros H i Hi. now rewrite H. Qed.
  Lemma vecat_ext m p n x y : vecat m p n x -> (forall i, i < n -> x i = y i) -> vecat m p n y.
  Proof. intros H E i Hi. rewrite H, E; auto. Qed.

  Lemma pass1_ok (n : nat) s d f m x :
    vecat m s n x -> allocated m d n -> fwd s d n ->
    exists m', pass1 (Z.of_nat n) s d f m = Ok m' /\ vecat m' d n (fun i => f (x i)) /\ frame m m' d n.
  Proof.
    intros Hx Ha Hf. apply pass_ok; auto. intros i m' Hi Hm.
    rewrite (load_ok _ _ _ (fwd_read m m' s d n i x Hx Hf Hi Hm)). reflexivity.
  Qed.
  Lemma pass2_ok (n : nat) s1 s2 d f m x y :
    vecat m s1 n x -> vecat m s2 n y -> allocated m d n -> fwd s1 d n -> fwd s2 d n ->
    exists m', pass2 (Z.of_nat n) s1 s2 d f m = Ok m' /\
      vecat m' d n (fun i => f (x i) (y i)) /\ frame m m' d n.
  Proof.
    intros Hx Hy Ha Hf1 Hf2. apply pass_ok; auto. intros i m' Hi Hm.
    rewrite (load_ok _ _ _ (fwd_read m m' s1 d n i x Hx Hf1 Hi Hm)). cbn.
    rewrite (load_ok _ _ _ (fwd_read m m' s2 d n i y Hy Hf2 Hi Hm)). reflexivity.
  Qed.
  Lemma pass3_ok (n : nat) s1 s2 s3 d f m x y z :
    vecat m s1 n x -> vecat m s2 n y -> vecat m s3 n z -> allocated m d n ->
    fwd s1 d n -> fwd s2 d n -> fwd s3 d n ->
    exists m', pass3 (Z.of_nat n) s1 s2 s3 d f m = Ok m' /\
      vecat m' d n (fun i => f (x i) (y i) (z i)) /\ frame m m' d n.
  Proof.
    intros Hx Hy Hz Ha Hf1 Hf2 Hf3. apply pass_ok; auto. intros i m' Hi Hm.
    rewrite (load_ok _ _ _ (fwd_read m m' s1 d n i x Hx Hf1 Hi Hm)). cbn.
    rewrite (load_ok _ _ _ (fwd_read m m' s2 d n i y Hy Hf2 Hi Hm)). cbn.
    rewrite (load_ok _ _ _ (fwd_read m m' s3 d n i z Hz Hf3 Hi Hm)). reflexivity.
  Qed.

End Pass.

(** Decisions and boolean loops. *)
Lemma all_loop_spec (n i : nat) f (g : nat -> bool) :
  (forall k, i <= k < i + n -> f k = Ok (g k)) ->
  exists b, all_loop n i f = Ok b /\ (b = true <-> forall k, i <= k < i + n -> g k = true).
Proof.
  revert i; induction n as [|n IH]; intros i H; cbn.
  - exists true. split; auto. split; auto. intros _ k Hk; lia.
  - rewrite H by lia. cbn. destruct (g i) eqn:E.
    + destruct (IH (S i)) as (b & E1 & Hb). { intros; apply H; lia. }
      exists b. split; auto. rewrite Hb. split; intros H1 k Hk.
      * destruct (Nat.eq_dec k i) as [->|]; auto. apply H1; lia.
      * apply H1; lia.
    + exists false. split; auto. split; [discriminate|]. intros H1.
      rewrite H1 in E; [discriminate|lia].
Qed.
Lemma allZ_spec (n : nat) f (g : nat -> bool) :
  (forall k, k < n -> f (Z.of_nat k) = Ok (g k)) ->
  exists b, allZ (Z.of_nat n) f = Ok b /\ (b = true <-> forall k, k < n -> g k = true).
Proof.
  intros H. unfold allZ. rewrite Nat2Z.id.
  destruct (all_loop_spec n 0 (fun i => f (Z.of_nat i)) g) as (b & E & Hb).
  - intros; apply H; lia.
  - exists b. split; auto. rewrite Hb. split; intros H1 k Hk; apply H1; lia.
Qed.

(** Iterations that each rewrite the [w] cells [a i 0 .. a i (w-1)]. *)
Lemma forZ_cells2 {T} (n w : nat) (a : nat -> nat -> ptr) (V : nat -> nat -> T) f (m : mem T) :
  (forall i j k l, i < j < n -> k < w -> l < w -> a i k <> a j l) ->
  (forall i m', i < n ->
     (forall q, (forall j k, j < i -> k < w -> q <> a j k) -> cell m' q = cell m q) ->
     exists m'', f (Z.of_nat i) m' = Ok m'' /\
       (forall k, k < w -> cell m'' (a i k) = Some (V i k)) /\
       (forall q, (forall k, k < w -> q <> a i k) -> cell m'' q = cell m' q)) ->
  exists m', forZ (Z.of_nat n) f m = Ok m' /\
    (forall i k, i < n -> k < w -> cell m' (a i k) = Some (V i k)) /\
    (forall q, (forall i k, i < n -> k < w -> q <> a i k) -> cell m' q = cell m q).
Proof.
  intros Hd Hs. unfold forZ. rewrite Nat2Z.id.
  destruct (for_inv (fun k m' =>
     (forall q, (forall j l, j < k -> l < w -> q <> a j l) -> cell m' q = cell m q) /\
     (forall j l, j < k -> l < w -> cell m' (a j l) = Some (V j l)))
     0 n (fun i => f (Z.of_nat i)) m) as (m' & E & H1 & H2).
  - lia.
  - split; auto; intros; lia.
  - intros k m1 Hk [H1 H2].
    destruct (Hs k m1) as (m2 & E & A & B); auto; [lia|].
    exists m2. split; auto. split.
    + intros q Hq. rewrite B by (intros; apply Hq; lia). apply H1. intros; apply Hq; lia.
    + intros i l Hi Hl. destruct (Nat.eq_dec i k) as [->|N]; auto.
      rewrite B. { apply H2; auto; lia. }
      intros l' Hl'. apply Hd; auto; lia.
  - exists m'. split; auto.
Qed.

Section VecOps.
  Context {T : Type} {ST : Scalar T}.
  Implicit Types (m : mem T) (p q s d v : ptr).

  Lemma zRawVecZero_ok m v n : allocated m v n ->
    exists m', zRawVecZero m v (Z.of_nat n) = Ok m' /\ vecat m' v n (fun _ => s0) /\ frame m m' v n.
  Proof.
    intros H. unfold zRawVecZero. destruct (Z.ltb_spec (Z.of_nat n) 0); [lia|].
    apply pass_ok; auto.
  Qed.
  Lemma zRawVecSetAll_ok m v n c : allocated m v n ->
    exists m', zRawVecSetAll m v (Z.of_nat n) c = Ok m' /\ vecat m' v n (fun _ => c) /\ frame m m' v n.
  Proof. intros H. apply pass_ok; auto. Qed.

  Lemma zRawVecCopy_ok m s d n x : vecat m s n x -> allocated m d n -> apart s n d n ->
    exists m', zRawVecCopy m s d (Z.of_nat n) = Ok m' /\ vecat m' d n x /\ frame m m' d n.
  Proof.
    intros Hx Ha Hd. unfold zRawVecCopy. destruct (Z.ltb_spec (Z.of_nat n) 0); [lia|].
    replace ((fst s =? fst d)%nat && (snd s <? snd d + Z.of_nat n)%Z && (snd d <? snd s + Z.of_nat n)%Z) with false.
    - apply (pass1_ok n s d (fun x => x) m x); auto. now apply apart_fwd.
    - symmetry. apply not_true_is_false. intros E.
      apply (Hd (fst s, Z.max (snd s) (snd d))); unfold inrange; cbn; lia.
  Qed.
  Lemma zRawVecCopy_overlap m s d n :
    ~ apart s n d n -> zRawVecCopy m s d (Z.of_nat n) = UB.
  Proof.
    intros Hd. unfold zRawVecCopy. destruct (Z.ltb_spec (Z.of_nat n) 0); [lia|].
    destruct ((fst s =? fst d)%nat && (snd s <? snd d + Z.of_nat n)%Z && (snd d <? snd s + Z.of_nat n)%Z) eqn:E; auto.
    exfalso. apply Hd. intros q H1 H2. unfold inrange in *.
    apply andb_false_iff in E. rewrite andb_false_iff in E. lia.
  Qed.

  Lemma zRawVecTouchup_ok m v n tol x : vecat m v n x ->
    exists m', zRawVecTouchup m v (Z.of_nat n) tol = Ok m' /\
      vecat m' v n (fun i => if is_tol tol (x i) then s0 else x i) /\ frame m m' v n.
  Proof.
    intros Hx. unfold zRawVecTouchup.
    destruct (forZ_cells2 n 1 (fun i _ => padd v (Z.of_nat i))
       (fun i _ => if is_tol tol (x i) then s0 else x i)
       (fun i m => x <- load m (padd v i) ;; if is_tol tol x then store m (padd v i) s0 else Ok m) m)
      as (m' & E & H1 & H2).
    - intros i j k l Hij _ _ E. apply padd_inj in E. lia.
    - intros i m1 Hi H1.
      assert (E : cell m1 (padd v (Z.of_nat i)) = Some (x i)).
      { rewrite H1; auto. intros j k Hj _ E. apply padd_inj in E. lia. }
      rewrite (load_ok _ _ _ E). cbn. destruct (is_tol tol (x i)).
      + destruct (store_spec m1 (padd v (Z.of_nat i)) s0) as (m2 & E2 & A & B); [congruence|].
        exists m2. split; auto. split; auto. intros q Hq. apply B. apply (Hq 0). lia.
      + exists m1. split; auto.
    - exists m'. split; auto. split.
      + intros i Hi. apply (H1 i 0); auto.
      + intros q Hq. apply H2. intros i _ Hi _ ->. apply Hq. apply inrange_iff; eauto.
  Qed.

  Lemma zRawVecSwap_ok m v n x i1 i2 : vecat m v n x -> i1 < n -> i2 < n ->
    exists m', zRawVecSwap m v (Z.of_nat i1) (Z.of_nat i2) = Ok m' /\
      vecat m' v n (fun i => if i =? i1 then x i2 else if i =? i2 then x i1 else x i) /\ frame m m' v n.
  Proof.
    intros Hx H1 H2. unfold zRawVecSwap.
    rewrite (load_ok _ _ _ (Hx _ H1)). cbn. rewrite (load_ok _ _ _ (Hx _ H2)). cbn.
    destruct (store_spec m (padd v (Z.of_nat i1)) (x i2)) as (m1 & E1 & A1 & B1). { rewrite Hx by auto; congruence. }
    rewrite E1. cbn.
    destruct (store_spec m1 (padd v (Z.of_nat i2)) (x i1)) as (m2 & E2 & A2 & B2).
    { destruct (Nat.eq_dec i1 i2) as [->|N]; [congruence|]. rewrite B1, Hx; auto; try congruence.
      intros E; apply padd_inj in E; lia. }
    exists m2. split; auto. split.
    - intros i Hi. destruct (Nat.eqb_spec i i1) as [->|N1].
      + destruct (Nat.eq_dec i1 i2) as [->|N]; auto. rewrite B2; auto.
        intros E; apply padd_inj in E; lia.
      + destruct (Nat.eqb_spec i i2) as [->|N2]; auto.
        rewrite B2, B1; auto; intros E; apply padd_inj in E; lia.
    - intros q Hq. rewrite B2, B1; auto; intros ->; apply Hq; apply inrange_iff; eauto.
  Qed.

  Lemma zRawVecEqual_ok eq m v1 v2 n x y : vecat m v1 n x -> vecat m v2 n y ->
    exists b, zRawVecEqual eq m v1 v2 (Z.of_nat n) = Ok b /\
      (b = true <-> forall i, i < n -> eq (x i) (y i) = true).
  Proof.
    intros Hx Hy. apply allZ_spec. intros k Hk.
    rewrite (load_ok _ _ _ (Hx _ Hk)). cbn. now rewrite (load_ok _ _ _ (Hy _ Hk)).
  Qed.
  Lemma zRawVecIsTol_ok m v n tol x : vecat m v n x ->
    exists b, zRawVecIsTol m v (Z.of_nat n) tol = Ok b /\
      (b = true <-> forall i, i < n -> is_tol tol (x i) = true).
  Proof.
    intros Hx. apply allZ_spec. intros k Hk. now rewrite (load_ok _ _ _ (Hx _ Hk)).
  Qed.
  Lemma zRawVecIsNan_ok bad m v n x : vecat m v n x ->
    exists b, zRawVecIsNan bad m v (Z.of_nat n) = Ok b /\
      (b = true <-> exists i, i < n /\ bad (x i) = true).
  Proof.
    intros Hx. unfold zRawVecIsNan.
    destruct (allZ_spec n (fun i => x <- load m (padd v i) ;; Ok (negb (bad x))) (fun i => negb (bad (x i))))
      as (b & E & Hb).
    - intros k Hk. now rewrite (load_ok _ _ _ (Hx _ Hk)).
    - rewrite E. cbn. exists (negb b). split; auto. rewrite negb_true_iff. split.
      + intros ->. clear E.
        assert (H : ~ forall k, k < n -> negb (bad (x k)) = true) by (rewrite <- Hb; discriminate).
        clear Hb Hx. induction n as [|n IH].
        * exfalso. apply H. intros; lia.
        * destruct (bad (x n)) eqn:E; [exists n; split; auto|].
          destruct IH as (i & Hi & E').
          { intros H1. apply H. intros k Hk. destruct (Nat.eq_dec k n) as [->|]; [now rewrite E|]. apply H1; lia. }
          exists i; split; auto; lia.
      + intros (i & Hi & E'). destruct b; auto.

        pose proof (proj1 Hb eq_refl i Hi) as H. rewrite E' in H. discriminate.
  Qed.

  Lemma zRawVecCats_ok m v n args x ys :
    vecat m v n x ->
    length ys = length args ->
    (forall j, j < length args -> vecat m (snd (nth j args (s0, v))) n (nth j ys x) /\
               apart (snd (nth j args (s0, v))) n v n) ->
    exists m', zRawVecCats m v (Z.of_nat n) args = Ok m' /\
      vecat m' v n (fun i => fold_left (fun acc ky => sadd acc (smul (snd ky i) (fst ky)))
                               (combine (map fst args) ys) (x i)) /\ frame m m' v n.
  Proof.
    revert m x ys; induction args as [|[k vec] args IH]; intros m x ys Hx Hl Hy; destruct ys as [|y ys]; try discriminate; cbn.
    - exists m. split; auto. split; auto. intros q _; auto.
    - pose proof (Hy 0 ltac:(cbn; lia)) as [Hy0 Hd0]. cbn in Hy0, Hd0.
      destruct (pass2_ok n v vec v (fun x y => sadd x (smul y k)) m x y) as (m1 & E1 & A1 & F1); auto.
      + now apply vecat_alloc in Hx.
      + apply fwd_refl.
      + now apply apart_fwd.
      + unfold zRawVecCatDRC. rewrite E1. cbn.
        destruct (IH m1 (fun i => sadd (x i) (smul (y i) k)) ys) as (m2 & E2 & A2 & F2); auto.
        * intros j Hj. destruct (Hy (S j)) as [Hy1 Hd1]; [cbn; lia|]. cbn in Hy1, Hd1.
          cbn in Hl. rewrite (nth_indep ys _ x) by lia. split; auto.
          intros i Hi. rewrite F1; auto. intros H. apply (Hd1 (padd (snd (nth j args (s0, v))) (Z.of_nat i))); auto.
          apply inrange_iff; eauto.
        * exists m2. split; auto. split; auto. intros q Hq. rewrite F2, F1; auto.
  Qed.

  Lemma zRawVecLinearSum_ok m v n args ys :
    allocated m v n ->
    length ys = length args ->
    (forall j, j < length args -> vecat m (snd (nth j args (s0, v))) n (nth j ys (fun _ => s0)) /\
               apart (snd (nth j args (s0, v))) n v n) ->
    exists m', zRawVecLinearSum m v (Z.of_nat n) args = Ok m' /\
      vecat m' v n (fun i => fold_left (fun acc ky => sadd acc (smul (snd ky i) (fst ky)))
                               (combine (map fst args) ys) s0) /\ frame m m' v n.
  Proof.
    intros Ha Hl Hy. unfold zRawVecLinearSum.
    destruct (zRawVecZero_ok m v n Ha) as (m1 & E1 & A1 & F1). rewrite E1. cbn.
    destruct (zRawVecCats_ok m1 v n args (fun _ => s0) ys) as (m2 & E2 & A2 & F2); auto.
    - intros j Hj. destruct (Hy j Hj) as [H1 H2]. split; auto.
      intros i Hi. rewrite F1; auto. intros H. apply (H2 (padd (snd (nth j args (s0, v))) (Z.of_nat i))); auto.
      apply inrange_iff; eauto.
    - exists m2. split; auto. split; auto. intros q Hq. rewrite F2, F1; auto.
  Qed.
End VecOps.
