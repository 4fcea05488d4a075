(** Proofs about Chebyshev interpolation: the code. *)
From Coq Require Import Reals Lra Lia List Arith.
From Verif Require Import Prelude Prelude_Proofs Scalar RealLib Fmat Fmat_Proofs LE_Model LE_Spec LE_Props IP_Model IP_Spec IP_Proofs Cheb_Model Cheb_Spec Cheb_Proofs.
Import ListNotations.
Local Open Scope R_scope.
Local Notation points := (list (R * fvec R)).
(** the scaled time *)
Definition sx (s : points) (t : R) : R := (2 * t - (knot s (length s - 1) + knot s 0)) / (knot s (length s - 1) - knot s 0).
Definition sdx (s : points) : R := 2 / (knot s (length s - 1) - knot s 0).

Section Eval.
Variables (s : points) (m : nat) (V : nat -> nat -> R) (d : ipdata R).
Hypothesis Hd : repr s m V d.
Hypothesis Hn : (2 <= length s)%nat.
Let n := length s.
Lemma chebx_ok t : cheb_x d t = Ok (sx s t).
Proof. unfold cheb_x. rewrite (repr_size _ _ _ _ Hd). rewrite !(repr_time _ _ _ _ Hd) by lia. reflexivity. Qed.
Lemma chebdx_ok : cheb_dx d = Ok (sdx s).
Proof. unfold cheb_dx. rewrite (repr_size _ _ _ _ Hd). rewrite !(repr_time _ _ _ _ Hd) by lia. reflexivity. Qed.
Lemma cheb_vec t v : vlen v = m -> exists w, zIPVecChebyshev d t v = Ok w /\ vlen w = m /\ forall j, (j < m)%nat -> vel w j = rsum n (fun k => V k j * cheb k (sx s t)).
Proof.
  intros Lv. unfold zIPVecChebyshev. rewrite chebx_ok. cbn [bind]. rewrite (repr_size _ _ _ _ Hd). set (x := sx s t).
  destruct (repr_va _ _ _ _ Hd 0) as (a0 & -> & L0 & E0); [lia|]. cbn [bind]. unfold zVecCopyNC. rewrite vop1_ok by (cbn; lia). cbn [bind].
  destruct (repr_va _ _ _ _ Hd 1) as (a1 & -> & L1 & E1); [lia|]. cbn [bind]. rewrite catNCDRC_ok by (cbn; lia). cbn [bind vlen vel].
  match goal with |- context [for_ 2 (length s) ?f ?st0] =>
    destruct (for_inv (fun i (st : fvec R * (R * R)) => vlen (fst st) = m /\ (forall j, (j < m)%nat -> vel (fst st) j = rsum i (fun k => V k j * cheb k x)) /\
      snd st = (cheb (i - 2) x, cheb (i - 1) x)) 2 (length s) f st0) as (w & -> & Lw & Ew & _) end; [lia| | |].
  - cbn [fst snd vlen vel zVecZero vzero]. split; auto. split; [|reflexivity]. intros j Hj. rewrite E0, E1 by auto. cbn [rsum]. unfold cheb. cbn. ring.
  - intros k [v' [f1 f2]] Hk (L & E & F). cbn [fst snd] in *. injection F as -> ->.
    destruct (repr_va _ _ _ _ Hd k) as (a & -> & La & Ea); [lia|]. cbn [bind]. rewrite catDRC_ok by lia. cbn [bind]. eexists. split; [reflexivity|]. cbn [fst snd vlen vel].
    assert (C : 2 * x * cheb (k - 1) x - cheb (k - 2) x = cheb k x).
    { destruct k as [|[|k]]; try lia. rewrite cheb_SS. replace (S (S k) - 1)%nat with (S k) by lia. replace (S (S k) - 2)%nat with k by lia. reflexivity. }
    rs. split; auto. split.
    + intros j Hj. cbn [rsum]. rewrite E, Ea by auto. rewrite C. reflexivity.
    + rewrite C. replace (S k - 2)%nat with (k - 1)%nat by lia. replace (S k - 1)%nat with k by lia. reflexivity.
  - exists (fst w). auto.
Qed.
Lemma cheb_vel t v : vlen v = m -> exists w, zIPVelChebyshev d t v = Ok w /\ vlen w = m /\ forall j, (j < m)%nat -> vel w j = rsum n (fun k => V k j * (cheb1 k (sx s t) * sdx s)).
Proof.
  intros Lv. unfold zIPVelChebyshev. rewrite chebx_ok. cbn [bind]. rewrite chebdx_ok. cbn [bind]. rewrite (repr_size _ _ _ _ Hd). set (x := sx s t). set (dx := sdx s).
  destruct (repr_va _ _ _ _ Hd 1) as (a1 & -> & L1 & E1); [lia|]. cbn [bind]. unfold zVecMulC. replace (vlen a1 =? vlen (zVecZero v))%nat with true by (symmetry; apply Nat.eqb_eq; cbn; lia).
  unfold zVecMulNC. rewrite vop1_ok by (cbn; lia). cbn [bind vlen vel].
  match goal with |- context [for_ 2 (length s) ?f ?st0] =>
    destruct (for_inv (fun i (st : fvec R * ((R * R) * (R * R))) => vlen (fst st) = m /\ (forall j, (j < m)%nat -> vel (fst st) j = rsum i (fun k => V k j * (cheb1 k x * dx))) /\
      snd st = (cheb (i - 2) x, cheb (i - 1) x, (cheb1 (i - 2) x * dx, cheb1 (i - 1) x * dx))) 2 (length s) f st0) as (w & -> & Lw & Ew & _) end; [lia| | |].
  - cbn [fst snd vlen vel zVecZero vzero]. split; auto. split; [|cbn; unfold cheb, cheb1; cbn; repeat f_equal; rs; ring]. intros j Hj. rewrite E1 by auto. cbn [rsum]. unfold cheb1. cbn. rs. ring.
  - intros k [v' [[f1 f2] [g1 g2]]] Hk (L & E & F). cbn [fst snd] in *. injection F as -> -> -> ->.
    destruct (repr_va _ _ _ _ Hd k) as (a & -> & La & Ea); [lia|]. cbn [bind]. rewrite catDRC_ok by lia. cbn [bind]. eexists. split; [reflexivity|]. cbn [fst snd vlen vel].
    destruct k as [|[|k]]; try lia. replace (S (S k) - 1)%nat with (S k) in * by lia. replace (S (S k) - 2)%nat with k in * by lia. replace (S (S (S k)) - 1)%nat with (S (S k)) by lia.
    replace (S (S (S k)) - 2)%nat with (S k) by lia. rs.
    assert (C : 2 * (dx * cheb (S k) x + x * (cheb1 (S k) x * dx)) - cheb1 k x * dx = cheb1 (S (S k)) x * dx) by (rewrite cheb1_SS; ring).
    split; auto. split; [intros j Hj; cbn [rsum]; cbn [rsum] in E; rewrite E, Ea by auto; rewrite C; reflexivity|]. rewrite C. rewrite <- cheb_SS. reflexivity.
  - exists (fst w). auto.
Qed.
Lemma cheb_acc t v : vlen v = m -> exists w, zIPAccChebyshev d t v = Ok w /\ vlen w = m /\ forall j, (j < m)%nat -> vel w j = rsum n (fun k => V k j * (cheb2 k (sx s t) * sdx s * sdx s)).
Proof.
  intros Lv. unfold zIPAccChebyshev. rewrite chebx_ok. cbn [bind]. rewrite chebdx_ok. cbn [bind]. rewrite (repr_size _ _ _ _ Hd). set (x := sx s t). set (dx := sdx s).
  match goal with |- context [for_ 2 (length s) ?f ?st0] =>
    destruct (for_inv (fun i (st : fvec R * ((R * R) * (R * R) * (R * R))) => vlen (fst st) = m /\ (forall j, (j < m)%nat -> vel (fst st) j = rsum i (fun k => V k j * (cheb2 k x * dx * dx))) /\
      snd st = (cheb (i - 2) x, cheb (i - 1) x, (cheb1 (i - 2) x * dx, cheb1 (i - 1) x * dx), (cheb2 (i - 2) x * dx * dx, cheb2 (i - 1) x * dx * dx))) 2 (length s) f st0) as (w & -> & Lw & Ew & _) end; [lia| | |].
  - cbn [fst snd vlen vel zVecZero vzero]. split; auto. split; [|cbn; unfold cheb, cheb1, cheb2; cbn; repeat f_equal; rs; ring]. intros j Hj. cbn [rsum]. unfold cheb2. cbn. rs. ring.
  - intros k [v' [[[f1 f2] [g1 g2]] [h1 h2]]] Hk (L & E & F). cbn [fst snd] in *. injection F as -> -> -> -> -> ->.
    destruct (repr_va _ _ _ _ Hd k) as (a & -> & La & Ea); [lia|]. cbn [bind]. rewrite catDRC_ok by lia. cbn [bind]. eexists. split; [reflexivity|]. cbn [fst snd vlen vel].
    destruct k as [|[|k]]; try lia. replace (S (S k) - 1)%nat with (S k) in * by lia. replace (S (S k) - 2)%nat with k in * by lia. replace (S (S (S k)) - 1)%nat with (S (S k)) by lia.
    replace (S (S (S k)) - 2)%nat with (S k) by lia. rs.
    assert (C : 2 * (dx * cheb (S k) x + x * (cheb1 (S k) x * dx)) - cheb1 k x * dx = cheb1 (S (S k)) x * dx) by (rewrite cheb1_SS; ring).
    assert (C2 : 2 * (2 * dx * (cheb1 (S k) x * dx) + x * (cheb2 (S k) x * dx * dx)) - cheb2 k x * dx * dx = cheb2 (S (S k)) x * dx * dx) by (rewrite cheb2_SS; ring).
    split; auto. split; [intros j Hj; cbn [rsum]; cbn [rsum] in E; rewrite E, Ea by auto; rewrite C2; reflexivity|]. rewrite C, C2. rewrite <- cheb_SS. reflexivity.
  - exists (fst w). auto.
Qed.
End Eval.

(** ** construction *)
Lemma put_row_ok (m : fmat R) i v : (i < nr m)%nat -> vlen v = nc m -> exists m', put_row m i v = Ok m' /\ nr m' = nr m /\ nc m' = nc m /\
  forall r c, el m' r c = if (r =? i)%nat && (c <? nc m)%nat then vel v c else el m r c.
Proof.
  intros Hi L. unfold put_row. destruct (row_loop m i 0 (nc m) (fun j m => x <- vget v j ;; mset m i j x) (vel v)) as (m' & E & H1 & H2 & H3); auto; try lia.
  - intros j m' Hj _ _ _. rewrite vget_ok by lia. reflexivity.
  - exists m'. split; auto. split; auto. split; auto. intros r c. rewrite H3. now rewrite andb_true_r.
Qed.
Lemma get_row_ok (m : fmat R) i v : (i < nr m)%nat -> vlen v = nc m -> exists v', get_row m i v = Ok v' /\ vlen v' = nc m /\ forall c, (c < nc m)%nat -> vel v' c = el m i c.
Proof.
  intros Hi L. unfold get_row. destruct (vec_loop v 0 (nc m) (fun j v => x <- mget m i j ;; vset v j x) (el m i)) as (v' & E & H1 & H2); auto; try lia.
  - intros j v' Hj _ _. rewrite mget_ok by lia. reflexivity.
  - exists v'. split; auto. split; [lia|]. intros c Hc. rewrite H2. replace (c <? nc m)%nat with true by (symmetry; apply Nat.ltb_lt; auto). reflexivity.
Qed.
Lemma cheb_row_ok n i x (r : fmat R) : (2 <= n)%nat -> (i < nr r)%nat -> nc r = n -> exists r', cheb_row n i x r = Ok r' /\ nr r' = nr r /\ nc r' = n /\
  forall k c, (c < n)%nat -> el r' k c = if (k =? i)%nat then cheb c x else el r k c.
Proof.
  intros Hn Hi Hc. unfold cheb_row. rewrite mset_ok by lia. cbn [bind]. rewrite mset_ok by (cbn; lia). cbn [bind].
  match goal with |- context [for_ 2 n ?f ?st0] =>
    destruct (for_inv (fun j (st : fmat R * (R * R)) => nr (fst st) = nr r /\ nc (fst st) = n /\ (forall k c, el (fst st) k c = if ((k =? i) && (c <? j))%nat then cheb c x else el r k c) /\
      snd st = (cheb (j - 2) x, cheb (j - 1) x)) 2 n f st0) as (w & -> & L1 & L2 & Ew & _) end; [lia| | |].
  - cbn [fst snd nr nc el]. split; auto. split; auto. split; [|reflexivity]. intros k c.
    destruct (Nat.eqb_spec k i), (Nat.eqb_spec c 1), (Nat.eqb_spec c 0), (Nat.ltb_spec c 2); subst; cbn; auto; try lia.
  - intros k [r1 [f1 f2]] Hk (L1 & L2 & E & F). cbn [fst snd] in *. injection F as -> ->. rewrite mset_ok by lia. cbn [bind]. eexists. split; [reflexivity|]. cbn [fst snd nr nc el].
    destruct k as [|[|k]]; try lia. replace (S (S k) - 1)%nat with (S k) in * by lia. replace (S (S k) - 2)%nat with k in * by lia. replace (S (S (S k)) - 1)%nat with (S (S k)) by lia.
    replace (S (S (S k)) - 2)%nat with (S k) by lia. rs. rewrite <- cheb_SS. split; auto. split; auto. split; auto.
    intros q c. rewrite E. destruct (Nat.eqb_spec q i), (Nat.eqb_spec c (S (S k))), (Nat.ltb_spec c (S (S k))), (Nat.ltb_spec c (S (S (S k)))); subst; cbn [andb]; auto; lia.
  - exists (fst w). split; auto. split; auto. split; auto. intros k c Hcn. rewrite Ew. replace (c <? n)%nat with true by (symmetry; apply Nat.ltb_lt; auto). now rewrite andb_true_r.
Qed.
(** what the coefficients V are *)
Definition coeffs (tol : R) (s : points) (m : nat) (V : nat -> nat -> R) : Prop :=
  let n := length s in let A := fun i k => cheb k (sx s (knot s i)) in
  exists E, negligible tol n A E /\
   ((nonsingular n (madd A E) /\ forall i j, (i < n)%nat -> (j < m)%nat -> mm n (madd A E) V i j = pt s i j) \/
    (~ nonsingular n (madd A E) /\ forall i j, (i < n)%nat -> (j < m)%nat -> V i j = 0)).
Lemma cheb_create tol s m : 0 <= tol -> (2 <= length s)%nat -> dim s m -> exists d V, zIPCreateChebyshev tol s = Ok d /\ repr s m V d /\ coeffs tol s m V.
Proof.
  intros Ht Hn D. unfold zIPCreateChebyshev. destruct (alloc_ok s m) as (d & -> & Hd); auto; [intros ->; cbn in Hn; lia|]. cbn [bind]. rewrite (repr_size _ _ _ _ Hd).
  set (n := length s) in *. destruct (repr_vec _ _ _ _ Hd D 0) as (c0 & -> & Lc0 & _); [lia|]. cbn [bind]. rewrite Lc0.
  match goal with |- context [for_ 0 n ?f ?st0] =>
    destruct (for_inv (fun i (st : fmat R * fmat R) => nr (fst st) = n /\ nc (fst st) = n /\ nr (snd st) = n /\ nc (snd st) = m /\
      (forall k c, (k < i)%nat -> (c < n)%nat -> el (fst st) k c = cheb c (sx s (knot s k))) /\
      (forall k c, (k < i)%nat -> (c < m)%nat -> el (snd st) k c = pt s k c)) 0%nat n f st0) as ((r & p) & -> & R1 & R2 & P1 & P2 & ER & EP) end; [lia| | |].
  - cbn. repeat split; auto; intros; lia.
  - intros k [r p] Hk (R1 & R2 & P1 & P2 & ER & EP). cbn [fst snd] in *. rewrite !(repr_time _ _ _ _ Hd) by (fold n; lia). cbn [bind].
    match goal with |- context [cheb_row n k ?x r] => change x with (sx s (knot s k)) end.
    destruct (cheb_row_ok n k (sx s (knot s k)) r) as (r' & -> & R1' & R2' & ER'); try lia. cbn [bind].
    destruct (repr_vec _ _ _ _ Hd D k) as (c & -> & Lc & Ec); [fold n; lia|]. cbn [bind].
    destruct (put_row_ok p k c) as (p' & -> & P1' & P2' & EP'); try lia. cbn [bind]. eexists. split; [reflexivity|]. cbn [fst snd].
    repeat split; try lia.
    + intros q l Hq Hl. rewrite ER' by auto. destruct (Nat.eqb_spec q k) as [->|]; auto. apply ER; lia.
    + intros q l Hq Hl. rewrite EP'. rewrite P2. destruct (Nat.ltb_spec l m); [|lia]. destruct (Nat.eqb_spec q k) as [->|]; cbn [andb]; auto. apply EP; lia.
  - cbn [bind fst snd] in *.
    destruct (C29_mul_inv_partial tol n m r p (zmat n m)) as (o & -> & HO); auto; try lia. cbn [bind]. set (v := match o with Some v => v | None => zmat n m end).
    assert (Dv : nr v = n /\ nc v = m) by (unfold v; destruct o as [X|]; [destruct HO as (? & ? & _); auto|auto]). destruct Dv as [V1 V2].
    match goal with |- context [for_ 0 n ?f d] =>
      destruct (for_inv (fun i d => repr s m (fun k j => if (k <? i)%nat then el v k j else 0) d) 0 n f d) as (d' & -> & Hd') end; [lia| | |].
    { eapply repr_ext; [|exact Hd]. intros; reflexivity. }
    { intros k d1 Hk H1. destruct (repr_va _ _ _ _ H1 k) as (a & -> & La & _); [fold n; lia|]. cbn [bind].
      destruct (get_row_ok v k a) as (a' & -> & La' & Ea'); try lia. cbn [bind]. apply (repr_set_va _ _ _ _ H1); auto; try lia.
      - intros j Hj. destruct (Nat.ltb_spec k (S k)); [|lia]. apply Ea'. lia.
      - intros q j Hq Nq Hj. destruct (Nat.ltb_spec q (S k)), (Nat.ltb_spec q k); auto; lia. }
    exists d', (el v). split; auto. split.
    + eapply repr_ext; [|exact Hd']. intros i j Hi _. cbn beta. fold n in Hi. destruct (Nat.ltb_spec i n); auto; lia.
    + unfold coeffs. fold n. set (A := fun i k => cheb k (sx s (knot s i))).
      assert (MV : forall E x i, (i < n)%nat -> mv n (madd (el r) E) x i = mv n (madd A E) x i).
      { intros E x i Hi. apply rsum_ext. intros k Hk. unfold madd, A. rewrite ER by lia. reflexivity. }
      assert (NG : forall E, negligible tol n (el r) E -> negligible tol n A E).
      { intros E N i c M Hi Hc HM. apply N; auto. intros q Hq. rewrite ER by auto. apply HM; auto. }
      assert (NS : forall E, nonsingular n (madd (el r) E) <-> nonsingular n (madd A E)).
      { intros E. split; intros N x Hx; apply N; intros i Hi; [rewrite MV by auto|rewrite <- MV by auto]; apply Hx; auto. }
      unfold v. destruct o as [X|].
      * destruct HO as (_ & _ & E & N & S & HX). exists E. split; auto. left. split; [now apply NS|]. intros i j Hi Hj. rewrite <- EP by lia. rewrite <- HX by auto.
        apply rsum_ext. intros k Hk. unfold madd, A. rewrite ER by lia. reflexivity.
      * destruct HO as (E & N & S). exists E. split; auto. right. split; [intros Q; apply S; now apply NS|]. reflexivity.
Qed.
