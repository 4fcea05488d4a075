(** C97: interpolation by Chebyshev polynomials. *)
From Coq Require Import Reals Lra Lia List Arith QArith Floats.
From Verif Require Import Prelude Prelude_Proofs Scalar RealLib Fmat Fmat_Proofs LE_Model LE_Spec LE_Props IP_Model IP_Spec IP_Proofs Cheb_Model Cheb_Spec Cheb_Proofs Cheb2_Proofs Cheb3_Proofs.
Import ListNotations.
Local Open Scope R_scope.
Local Notation points := (list (R * fvec R)).

(** The polynomials of the specification are the Chebyshev polynomials: T_n(cos t) = cos(n t). *)
Theorem C97_polynomials : forall n t, cheb n (cos t) = cos (INR n * t).
Proof. exact cheb_cos. Qed.

(** With any tolerance and any points, the curve is a combination of Chebyshev polynomials of the scaled time, velocity and
    acceleration are its derivatives, and the coefficients solve the interpolation equations up to a negligible change of the
    matrix, or they are all 0 and such a change makes the matrix singular.  Missing: how far the curve may miss the points then. *)
Theorem C97_partial : forall tol (s : points) m, 0 <= tol -> (2 <= length s)%nat -> dim s m -> knot s 0 <> knot s (length s - 1) ->
  let n := length s in let x := fun t => (2 * t - (knot s (n - 1) + knot s 0)) / (knot s (n - 1) - knot s 0) in
  let A := fun i k => cheb k (x (knot s i)) in
  exists d V E, zIPCreateChebyshev tol s = Ok d /\ negligible tol n A E /\
  ((nonsingular n (madd A E) /\ forall i j, (i < n)%nat -> (j < m)%nat -> mm n (madd A E) V i j = pt s i j) \/
   (~ nonsingular n (madd A E) /\ forall i j, (i < n)%nat -> (j < m)%nat -> V i j = 0)) /\
  forall v, vlen v = m ->
  (forall t, answers (zIPVecChebyshev d t v) m /\ answers (zIPVelChebyshev d t v) m /\ answers (zIPAccChebyshev d t v) m) /\
  forall j, (j < m)%nat ->
    (forall t, comp (zIPVecChebyshev d t v) j = rsum n (fun k => V k j * cheb k (x t))) /\
    (forall t, derivable_pt_lim (fun t => comp (zIPVecChebyshev d t v) j) t (comp (zIPVelChebyshev d t v) j)) /\
    (forall t, derivable_pt_lim (fun t => comp (zIPVelChebyshev d t v) j) t (comp (zIPAccChebyshev d t v) j)).
Proof.
  intros tol s m Ht Hn D K n x A. destruct (cheb_create tol s m Ht Hn D) as (d & V & E & Hd & F & NF & HF). exists d, V, F. split; auto. split; auto. split; auto.
  intros v Lv. pose proof (cheb_vec s m V d Hd Hn) as P. pose proof (cheb_vel s m V d Hd Hn) as Q. pose proof (cheb_acc s m V d Hd Hn) as W. split.
  { intros t. destruct (P t v Lv) as (w1 & ? & ? & _), (Q t v Lv) as (w2 & ? & ? & _), (W t v Lv) as (w3 & ? & ? & _). repeat split; eexists; eauto. }
  intros j Hj.
  assert (P' : forall t, comp (zIPVecChebyshev d t v) j = rsum n (fun k => V k j * cheb k (sx s t))) by (intros t; destruct (P t v Lv) as (w & -> & _ & H); cbn [comp]; auto).
  assert (Q' : forall t, comp (zIPVelChebyshev d t v) j = rsum n (fun k => V k j * (cheb1 k (sx s t) * sdx s))) by (intros t; destruct (Q t v Lv) as (w & -> & _ & H); cbn [comp]; auto).
  assert (W' : forall t, comp (zIPAccChebyshev d t v) j = rsum n (fun k => V k j * (cheb2 k (sx s t) * sdx s * sdx s))) by (intros t; destruct (W t v Lv) as (w & -> & _ & H); cbn [comp]; auto).
  assert (DX : forall t, derivable_pt_lim (sx s) t (sdx s)).
  { intros t. unfold sx, sdx. set (a := knot s (length s - 1)) in *. set (b := knot s 0) in *.
    apply (dlim_ext (fun t => 2 / (a - b) * t + - (a + b) / (a - b))); [intros; field; lra|]. generalize (2 / (a - b)) as q, (- (a + b) / (a - b)) as c. intros q c. assert (Eq0 : q * 1 + 0 = q) by ring. cut (derivable_pt_lim (fun t => q * t + c) t (q * 1 + 0)); [rewrite Eq0; auto|].
    apply (derivable_pt_lim_plus (fun t => q * t) (fun _ => c)); [apply (derivable_pt_lim_scal (fun t => t)); apply derivable_pt_lim_id|apply derivable_pt_lim_const]. }
  assert (DS : forall N (f f' : nat -> R -> R) t, (forall k, derivable_pt_lim (f k) t (f' k t)) -> derivable_pt_lim (fun t => rsum N (fun k => f k t)) t (rsum N (fun k => f' k t))).
  { intros N f f' t H. induction N as [|N IH]; [apply derivable_pt_lim_const|]. cbn [rsum]. apply (derivable_pt_lim_plus (fun t => rsum N (fun k => f k t)) (f N)); auto. }
  split; [exact P'|]. split; intros t.
  - eapply dlim_ext; [intros u; symmetry; apply P'|]. rewrite Q'. apply (DS n (fun k t => V k j * cheb k (sx s t)) (fun k t => V k j * (cheb1 k (sx s t) * sdx s))). intros k.
    apply (derivable_pt_lim_scal (fun t => cheb k (sx s t))). apply (derivable_pt_lim_comp (sx s) (cheb k)); [apply DX|apply cheb1_ok].
  - eapply dlim_ext; [intros u; symmetry; apply Q'|]. rewrite W'. apply (DS n (fun k t => V k j * (cheb1 k (sx s t) * sdx s)) (fun k t => V k j * (cheb2 k (sx s t) * sdx s * sdx s))). intros k.
    apply (derivable_pt_lim_scal (fun t => cheb1 k (sx s t) * sdx s)).
    apply (dlim_ext (fun t => sdx s * cheb1 k (sx s t))); [intros; ring|]. replace (cheb2 k (sx s t) * sdx s * sdx s) with (sdx s * (cheb2 k (sx s t) * sdx s)) by ring.
    apply (derivable_pt_lim_scal (fun t => cheb1 k (sx s t))). apply (derivable_pt_lim_comp (sx s) (cheb1 k)); [apply DX|apply cheb2_ok].
Qed.
(** Exact elimination (tolerance 0): for at least two points at different times the curve passes through the points, it is the
    polynomial of the least degree through them, and velocity and acceleration are its derivatives. *)
Theorem C97_exact : forall (s : points) m, (2 <= length s)%nat -> dim s m -> (forall i j, (i < j < length s)%nat -> knot s i <> knot s j) ->
  exists d, zIPCreateChebyshev 0 s = Ok d /\ forall v, vlen v = m ->
  (forall t, answers (zIPVecChebyshev d t v) m /\ answers (zIPVelChebyshev d t v) m /\ answers (zIPAccChebyshev d t v) m) /\
  forall j, (j < m)%nat ->
    (forall i, (i < length s)%nat -> comp (zIPVecChebyshev d (knot s i) v) j = pt s i j) /\
    (forall c : nat -> R, (forall i, (i < length s)%nat -> pt s i j = rsum (length s) (fun k => c k * knot s i ^ k)) ->
       forall t, comp (zIPVecChebyshev d t v) j = rsum (length s) (fun k => c k * t ^ k)) /\
    (forall t, derivable_pt_lim (fun t => comp (zIPVecChebyshev d t v) j) t (comp (zIPVelChebyshev d t v) j)) /\
    (forall t, derivable_pt_lim (fun t => comp (zIPVelChebyshev d t v) j) t (comp (zIPAccChebyshev d t v) j)).
Proof.
  intros s m Hn D Di. assert (K : knot s 0 <> knot s (length s - 1)) by (apply Di; lia).
  destruct (C97_partial 0 s m (Rle_refl 0) Hn D K) as (d & V & E & Ed & NE & HE & H). exists d. split; auto. intros v Lv. destruct (H v Lv) as (H1 & H2). split; auto.
  intros j Hj. destruct (H2 j Hj) as (P & Q & W). pose proof (negligible_0 _ _ _ NE) as Z0. set (n := length s) in *.
  set (x := fun t => (2 * t - (knot s (n - 1) + knot s 0)) / (knot s (n - 1) - knot s 0)) in *.
  assert (Dx : forall i j, (i < j < n)%nat -> x (knot s i) <> x (knot s j)).
  { intros a b Hab Ex. apply (Di a b Hab). unfold x in Ex. apply (f_equal (fun u => u * (knot s (n - 1) - knot s 0))) in Ex. unfold Rdiv in Ex. rewrite !Rmult_assoc, Rinv_l in Ex by lra. lra. }
  assert (C : forall i, (i < n)%nat -> comp (zIPVecChebyshev d (knot s i) v) j = pt s i j).
  { intros i Hi. rewrite P. destruct HE as [(_ & HV)|(NS & _)].
    - rewrite <- (HV i j Hi Hj). unfold mm, madd. apply rsum_ext. intros k Hk. rewrite Z0 by auto. ring.
    - exfalso. apply NS. intros c Hc k Hk. apply (cheb_indep n c (fun i => x (knot s i))); auto. intros q Hq. rewrite <- (Hc q Hq). unfold mv, madd. apply rsum_ext. intros l Hl. rewrite Z0 by auto. unfold x. ring. }
  split; auto. split; auto. intros c Hc t. apply Rminus_diag_uniq. set (f := fun t => comp (zIPVecChebyshev d t v) j - rsum n (fun k => c k * t ^ k)). change (f t = 0).
  apply (low_zero n f (knot s)); auto.
  - apply (low_ext _ (fun t => rsum n (fun k => V k j * cheb k (x t)) + (-1) * rsum n (fun k => c k * t ^ k))); [intros; unfold f; rewrite P; unfold x; ring|].
    apply low_add.
    + apply low_rsum. intros k Hk. apply low_scal. apply (low_mono (S k)); [lia|].
      assert (G : forall f q, low q f -> low q (fun t => f (x t))).
      { clear - K. intros f q (l & L & H). revert f q L H. induction l as [|a l IH]; intros f q L H; [subst; exists nil; split; auto; intros; rewrite H; reflexivity|].
        destruct q as [|q]; [discriminate|]. set (A := 2 / (knot s (n - 1) - knot s 0)). set (B := - (knot s (n - 1) + knot s 0) / (knot s (n - 1) - knot s 0)).
        pose proof (IH (ev l) q ltac:(cbn in L; lia) ltac:(reflexivity)) as G.
        apply (low_ext _ (fun t => a * t ^ 0 + (A * (t * ev l (x t)) + B * ev l (x t)))).
        - intros t. rewrite H. cbn [ev]. unfold x at 3. unfold A, B. cbn [pow]. field. lra.
        - apply low_add; [apply (low_mono 1); [lia|apply low_pow]|]. apply low_add; [apply low_scal, low_x; auto|apply low_scal, low_S; auto]. }
      apply G. apply cheb_low.
    + apply low_scal. apply low_rsum. intros k Hk. apply (low_mono (S k)); [lia|apply low_pow].
  - intros i Hi. unfold f. rewrite C, Hc by auto. ring.
Qed.


(** For numbers of any kind (also NaN, and points in any order of time): at least two points of one size are enough for every
    access to stay inside. *)
Theorem C97_safe : forall {T} {ST : Scalar T} tol (s : list (T * fvec T)) m, (2 <= length s)%nat -> (forall c, In c s -> vlen (snd c) = m) ->
  exists d, zIPCreateChebyshev tol s = Ok d /\ forall v t, vlen v = m ->
    (exists w, zIPVecChebyshev d t v = Ok w /\ vlen w = m) /\ (exists w, zIPVelChebyshev d t v = Ok w /\ vlen w = m) /\ (exists w, zIPAccChebyshev d t v = Ok w /\ vlen w = m).
Proof. intros T ST tol s m Hn D. exact (cheb_safe tol s m Hn D). Qed.
(** the answers at a point of the data are those of the curve *)
Theorem C97_sections : forall {T} {ST : Scalar T} (d : ipdata T) i t v, zIPDataTime d i = Ok t ->
  zIPSecVelChebyshev d i v = zIPVelChebyshev d t v /\ zIPSecAccChebyshev d i v = zIPAccChebyshev d t v.
Proof. intros T ST d i t v E. unfold zIPSecVelChebyshev, zIPSecAccChebyshev. rewrite E. auto. Qed.

(** ** refutations *)
(** a single point: the second column of the matrix is written although there is none *)
Theorem C97_single_refuted : forall {T} {ST : Scalar T} tol t (v : fvec T), zIPCreateChebyshev tol ((t, v) :: nil) = UB.
Proof. intros. reflexivity. Qed.
(** two points at the same time, here with the same value: success is answered, but the curve is 0 *)
Definition qv (l : list Q) := vec_of 0%Q l.
Theorem C97_same_time_refuted : let s := [(0, qv [1]); (1, qv [1]); (0, qv [1]); (1, qv [1])]%Q in
  match zIPCreateChebyshev tol12 s with
  | Ok d => forallb (fun t => match zIPVecChebyshev d t (qv [0%Q]) with Ok w => Qeq_bool (vel w 0) 0 | UB => false end) [0; 1; 2]%Q = true
  | UB => False end.
Proof. vm_compute. reflexivity. Qed.

(** ** examples *)
Definition ex_s : points := [(0, FV 1 (fun _ => 1)); (1, FV 1 (fun _ => 2)); (2, FV 1 (fun _ => 10))].
(** through (0,1), (1,2), (3,10): t^2 + 1 *)
Example C97_case : exists d, zIPCreateChebyshev 0 ex_s = Ok d /\ comp (zIPVecChebyshev d 2 (FV 1 (fun _ => 0))) 0 = 5.
Proof.
  destruct (C97_exact ex_s 1) as (d & E & H); [cbn; lia|intros c [<-|[<-|[<-|[]]]]; reflexivity| |].
  - intros [|[|[|i]]] [|[|[|j]]] Hij; cbn [length ex_s] in Hij; try lia; unfold knot, gap; cbn; lra.
  - exists d. split; auto. destruct (H (FV 1 (fun _ => 0)) eq_refl) as (_ & G). destruct (G 0%nat ltac:(lia)) as (_ & P & _).
    rewrite (P (fun k => match k with O => 1 | 2%nat => 1 | _ => 0 end)); [cbn; lra|].
    intros [|[|[|i]]] Hi; cbn [length ex_s] in Hi; try lia; unfold pt, knot, gap; cbn; lra.
Qed.
Example C97_rational_case : match zIPCreateChebyshev tol12 [(0, qv [1]); (1, qv [2]); (2, qv [10]); (1, qv [17])]%Q with
  | Ok d => match zIPVecChebyshev d 2%Q (qv [0%Q]), zIPVelChebyshev d 2%Q (qv [0%Q]), zIPAccChebyshev d 2%Q (qv [0%Q]) with
            | Ok a, Ok b, Ok c => (Qeq_bool (vel a 0) 5 && Qeq_bool (vel b 0) 4 && Qeq_bool (vel c 0) 2)%bool | _, _, _ => false end
  | UB => false end = true.
Proof. vm_compute. reflexivity. Qed.
Print Assumptions C97_polynomials.
Print Assumptions C97_exact.
Print Assumptions C97_partial.
Print Assumptions C97_safe.
Print Assumptions C97_sections.
Print Assumptions C97_single_refuted.
Print Assumptions C97_same_time_refuted.
