(** B-spline and NURBS curves, their derivatives. *)
From Coq Require Import Reals Lra Lia.
From Coquelicot Require Import Coquelicot.
From Verif Require Import Prelude Prelude_Proofs Scalar RealLib Fmat Fmat_Proofs Misc_Model Misc_Proofs IP_Model IP_Proofs Nurbs_Model Nurbs_Spec Nurbs_Proofs Nurbs2_Proofs.
Local Open Scope R_scope.
Local Notation U n := (vel (bp_knot (nb_param n))).
Local Notation ord n := (bp_order (nb_param n)).

Lemma weight_ok n i : (i < vlen (nb_cp n))%nat -> weight n i = Ok (wt n i).
Proof. intros H. unfold weight. rewrite vget_ok by auto. reflexivity. Qed.
Lemma ctrl_ok (n : @nurbs R) i : (i < vlen (nb_cp n))%nat -> ctrl n i = Ok (snd (vel (nb_cp n) i)).
Proof. intros H. unfold ctrl. rewrite vget_ok by auto. reflexivity. Qed.
Lemma window nc lo len f : (lo + len <= nc)%nat -> (forall i, (i < lo \/ lo + len <= i)%nat -> f i = 0) ->
  rsum nc f = rsum len (fun k => f (lo + k)%nat).
Proof.
  intros H Z. replace nc with (lo + (len + (nc - lo - len)))%nat by lia. rewrite !rsum_app.
  rewrite (rsum_0 lo) by (intros; apply Z; lia). rewrite (rsum_0 (nc - lo - len)) by (intros; apply Z; lia). ring.
Qed.

Lemma accum_ok n nc m (F : nat -> res R) (b : nat -> R) lo hi (v : fvec R) : cgood n nc m -> vlen v = m -> (lo <= hi <= nc)%nat ->
  (forall i, (lo <= i < hi)%nat -> F i = Ok (b i)) ->
  exists v', for_ lo hi (fun i v => b <- F i ;; c <- ctrl n i ;; zVecCatNCDRC v b c) (zVecZero v) = Ok v' /\ vlen v' = m /\
    forall c, vel v' c = rsum (hi - lo) (fun k => b (lo + k)%nat * cp n c (lo + k)).
Proof.
  intros (G & LC & LM) Lv Hh HF.
  destruct (for_inv (fun k (v : fvec R) => vlen v = m /\ forall c, vel v c = rsum (k - lo) (fun k => b (lo + k)%nat * cp n c (lo + k)))
    lo hi (fun i v => b <- F i ;; c <- ctrl n i ;; zVecCatNCDRC v b c) (zVecZero v)) as (v' & E & L & P); [lia| | |].
  - split; [exact Lv|]. intros c. rewrite Nat.sub_diag. reflexivity.
  - intros k w Hk [L P]. rewrite HF, ctrl_ok by lia. cbn [bind]. rewrite catNCDRC_ok by (rewrite L; apply LM; lia).
    eexists. split; [reflexivity|]. cbn [vlen vel]. split; auto. intros c. rewrite P. replace (S k - lo)%nat with (S (k - lo)) by lia. cbn [rsum].
    replace (lo + (k - lo))%nat with k by lia. unfold cp. ring.
  - exists v'. auto.
Qed.
(** ** B-spline curves *)
Definition bval n s d (c : nat) (t : R) : R := rsum (S (ord n)) (fun k => dspan (U n) d s (ord n) (s - ord n + k) t * cp n c (s - ord n + k)).
Lemma good_K n nc m : cgood n nc m -> vlen (bp_knot (nb_param n)) = (nc + ord n + 1)%nat.
Proof. intros ((E & _) & _). exact E. Qed.
Lemma bsplinevec_ok n nc m t s v : cgood n nc m -> vlen v = m -> zBSplineParamSeg (nb_param n) t = Ok s -> (ord n <= s < nc)%nat ->
  exists v', zBSplineVec n t v = Ok v' /\ vlen v' = m /\ forall c, vel v' c = bval n s 0 c t.
Proof.
  intros G Lv Es Hs. unfold zBSplineVec. rewrite Es. cbn [bind]. pose proof (good_K _ _ _ G) as EK.
  destruct (accum_ok n nc m (fun i => zBSplineParamBasis (nb_param n) t i (ord n) s) (fun i => span (U n) s (ord n) i t) (s - ord n) (S s) v) as (v' & E & L & P); auto; [lia| |].
  - intros i Hi. apply basis_ok. lia.
  - exists v'. split; [exact E|split; [auto|]]. intros c. rewrite P. replace (S s - (s - ord n))%nat with (S (ord n)) by lia. reflexivity.
Qed.
Lemma bval_high n s d c t : (ord n < d)%nat -> bval n s d c t = 0.
Proof. intros H. apply rsum_0. intros k _. rewrite dspan_high by auto. ring. Qed.
Lemma bsplinediff_ok n nc m t s d v : cgood n nc m -> vlen v = m -> zBSplineParamSeg (nb_param n) t = Ok s -> (ord n <= s < nc)%nat ->
  exists v', zBSplineVecDiff n t d v = Ok v' /\ vlen v' = m /\ forall c, vel v' c = bval n s d c t.
Proof.
  intros G Lv Es Hs. unfold zBSplineVecDiff. destruct (Nat.eqb_spec d 0) as [->|Nd]; [eapply bsplinevec_ok; eauto|].
  destruct (Nat.ltb_spec (ord n + 1) d).
  { eexists. split; [reflexivity|]. split; [exact Lv|]. intros c. rewrite bval_high by lia. reflexivity. }
  rewrite Es. cbn [bind]. pose proof (good_K _ _ _ G) as EK.
  destruct (accum_ok n nc m (fun i => zBSplineParamBasisDiff (nb_param n) t i (ord n) s d) (fun i => dspan (U n) d s (ord n) i t) (s - ord n) (S s) v) as (v' & E & L & P); auto; [lia| |].
  - intros i Hi. apply basis_diff_ok; lia.
  - exists v'. split; [exact E|split; [auto|]]. intros c. rewrite P. replace (S s - (s - ord n))%nat with (S (ord n)) by lia. reflexivity.
Qed.
(** the window of a span inside the sum over all control points *)
Lemma wwindow n nc m s t (g : nat -> R) : cgood n nc m -> (ord n <= s < nc)%nat ->  U n s <= t < U n (S s) ->
  rsum nc (fun i => bspline (U n) (ord n) i t * g i) = rsum (S (ord n)) (fun k => dspan (U n) 0 s (ord n) (s - ord n + k) t * g (s - ord n + k)%nat).
Proof.
  intros ((EK & M & L) & _) Hs Ht.
  transitivity (rsum nc (fun i => span (U n) s (ord n) i t * g i)).
  { apply rsum_ext. intros i Hi. f_equal. eapply bspline_span; eauto; lia. }
  rewrite (window nc (s - ord n) (S (ord n))); [reflexivity|lia|].
  intros i Hi. rewrite span_out by lia. ring.
Qed.
Lemma bval_curve n nc m s c t : cgood n nc m -> (ord n <= s < nc)%nat ->  U n s <= t < U n (S s) -> bval n s 0 c t = bcurve (U n) (ord n) nc (cp n c) t.
Proof. intros G Hs Ht. unfold bcurve. rewrite (wwindow n nc m s) by auto. reflexivity. Qed.

(** sums of derivable functions *)
Lemma is_derive_rsum k (f g : nat -> R -> R) t : (forall i, (i < k)%nat -> is_derive (f i) t (g i t)) -> is_derive (fun u => rsum k (fun i => f i u)) t (rsum k (fun i => g i t)).
Proof.
  induction k as [|k IH]; intros H; cbn [rsum]; [apply @is_derive_const|].
  apply @is_derive_plus; [apply IH; intros; apply H; lia|apply H; lia].
Qed.
Definition wsumd n s (g : nat -> R) d t := rsum (S (ord n)) (fun k => g k * dspan (U n) d s (ord n) (s - ord n + k) t).
Lemma wsumd_derive n nc m s g d t : cgood n nc m -> (ord n <= s < nc)%nat -> is_derive (wsumd n s g d) t (wsumd n s g (S d) t).
Proof.
  intros G Hs. pose proof (good_K _ _ _ G) as EK. destruct G as ((_ & M & _) & _).
  apply (is_derive_rsum _ (fun k t => g k * dspan (U n) d s (ord n) (s - ord n + k) t) (fun k t => g k * dspan (U n) (S d) s (ord n) (s - ord n + k) t)).
  intros i Hi. apply @is_derive_scal. eapply dspan_derive; eauto. lia.
Qed.
Lemma bval_wsumd n s d c t : bval n s d c t = wsumd n s (fun k => cp n c (s - ord n + k)) d t.
Proof. apply rsum_ext. intros. ring. Qed.
(** iterated derivatives from a chain *)
Lemma chain_derive_n (P : R -> Prop) (F : nat -> R -> R) d t : open P -> (forall k u, P u -> is_derive (F k) u (F (S k) u)) -> P t -> Derive_n (F 0%nat) d t = F d t.
Proof.
  intros O H. revert t. induction d as [|d IH]; intros t Pt; [reflexivity|]. cbn [Derive_n].
  transitivity (Derive (F d) t); [|apply is_derive_unique; auto].
  apply Derive_ext_loc. generalize (O t Pt). apply filter_imp. intros u Pu. apply IH. auto.
Qed.
Lemma open_span a b : open (fun u : R => a < u < b).
Proof. apply open_and; [apply open_gt|apply open_lt]. Qed.
Lemma bcurve_derive n nc m s c d t : cgood n nc m -> (ord n <= s < nc)%nat ->  U n s < t < U n (S s) ->
  Derive_n (bcurve (U n) (ord n) nc (cp n c)) d t = bval n s d c t.
Proof.
  intros G Hs Ht. transitivity (Derive_n (wsumd n s (fun k => cp n c (s - ord n + k)) 0) d t).
  - apply Derive_n_ext_loc. generalize (open_span (U n s) (U n (S s)) t Ht). apply filter_imp.
    intros u Hu. rewrite <- bval_wsumd. symmetry. eapply bval_curve; eauto. lra.
  - rewrite bval_wsumd. apply (chain_derive_n (fun _ => True)); auto; [apply open_true|]. intros k u _. eapply wsumd_derive; eauto.
Qed.

(** ** rational curves *)
Definition num n s d c t := wsumd n s (fun k => wt n (s - ord n + k) * cp n c (s - ord n + k)) d t.
Definition den n s d t := wsumd n s (fun k => wt n (s - ord n + k)) d t.
Lemma finish_ok (tol : R) (v : fvec R) d : tol < Rabs d -> zVecDivDRC tol v d = Ok (FV (vlen v) (fun i => vel v i * (1 / d))).
Proof.
  intros H. assert (E : is_tol tol d = false) by (rewrite is_tol_R; apply Rleb_false; lra).
  unfold zVecDivDRC. rewrite E. unfold zVecDivNC. rewrite vop1_ok by auto. reflexivity.
Qed.
Lemma nurbsvec_ok tol n nc m t s v : cgood n nc m -> vlen v = m -> zBSplineParamSeg (nb_param n) t = Ok s -> (ord n <= s < nc)%nat -> tol < Rabs (den n s 0 t) -> 0 <= tol ->
  exists v', zNURBSVec tol n t v = Ok v' /\ vlen v' = m /\ forall c, vel v' c = num n s 0 c t / den n s 0 t.
Proof.
  intros G Lv Es Hs Hd Ht. unfold zNURBSVec. rewrite Es. cbn [bind]. pose proof (good_K _ _ _ G) as EK. pose proof G as (_ & LC & LM).
  match goal with |- context [for_ ?lo ?hi ?f ?s0] =>
    destruct (for_inv (fun k (dv : R * fvec R) => fst dv = rsum (k - lo) (fun k => wt n (lo + k) * span (U n) s (ord n) (lo + k) t) /\ vlen (snd dv) = m /\
       forall c, vel (snd dv) c = rsum (k - lo) (fun k => wt n (lo + k) * cp n c (lo + k) * span (U n) s (ord n) (lo + k) t)) lo hi f s0) as ((dn & v') & E & P1 & L & P2) end; [lia| | |].
  - rewrite Nat.sub_diag. cbn [fst snd]. split; [reflexivity|]. split; [exact Lv|]. intros. reflexivity.
  - intros k [dn w] Hk (P1 & L & P2). cbn [fst snd] in *. rewrite weight_ok, basis_ok, ctrl_ok by lia. cbn [bind smul sadd RealS].
    rewrite catNCDRC_ok by (rewrite L; apply LM; lia). cbn [bind]. eexists. split; [reflexivity|]. cbn [fst snd vlen vel].
    replace (S k - (s - ord n))%nat with (S (k - (s - ord n))) by lia. cbn [rsum]. replace (s - ord n + (k - (s - ord n)))%nat with k by lia.
    split; [rewrite P1; ring|]. split; auto. intros c. rewrite P2. unfold cp. ring.
  - rewrite E. cbn [bind fst snd] in *. replace (S s - (s - ord n))%nat with (S (ord n)) in * by lia.
    change (dn = den n s 0 t) in P1. change (forall c, vel v' c = num n s 0 c t) in P2. subst dn.
    rewrite is_tol_R. rewrite Rleb_false by lra. rewrite (finish_ok tol v' _ Hd).
    eexists. split; [reflexivity|]. split; auto. intros c. cbn [vel]. rewrite P2. unfold Rdiv. ring.
Qed.
Lemma den_diff_ok n nc m t s d : cgood n nc m -> (ord n <= s < nc)%nat -> (d <= ord n + 1)%nat -> den_diff n t s d = Ok (den n s d t).
Proof.
  intros G Hs Hd. unfold den_diff. pose proof (good_K _ _ _ G) as EK. pose proof G as (_ & LC & LM).
  match goal with |- for_ ?lo ?hi ?f ?s0 = _ =>
    destruct (for_inv (fun k (x : R) => x = rsum (k - lo) (fun k => wt n (lo + k) * dspan (U n) d s (ord n) (lo + k) t)) lo hi f s0) as (x & E & P) end; [lia| | |].
  - rewrite Nat.sub_diag. reflexivity.
  - intros k x Hk P. rewrite weight_ok, basis_diff_ok by lia. cbn [bind smul sadd RealS]. eexists. split; [reflexivity|].
    replace (S k - (s - ord n))%nat with (S (k - (s - ord n))) by lia. cbn [rsum]. replace (s - ord n + (k - (s - ord n)))%nat with k by lia. rewrite P. reflexivity.
  - rewrite E, P. replace (S s - (s - ord n))%nat with (S (ord n)) by lia. reflexivity.
Qed.

(** ** Leibniz *)
Section Leibniz.
  Variable P : R -> Prop.
  Hypothesis OP : open P.
  Local Notation C := Binomial.C.
  Lemma leibniz (A D F : nat -> R -> R) : (forall k u, P u -> is_derive (A k) u (A (S k) u)) -> (forall k u, P u -> is_derive (D k) u (D (S k) u)) ->
    (forall k u, P u -> is_derive (F k) u (F (S k) u)) -> (forall u, P u -> A 0%nat u = D 0%nat u * F 0%nat u) ->
    forall d u, P u -> A d u = rsum (S d) (fun i => C d i * (D i u * F (d - i)%nat u)).
  Proof.
    intros HA HD HF H0. induction d as [|d IH]; intros u Pu.
    { cbn [rsum]. rewrite (H0 u Pu), C_n_0. cbn [Nat.sub]. ring. }
    assert (E : is_derive (A d) u (rsum (S d) (fun i => C d i * (D (S i) u * F (d - i)%nat u + D i u * F (S (d - i)) u)))).
    { apply is_derive_ext_loc with (fun u => rsum (S d) (fun i => C d i * (D i u * F (d - i)%nat u))).
      { generalize (OP u Pu). apply filter_imp. intros x Px. symmetry. auto. }
      apply (is_derive_rsum _ (fun i u => C d i * (D i u * F (d - i)%nat u)) (fun i u => C d i * (D (S i) u * F (d - i)%nat u + D i u * F (S (d - i)) u))).
      intros i _. apply @is_derive_scal. specialize (HD i u Pu). specialize (HF (d - i)%nat u Pu).
      auto_derive; [split; [eexists; exact HD|split; [eexists; exact HF|auto]]|].
      apply is_derive_unique in HD, HF.
      change (Derive (fun x => D i x) u) with (Derive (D i) u). change (Derive (fun x => F (d - i)%nat x) u) with (Derive (F (d - i)%nat) u). rewrite HD, HF. ring. }
    rewrite <- (is_derive_unique _ _ _ (HA d u Pu)), (is_derive_unique _ _ _ E).
    set (G := fun i => D i u * F (S d - i)%nat u).
    rewrite (rsum_ext (S d) _ (fun i => C d i * G (S i) + C d i * G i)).
    2:{ intros i Hi. unfold G. replace (S d - S i)%nat with (d - i)%nat by lia. replace (S d - i)%nat with (S (d - i)) by lia. ring. }
    rewrite rsum_add. rewrite (rsum_ext (S (S d)) _ (fun i => C (S d) i * G i)) by (intros; unfold G; ring).
    rewrite (rsum_S_l (S d)). rewrite (rsum_S_l d (fun i => C d i * G i)). cbn [rsum]. rewrite C_n_0, !C_n_n, C_n_0.
    rewrite (rsum_ext d (fun i => C (S d) (S i) * G (S i)) (fun i => C d i * G (S i) + C d (S i) * G (S i))) by (intros; rewrite <- pascal by auto; ring).
    rewrite rsum_add. ring.
  Qed.
  Fixpoint smooth (k : nat) (f : R -> R) : Prop :=
    match k with O => True | S k' => exists g, (forall u, P u -> is_derive f u (g u)) /\ smooth k' g end.
  Lemma smooth_down k f : smooth (S k) f -> smooth k f.
  Proof. revert f. induction k as [|k IH]; intros f H; [exact I|]. destruct H as (g & D & S). exists g. split; auto. Qed.
  Lemma smooth_ext k f g : (forall u, P u -> f u = g u) -> smooth k f -> smooth k g.
  Proof.
    destruct k; intros E H; [exact I|]. destruct H as (h & D & S). exists h. split; auto. intros u Pu.
    apply is_derive_ext_loc with f; auto. generalize (OP u Pu). apply filter_imp. auto.
  Qed.
  Lemma smooth_plus k f g : smooth k f -> smooth k g -> smooth k (fun u => f u + g u).
  Proof.
    revert f g. induction k as [|k IH]; intros f g Hf Hg; [exact I|]. destruct Hf as (f' & F & Sf), Hg as (g' & G & Sg).
    exists (fun u => f' u + g' u). split; auto. intros u Pu. apply @is_derive_plus; auto.
  Qed.
  Lemma smooth_mult k f g : smooth k f -> smooth k g -> smooth k (fun u => f u * g u).
  Proof.
    revert f g. induction k as [|k IH]; intros f g Hf Hg; [exact I|]. pose proof (smooth_down k f Hf) as Hf'. pose proof (smooth_down k g Hg) as Hg'. destruct Hf as (f' & F & Sf), Hg as (g' & G & Sg).
    exists (fun u => f' u * g u + f u * g' u). split; [|apply smooth_plus; apply IH; auto].
    intros u Pu. apply @is_derive_mult; auto. apply Rmult_comm.
  Qed.
  Lemma smooth_opp k f : smooth k f -> smooth k (fun u => - f u).
  Proof.
    revert f. induction k as [|k IH]; intros f Hf; [exact I|]. destruct Hf as (f' & F & Sf).
    exists (fun u => - f' u). split; auto. intros u Pu. apply @is_derive_opp; auto.
  Qed.
  Lemma smooth_inv k f : (forall u, P u -> f u <> 0) -> smooth k f -> smooth k (fun u => / f u).
  Proof.
    intros N. induction k as [|k IH]; intros Hf; [exact I|]. pose proof (smooth_down k f Hf) as Hf'. destruct Hf as (f' & F & Sf).
    exists (fun u => - f' u * (/ f u * / f u)). split.
    - intros u Pu. specialize (F u Pu). specialize (N u Pu). auto_derive; [split; [eexists; exact F|auto]|].
      apply is_derive_unique in F. change (Derive (fun x => f x) u) with (Derive f u). rewrite F. field. auto.
    - apply smooth_mult; [now apply smooth_opp|]. apply smooth_mult; auto.
  Qed.
  Lemma smooth_chain k (D : nat -> R -> R) i : (forall k u, P u -> is_derive (D k) u (D (S k) u)) -> smooth k (D i).
  Proof. intros H. revert i. induction k as [|k IH]; intros i; [exact I|]. exists (D (S i)). split; auto. Qed.
  Lemma smooth_derive_n k f u : smooth (S k) f -> P u -> is_derive (Derive_n f k) u (Derive_n f (S k) u).
  Proof.
    intros H Pu. cbn [Derive_n]. apply Derive_correct. revert f u H Pu. induction k as [|k IH]; intros f u H Pu.
    - destruct H as (g & D & _). cbn [Derive_n]. exists (g u). change (is_derive f u (g u)). auto.
    - destruct H as (g & D & S). destruct (IH g u S Pu) as (l & Hl). exists l.
      apply is_derive_ext_loc with (Derive_n g k); [|exact Hl].
      generalize (OP u Pu). apply filter_imp. intros x Px. change (Derive_n f (Datatypes.S k) x) with (Derive_n f (1 + k) x).
      rewrite Nat.add_comm, <- (Derive_n_comp f k 1 x). apply Derive_n_ext_loc. generalize (OP x Px). apply filter_imp. intros y Py. symmetry. apply (is_derive_unique f y). auto.
  Qed.
End Leibniz.
