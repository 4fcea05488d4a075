(** Proofs about clustering over the real numbers (C57): nearest cores, the cost, the default methods. *)
From Coq Require Import Reals Lra Lia Psatz List Permutation.
From Verif Require Import Prelude Prelude_Proofs Scalar RealLib Fmat Fmat_Proofs LE_Model IP_Model IP_Proofs Vop Stat_Model Stat2_Proofs Qp_Proofs Cluster_Model Cluster_Proofs Cluster_Spec.
Import ListNotations.
Local Open Scope R_scope.

Lemma lsum_nth {A} (f : A -> R) l d : lsum f l = rsum (length l) (fun i => f (nth i l d)).
Proof. induction l as [|a l IH]; [reflexivity|]. cbn [length]. rewrite rsum_S_l. cbn [nth lsum fold_right]. fold (lsum f l). rewrite IH. reflexivity. Qed.
Lemma lsum_perm {A} (f : A -> R) l l' : Permutation l l' -> lsum f l = lsum f l'.
Proof. unfold lsum. induction 1; cbn; lra. Qed.
Lemma lsum_le {A} (f g : A -> R) l : (forall a, In a l -> f a <= g a) -> lsum f l <= lsum g l.
Proof. intros H. induction l as [|a l IH]; [apply Rle_refl|]. cbn. fold (lsum f l) (lsum g l). pose proof (H a (or_introl eq_refl)). specialize (IH (fun x h => H x (or_intror h))). lra. Qed.
Lemma lsum_map {A B} (h : A -> B) (f : B -> R) l : lsum f (map h l) = lsum (fun a => f (h a)) l.
Proof. unfold lsum. induction l; cbn; [auto|]. now rewrite IHl. Qed.
Lemma lsum_concat {A} (f : A -> R) ls : lsum f (concat ls) = lsum (lsum f) ls.
Proof. induction ls as [|l ls IH]; [reflexivity|]. cbn [concat]. rewrite lsum_app, IH. reflexivity. Qed.

Section Near.
  Context (D : nat -> fvec R -> R).
  Local Notation near := (near D). Local Notation all := (@all R).
  Local Notation csam := (@csam R RealS). Local Notation ccore := (@ccore R RealS).

  Lemma near_min g p n j : (j < n)%nat -> D p (g (snd (near g p n))) <= D p (g j).
  Proof.
    induction n as [|n IH]; [lia|]. intros Hj. cbn [Cluster_Proofs.near]. unfold bestT. destruct n as [|n].
    - cbn. replace j with O by lia. lra.
    - destruct (near_lt D g p (S n)) as (A & B); [lia|]. rewrite B. rs. destruct (Rltb_spec (D p (g (S n))) (D p (g (snd (near g p (S n)))))) as [X|X]; cbn [fst snd].
      + destruct (Nat.eq_dec j (S n)) as [->|]; [lra|]. specialize (IH ltac:(lia)). lra.
      + destruct (Nat.eq_dec j (S n)) as [->|]; [lra|]. apply IH; lia.
  Qed.
  Lemma members_iff cs i p : members cs i p <-> (i < length cs)%nat /\ In p (csam cs i).
  Proof.
    unfold members, Cluster_Proofs.csam. split.
    - intros (c & E & I). pose proof (nth_error_Some cs i). rewrite (nth_error_nth _ _ _ E). split; auto. apply H. congruence.
    - intros (L & I). exists (nth i cs c0). split; auto. now apply nth_error_nth'.
  Qed.
  Lemma has_core_iff cs i x : has_core cs i x <-> (i < length cs)%nat /\ ccore cs i = x.
  Proof.
    unfold has_core, Cluster_Proofs.ccore. split.
    - intros (c & E & I). pose proof (nth_error_Some cs i). rewrite (nth_error_nth _ _ _ E). split; auto. apply H. congruence.
    - intros (L & I). exists (nth i cs c0). split; auto. now apply nth_error_nth'.
  Qed.
  Lemma settled_nearest cs : settled_all D cs -> nearest_all D cs.
  Proof.
    intros S i j p x y M X Y. apply members_iff in M. apply has_core_iff in X, Y. destruct M as (Li & I), X as (_ & <-), Y as (Lj & <-).
    rewrite <- (S i p Li I) at 1. now apply near_min.
  Qed.

  (** ** the cost *)
  Definition costg (cs : list (@cluster R)) (g : nat -> fvec R) : R := rsum (length cs) (fun i => lsum (fun p => D p (g i)) (csam cs i)).
  Lemma cost_ok cs : cost D cs = costg cs (ccore cs).
  Proof.
    unfold cost, costg. pose proof (lsum_nth (fun c => lsum (fun p => D p (core c)) (sam c)) cs (c0 : @cluster R)) as E. unfold lsum at 1 in E. exact E.
  Qed.
  Lemma all_sum f cs : lsum f (all cs) = rsum (length cs) (fun i => lsum f (csam cs i)).
  Proof. unfold all. rewrite lsum_concat, lsum_map. apply (lsum_nth (fun c => lsum f (sam c)) cs c0). Qed.
End Near.
Section Gen.
  Context (coref : list (fvec R) -> fvec R -> res (fvec R)) (pt : nat -> fvec R).
  Context (points : list nat) (cok : fvec R -> Prop) (D : nat -> fvec R -> R).
  Local Notation near := (near D). Local Notation wf := (wf points cok). Local Notation all := (@all R).
  Local Notation csam := (@csam R RealS). Local Notation ccore := (@ccore R RealS). Local Notation costg := (costg D).
  Lemma reassigned_cost cs1 cs2 : (0 < length cs1)%nat -> reassigned points cok D cs1 cs2 -> costg cs2 (ccore cs1) <= costg cs1 (ccore cs1).
  Proof.
    intros L (A1 & A2 & A3 & A4 & A5). set (k := length cs1) in *.
    set (mn := fun p => D p (ccore cs1 (snd (near (ccore cs1) p k)))).
    assert (E : costg cs2 (ccore cs1) = lsum mn (all cs2)).
    { unfold costg. rewrite all_sum. apply rsum_ext. intros i Hi. apply lsum_ext. intros p Ip. unfold mn.
      specialize (A5 i p Hi Ip). rewrite A1 in A5. rewrite (near_ext D _ (ccore cs1)) in A5 by (intros; apply A2). now rewrite A5. }
    rewrite E, (lsum_perm _ _ _ A3), all_sum. apply rsum_le. intros i Hi. apply lsum_le. intros p Ip. now apply near_min.
  Qed.
  Definition optimal : Prop := forall l c m c', (forall p, In p l -> In p points) -> cok c -> cok c' -> coref (map pt l) c = Ok m ->
    lsum (fun p => D p m) l <= lsum (fun p => D p c') l.
  Lemma cores_cost cs cs1 g : optimal -> wf cs -> cores_of coref pt points cok D cs cs1 -> (forall i, (i < length cs)%nat -> cok (g i)) -> costg cs1 (ccore cs1) <= costg cs g.
  Proof.
    intros O (W1 & W2) (A1 & A2 & A3 & A4 & A5 & A6) G. unfold costg. rewrite A1. apply rsum_le. intros i Hi. rewrite A3. eapply O; eauto.
    intros p Ip. apply W1. eapply in_all; eauto.
  Qed.
End Gen.

(** ** the default methods *)
Lemma default_errsq_ok m (x y : fvec R) : vlen x = m -> vlen y = m -> default_errsq m x y = Ok (sqd m x y).
Proof.
  intros X Y. unfold default_errsq, zVecSubC. rewrite X, Y. cbn [vlen vzero]. rewrite Nat.eqb_refl. cbn [andb].
  unfold zVecSubNC. rewrite vop2_ok by (cbn [vlen vzero]; auto). cbn [bind]. unfold zVecSqrNorm. cbn [vlen vel vzero]. rewrite ksum_R. f_equal. unfold sqd. apply rsum_ext. intros; rs; ring.
Qed.
Lemma default_dist_ok m (x y : fvec R) : vlen x = m -> vlen y = m -> default_dist x y = Ok (sqrt (sqd m x y)).
Proof.
  intros X Y. unfold default_dist, sqrdist. rewrite X.
  assert (E : for_ 0 m (fun i d => a <- vget x i ;; b <- vget y i ;; Ok (d + Stat_Model.sqr (a - b))%S) 0%S = Ok (sqd m x y)).
  { match goal with |- for_ 0 m ?f ?s0 = _ => destruct (for_inv (fun k s => s = rsum k (fun i => (vel x i - vel y i) ^ 2)) 0 m f s0) as (s & E & V) end; [lia|reflexivity| |].
    - intros k s Hk ->. rewrite !vget_ok by lia. cbn [bind]. eexists. split; [reflexivity|]. cbn [rsum]. unfold Stat_Model.sqr. rs. ring.
    - rewrite E, V. reflexivity. }
  cbv zeta. rewrite E. reflexivity.
Qed.
Lemma sqd_nonneg m x y : 0 <= sqd m x y.
Proof. apply rsum_nonneg. intros. apply pow2_ge_0. Qed.
Lemma sqd_refl m x : sqd m x x = 0.
Proof. unfold sqd. apply rsum_0. intros. ring. Qed.
Lemma sqd_sym m x y : sqd m x y = sqd m y x.
Proof. unfold sqd. apply rsum_ext. intros. ring. Qed.
Lemma sqd_0 m x y : sqd m x y = 0 -> forall i, (i < m)%nat -> vel x i = vel y i.
Proof. intros H i Hi. assert (E : (vel x i - vel y i) ^ 2 = 0) by (apply (rsum_nonneg_0 m (fun i => (vel x i - vel y i) ^ 2)); auto; intros; apply pow2_ge_0). nra. Qed.

Section Default.
  Context (tol : R) (HT : 0 <= tol < 1) (m : nat) (pt : nat -> fvec R).
  Lemma default_core_ok l c : (forall p, In p l -> vlen (pt p) = m) -> vlen c = m -> exists mu, default_core tol (map pt l) c = Ok mu /\ vlen mu = m /\
    (l <> [] -> forall i, vel mu i = lsum (fun p => vel (pt p) i) l / INR (length l)).
  Proof.
    intros S C. unfold default_core. destruct l as [|a l].
    - eexists. split; [|split].
      + cbn. unfold zVecDivDRC. rewrite is_tol_R. cbn [sofZ RealS]. replace (IZR (Z.of_nat 0)) with 0 by reflexivity. destruct (Rleb_spec (Rabs 0) tol) as [X|X]; [reflexivity|]. rewrite Rabs_R0 in X. lra.
      + exact C.
      + congruence.
    - destruct (mean_ok tol (map pt (a :: l)) m HT ltac:(discriminate)) with (s := c) as (mu & E & A & B); auto.
      + intros v Iv. apply in_map_iff in Iv. destruct Iv as (p & <- & Ip). auto.
      + exists mu. conjs; auto. intros _ i. rewrite B. unfold vmean. now rewrite lsum_map, map_length.
  Qed.
  Lemma lsum_const {A} (k : R) (l : list A) : lsum (fun _ => k) l = INR (length l) * k.
  Proof. induction l as [|a l IH]; [cbn; ring|]. cbn [lsum fold_right]. fold (lsum (fun _ : A => k) l). rewrite IH. cbn [length]. rewrite S_INR. ring. Qed.
  Lemma mean_optimal l c mu c' : (forall p, In p l -> vlen (pt p) = m) -> vlen c = m -> default_core tol (map pt l) c = Ok mu ->
    lsum (fun p => sqd m (pt p) mu) l <= lsum (fun p => sqd m (pt p) c') l.
  Proof.
    intros S C E. destruct l as [|a l]; [apply Rle_refl|]. set (L := a :: l) in *.
    destruct (default_core_ok L c S C) as (mu' & E' & V & M). rewrite E in E'. injection E' as <-. specialize (M ltac:(discriminate)).
    assert (N : 0 < INR (length L)) by (apply lt_0_INR; cbn; lia).
    unfold sqd. rewrite !lsum_rsum. apply rsum_le. intros i Hi. set (x := fun p => vel (pt p) i). set (s := lsum x L).
    assert (Q : forall k, lsum (fun p => (x p - k) ^ 2) L = lsum (fun p => (x p) ^ 2) L - 2 * k * s + INR (length L) * k ^ 2).
    { intros k. rewrite (lsum_ext _ (fun p => x p ^ 2 - (2 * k * x p - k ^ 2))) by (intros; ring). rewrite lsum_sub, lsum_sub, lsum_scal, lsum_const. fold s. ring. }
    change (lsum (fun p => (x p - vel mu i) ^ 2) L <= lsum (fun p => (x p - vel c' i) ^ 2) L). rewrite !Q. specialize (M i). fold x s in M. assert (ES : s = INR (length L) * vel mu i) by (rewrite M; field; lra). 
    pose proof (pow2_ge_0 (vel mu i - vel c' i)). rewrite ES. nra.
  Qed.
End Default.
