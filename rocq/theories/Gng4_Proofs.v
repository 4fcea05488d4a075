(** Values of zm_gng.c over the reals. *)
From Coq Require Import Reals ZArith List Bool Lia Lra Arith.
From Verif Require Import Prelude Prelude_Proofs Scalar RealLib Gng_Model Gng_Spec Gng_Proofs Gng2_Proofs Gng3_Proofs.
Import ListNotations.
Local Open Scope R_scope.

Section P.
  Context (dim : nat) (below_huge : R -> bool) (BH : forall d, below_huge d = true) (v : nat -> R).
  Let D (u : unit R) := zVecSqrDist dim v (uv u).
  (** [u1], [u2]: the nearest and the second of [pre] *)
  Definition nearest (pre : list (unit R)) (u1 u2 : unit R) := In u1 pre /\ In u2 pre /\ (forall u, In u pre -> D u1 <= D u) /\ (forall u, In u pre -> u <> u1 -> D u2 <= D u) /\ D u1 <= D u2.
  Lemma prox_near l : forall pre u1 u2, nearest pre u1 u2 -> NoDup (pre ++ l) ->
    exists w1 w2, fold_left (prox_step dim below_huge v) l (uid u1, Some (D u1), uid u2, Some (D u2)) = (uid w1, Some (D w1), uid w2, Some (D w2)) /\ nearest (pre ++ l) w1 w2.
  Proof.
    induction l as [|u l IH]; intros pre u1 u2 N ND; [rewrite app_nil_r; exists u1, u2; auto|]. cbn [fold_left prox_step]. fold (D u).
    assert (Nu : ~ In u pre) by (apply NoDup_remove_2 in ND; rewrite in_app_iff in ND; tauto).
    replace (pre ++ u :: l) with ((pre ++ [u]) ++ l) in * by (rewrite <- app_assoc; reflexivity). destruct N as (I1 & I2 & M1 & M2 & O). cbn [lt_min]. rs.
    destruct (Rltb_spec (D u) (D u1)).
    - apply IH; auto. unfold nearest. setoid_rewrite in_app_iff. cbn. split; [auto|split; [auto|split; [|split; [|lra]]]].
      + intros w [Hw|[<-|[]]]; [specialize (M1 w Hw)|]; lra.
      + intros w [Hw|[<-|[]]] Ne; [auto|congruence].
    - destruct (Rltb_spec (D u) (D u2)).
      + apply IH; auto. unfold nearest. setoid_rewrite in_app_iff. cbn. split; [auto|split; [auto|split; [|split; [|lra]]]].
        * intros w [Hw|[<-|[]]]; [auto|lra].
        * intros w [Hw|[<-|[]]] Ne; [specialize (M2 w Hw Ne)|]; lra.
      + apply IH; auto. unfold nearest. setoid_rewrite in_app_iff. cbn. split; [auto|split; [auto|split; [|split; [|lra]]]].
        * intros w [Hw|[<-|[]]]; [auto|lra].
        * intros w [Hw|[<-|[]]] Ne; [auto|lra].
  Qed.
  Lemma prox_min g : NoDup (map uid (units g)) -> (2 <= length (units g))%nat -> exists w1 w2, _zGNGFindProximity2 dim below_huge g v = Ok (uid w1, uid w2) /\ nearest (units g) w1 w2.
  Proof.
    intros ND L. apply NoDup_map_inv in ND. unfold _zGNGFindProximity2. destruct (units g) as [|t [|u l]]; try (cbn in L; lia). cbn [get nth_error bind].
    cbn [fold_left]. unfold prox_step at 3. cbn [lt_min]. rewrite BH. unfold prox_step at 2. cbn [lt_min]. rewrite BH. rs. fold (D u) (D t).
    assert (Ne : t <> u) by (inversion ND; subst; intros ->; apply H1; now left).
    change (t :: u :: l) with ([t; u] ++ l) in *. destruct (Rltb_spec (D u) (D t)).
    - destruct (prox_near l [t; u] u t) as (w1 & w2 & -> & N); auto; [|exists w1, w2; auto].
      unfold nearest. cbn. split; [auto|split; [auto|split; [|split; [|lra]]]]; intros w [<-|[<-|[]]]; try lra; congruence.
    - destruct (prox_near l [t; u] t u) as (w1 & w2 & -> & N); auto; [|exists w1, w2; auto].
      unfold nearest. cbn. split; [auto|split; [auto|split; [|split; [|lra]]]]; intros w [<-|[<-|[]]]; try lra; congruence.
  Qed.
End P.

Lemma sqrdist_nonneg dim (v w : nat -> R) : 0 <= zVecSqrDist dim v w.
Proof.
  unfold zVecSqrDist. generalize (List.seq 0 dim). intros l. assert (K : forall s, 0 <= s -> 0 <= fold_left (fun d i => (d + (v i - w i) * (v i - w i))%S) l s).
  { induction l as [|a l IH]; intros s Hs; cbn [fold_left]; auto. apply IH. rs. pose proof (Rle_0_sqr (v a - w a)) as Q. unfold Rsqr in Q. lra. }
  apply K. rs. lra.
Qed.
Lemma pivot_max (g : gng R) u : _zGNGFindPivot g = Ok u -> forall w, In w (units g) -> uerr w <= uerr u.
Proof.
  unfold _zGNGFindPivot. destruct (units g) as [|t l]; [discriminate|]. cbn [get nth_error bind]. intros H. injection H as <-.
  assert (K : forall l p, (uerr p <= uerr (fold_left (fun p u => if sle (uerr p) (uerr u) then u else p) l p) /\
     forall w, In w l -> uerr w <= uerr (fold_left (fun p u => if sle (uerr p) (uerr u) then u else p) l p)) : Prop).
  { induction l0 as [|a l0 IH]; intros p; cbn [fold_left]; [split; [lra|intros w []]|]. rs. destruct (Rleb_spec (uerr p) (uerr a)).
    - destruct (IH a) as [I1 I2]. split; [lra|]. intros w [<-|Hw]; auto.
    - destruct (IH p) as [I1 I2]. split; [lra|]. intros w [<-|Hw]; auto. lra. }
  intros w Hw. now apply (K (t :: l) t).
Qed.
Lemma interdiv_box lo hi (w v : R) c : lo <= w <= hi -> lo <= v <= hi -> 0 <= c <= 1 -> lo <= w + c * (v - w) <= hi.
Proof. intros. split; nra. Qed.
