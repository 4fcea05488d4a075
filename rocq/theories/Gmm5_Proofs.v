(** The mixtures for all small tolerances, for C107. *)
From Coq Require Import Reals Lra Lia List.
From Verif Require Import Prelude Prelude_Proofs Scalar RealLib Fmat Fmat_Proofs LE_Model LE_Spec IP_Model Vop Stat_Model Cluster_Model
  Stab_Proofs Small_Props Gmm_Model Gmm_Spec Gmm3_Proofs Gmm4_Proofs.
Import ListNotations.
Local Open Scope R_scope.

Lemma st_foreach {A S} (f : R -> A -> S -> res S) l : (forall a s, st (fun t => f t a s)) -> forall s, st (fun t => foreach l (f t) s).
Proof.
  intros H s. unfold foreach. assert (G : forall l F, st F -> st (fun t => fold_left (fun r a => bind r (f t a)) l (F t))).
  { clear l s. induction l as [|a l IH]; intros F HF; cbn [fold_left]; [exact HF|]. apply (IH (fun t => bind (F t) (f t a))). apply st_bind; auto. }
  apply (G l (fun _ => Ok s)). apply st_const.
Qed.
Lemma st_div v k : st (fun t => zVecDivDRC t v k).
Proof. unfold zVecDivDRC. apply st_if; [apply st_is_tol|apply st_const|apply st_const]. Qed.
Lemma st_mean l v : st (fun t => default_core t l v).
Proof. unfold default_core, zVecListMean. apply st_bind; [apply st_const|]. intros. apply st_div. Qed.
Lemma st_cores errsq pt cs : st (fun t => compute_cores errsq (default_core t) pt cs).
Proof.
  unfold compute_cores. apply st_for. intros i s. apply st_bind; [apply st_const|]. intros c. apply st_bind; [apply st_mean|]. intros m. apply st_const.
Qed.
Lemma st_recluster errsq pt rest : forall i cs, st (fun t => recluster_loop errsq (default_core t) pt rest i cs).
Proof.
  induction rest as [|rest IH]; intros i cs; cbn [recluster_loop]; [apply st_const|]. apply st_bind; [apply st_cores|]. intros cs1. apply st_bind; [apply st_const|]. intros (cs2 & [|]); [apply IH|apply st_const].
Qed.
Lemma st_seeds dist pt rndi rndf points k r : st (fun t => pp_seeds t dist pt rndi rndf points k r).
Proof.
  unfold pp_seeds. destruct points as [|p0 ps]; [apply st_const|]. set (points := p0 :: ps). destruct (k =? 0)%nat; [apply st_const|]. apply st_bind; [apply st_const|]. intros p. apply st_bind; [|intros s; apply st_const].
  apply st_for. intros i (seeds & r1). apply st_bind; [apply st_const|]. intros score. apply st_bind; [apply st_const|]. intros sum. apply st_bind; [apply st_div|]. intros sc. apply st_const.
Qed.
Lemma st_kmeans n pt rndi rndf kiter points k r : st (fun t => zVecMultiClusterKMeans t (default_errsq n) default_dist (default_core t) pt rndi rndf kiter n points k r).
Proof.
  unfold zVecMultiClusterKMeans. apply st_bind; [apply st_seeds|]. intros [(seeds & r1)|]; [|apply st_const]. apply st_bind; [apply st_const|]. intros cs. apply st_bind; [apply st_recluster|]. intros (cs' & i). apply st_const.
Qed.
Lemma st_estim n u c : st (fun t => _zGMMUnitEstim t t n u c).
Proof.
  unfold _zGMMUnitEstim. apply st_bind; [apply st_mean|]. intros core. apply st_bind; [apply st_const|]. intros cv. cbv zeta. apply st_bind; [apply st_det|]. intros d. apply st_bind; [|intros; apply st_const].
  apply st_if; [apply st_is_tol|apply st_const|]. apply st_bind; [apply st_matinv|]. intros. apply st_const.
Qed.
Lemma st_estimates n w cs : forall us, st (fun t => estimates t t n us cs w).
Proof.
  induction cs as [|c cs IH]; intros [|u us]; cbn [estimates]; try apply st_const. apply st_bind; [apply st_estim|]. intros u'. apply st_bind; [apply IH|]. intros. apply st_const.
Qed.
Section P.
Variables (fexp flog : R -> R) (pi2 ltol : R).
Lemma st_pdf n u p : st (fun t => _zGMMUnitPDF t fexp pi2 n u p).
Proof.
  unfold _zGMMUnitPDF. apply st_bind; [apply st_const|]. intros e. apply st_bind; [apply st_const|]. intros c. apply (st_map (fun x => Ok x) (fun t => if is_tol t (udet u) then _ else _)). apply st_if; [apply st_is_tol|apply st_const|apply st_const].
Qed.
Lemma st_expect n us pts pdf ld dt nk : st (fun t => _zGMMCreateEMExpect t fexp pi2 n us pts pdf ld dt nk).
Proof.
  unfold _zGMMCreateEMExpect. apply st_bind; [|intros (pdf' & dt'); apply st_const]. unfold densities. apply st_bind; [|intros ((a & b) & c); apply st_const].
  apply st_foreach. intros p ((pd & d) & i). apply st_bind; [|intros ((a & b) & c); apply st_const]. apply st_foreach. intros u ((pd1 & d1) & j). apply st_bind; [apply st_pdf|]. intros q. apply st_const.
Qed.
Lemma st_loadedcov n u pts ld j nk : st (fun t => _zGMMUnitLoadedCov t n u pts ld j nk).
Proof.
  unfold _zGMMUnitLoadedCov. apply st_bind; [apply st_const|]. intros (c & i). cbv zeta. 
  set (D := fun t => match mat_div t c nk with Some c => c | None => c end).
  assert (SD : st D). { unfold D, mat_div. apply (st_map (fun o : option (fmat R) => match o with Some c0 => c0 | None => c end)). apply st_if; [apply st_is_tol|apply st_const|apply st_const]. }
  assert (SB : forall cv, st (fun t => o <- zMatInv t cv (uinv u);; d <- zMatDet t cv;; Ok (GU (ucore u) cv (uweight u) match o with Some i0 => i0 | None => uinv u end d))).
  { intros cv. apply st_bind; [apply st_matinv|]. intros o. apply st_bind; [apply st_det|]. intros d. apply st_const. }
  destruct SD as (d & Dp & HD). destruct (SB (D 0)) as (e & Ep & HE). exists (Rmin d e). split; [now apply Rmin_pos|]. intros t (T1 & T2). pose proof (Rmin_l d e). pose proof (Rmin_r d e).
  change (match mat_div t c nk with Some c0 => c0 | None => c end) with (D t). change (match mat_div 0 c nk with Some c0 => c0 | None => c end) with (D 0). rewrite (HD t) by lra. apply HE. lra.
Qed.
Lemma st_max n us pts ld nk : st (fun t => _zGMMCreateEMMaximize t n us pts ld nk).
Proof.
  unfold _zGMMCreateEMMaximize. apply st_bind; [|intros (a & b); apply st_const]. apply st_foreach. intros u s. cbv zeta. apply st_bind; [apply st_const|]. intros k. apply st_bind.
  - unfold loaded_mean. apply st_bind; [apply st_const|]. intros (m & i). apply st_div.
  - intros core. apply st_bind; [apply st_loadedcov|]. intros. apply st_const.
Qed.
Lemma st_em n pts iter : forall g pdf ld dt nk, st (fun t => em_loop t ltol fexp flog pi2 iter n g pts pdf ld dt nk).
Proof.
  induction iter as [|iter IH]; intros g pdf ld dt nk; cbn [em_loop]; [apply st_const|]. apply st_bind; [apply st_expect|]. intros (((pdf' & ld') & dt') & nk'). destruct (_zGMMLogLikelihood ltol flog g dt') as ([|] & g'); [apply st_const|].
  apply st_bind; [apply st_max|]. intros us. apply IH.
Qed.
Lemma st_create pt rndi rndf kiter iter n g points r : st (fun t => zGMMCreateEM t t ltol fexp flog pi2 pt rndi rndf kiter iter n g points r).
Proof.
  unfold zGMMCreateEM. cbv zeta. destruct (_ || _)%bool; [apply st_const|]. apply st_bind; [apply st_kmeans|]. intros o. apply st_bind; [apply st_estimates|]. intros us. apply (st_map (rmap Some) (fun t => em_loop t ltol fexp flog pi2 iter n _ _ _ _ _ _)). apply st_em.
Qed.
End P.
