(** C57: clustering by k-means, in exact arithmetic where the real numbers are named. *)
From Coq Require Import Reals Lra Lia Psatz List Permutation Floats.
From Verif Require Import Prelude Scalar RealLib Fmat Fmat_Proofs IP_Model Stat_Model Cluster_Model Cluster_Spec.
From Verif Require Import Cluster_Proofs Cluster2_Proofs Cluster3_Proofs Cluster4_Proofs.
Import ListNotations.
Local Open Scope R_scope.

(** ** one pass, for any method: [errsq p c] is the square of the error of a point to a core and does not fail *)
Theorem C57_reassign errsq (pt : nat -> fvec R) (d : nat -> fvec R -> R) cs : cs <> [] ->
  (forall p c, In p (concat (map sam cs)) -> In c (map core cs) -> errsq (pt p) c = Ok (d p c)) ->
  exists cs' moved, reassign errsq pt cs = Ok (cs', moved) /\ map core cs' = map core cs /\ partition_of (concat (map sam cs)) cs' /\
    nearest_all d cs' /\ (moved = false -> cs' = cs).
Proof. apply reassign_spec. Qed.

(** ** the rounds with the default method *)
Theorem C57_recluster tol m (pt : nat -> fvec R) maxiter cs : 0 <= tol < 1 -> cs <> [] ->
  (forall p, In p (concat (map sam cs)) -> vlen (pt p) = m) -> (forall c, In c cs -> vlen (core c) = m) ->
  let d p c := sqd m (pt p) c in
  exists cs' n, _zVecMultiClusterKMeansRecluster (default_errsq m) (default_core tol) pt maxiter cs = Ok (cs', n) /\ (n <= maxiter)%nat /\
    length cs' = length cs /\ partition_of (concat (map sam cs)) cs' /\
    ((0 < maxiter)%nat -> nearest_all d cs' /\
      forall cs0, map sam cs0 = map sam cs -> (forall c, In c cs0 -> vlen (core c) = m) -> cost d cs' <= cost d cs0) /\
    ((n < maxiter)%nat -> forall c, In c cs' -> is_mean m pt c).
Proof.
  intros HT NE P C d. destruct (recluster_spec tol HT m pt (concat (map sam cs)) P maxiter cs NE) as (cs' & n & A1 & A2 & A3 & A4 & A5 & A6 & A7).
  - split; auto.
  - exists cs', n. auto 10.
Qed.

(** ** the whole, from distinct points *)
Theorem C57_kkz_partial tol m pt points maxiter k : 0 <= tol < 1 -> distinct_points m pt points -> (0 < k <= length points)%nat -> (2 <= length points)%nat ->
  exists cs n, zVecMultiClusterKMeansKKZ tol (default_errsq m) default_dist (default_core tol) pt maxiter m points k = Ok (Some (cs, n)) /\
    (n <= maxiter)%nat /\ length cs = k /\ partition_of points cs /\
    ((0 < maxiter)%nat -> nearest_all (fun p c => sqd m (pt p) c) cs) /\ ((n < maxiter)%nat -> forall c, In c cs -> is_mean m pt c).
Proof.
  intros HT HP Hk H2. destruct (kkz_spec tol HT m pt points HP maxiter k Hk H2) as (cs & n & E & A1 & A2 & A3 & A4 & A5 & A6). exists cs, n. auto 10.
Qed.
Theorem C57_kmeanspp_partial tol m pt points rndi rndf maxiter k r : 0 <= tol < 1 -> distinct_points m pt points -> (0 < k <= length points)%nat ->
  (forall p q, In p points -> In q points -> p <> q -> tol < sqd m (pt p) (pt q)) ->
  (forall r n, (0 < n)%nat -> (rndi r n < n)%nat) -> (forall r, 0 < rndf r <= 1) ->
  exists cs n, zVecMultiClusterKMeans tol (default_errsq m) default_dist (default_core tol) pt rndi rndf maxiter m points k r = Ok (Some (cs, n, (r + k)%nat)) /\
    (n <= maxiter)%nat /\ length cs = k /\ partition_of points cs /\
    ((0 < maxiter)%nat -> nearest_all (fun p c => sqd m (pt p) c) cs) /\ ((n < maxiter)%nat -> forall c, In c cs -> is_mean m pt c).
Proof.
  intros HT HP Hk TP RI RF. destruct (pp_spec tol HT m pt points HP rndi rndf maxiter k r RI RF TP Hk) as (cs & n & E & A1 & A2 & A3 & A4 & A5 & A6). exists cs, n. auto 10.
Qed.
Theorem C57_kmedoids_partial tol m pt points rndi rndf maxiter k r : 0 <= tol < 1 -> distinct_points m pt points -> (0 < k <= length points)%nat ->
  (forall p q, In p points -> In q points -> p <> q -> tol < sqd m (pt p) (pt q)) ->
  (forall r n, (0 < n)%nat -> (rndi r n < n)%nat) -> (forall r, 0 < rndf r <= 1) ->
  exists cs n, zVecMultiClusterKMedoids tol (default_errsq m) default_dist pt rndi rndf maxiter points k r = Ok (Some (cs, n, (r + k)%nat)) /\
    (n <= maxiter)%nat /\ length cs = k /\ partition_of points cs /\ (forall c, In c cs -> sam c <> []) /\
    ((0 < maxiter)%nat -> nearest_all (fun p c => sqd m (pt p) c) cs) /\ ((n < maxiter)%nat -> forall c, In c cs -> is_medoid m pt c).
Proof.
  intros HT HP Hk TP RI RF. destruct (medoids_spec tol HT m pt points HP rndi rndf maxiter k r RI RF TP Hk) as (cs & n & E & A1 & A2 & A3 & A4 & A5 & A6). exists cs, n.
  conjs; auto. intros X. now apply A5.
Qed.
(** the first clusters: a partition, each point in the cluster of a nearest first core *)
Theorem C57_first_clusters m pt points seeds : distinct_points m pt points -> NoDup seeds -> seeds <> [] -> (forall q, In q seeds -> In q points) ->
  exists cs, _zVecMultiClusterKMeansInitCluster default_dist pt points (map (fun p => [p]) seeds) = Ok cs /\ length cs = length seeds /\
    Permutation (concat cs) points /\
    forall j c q, nth_error cs j = Some c -> In q c -> forall s s', nth_error seeds j = Some s -> In s' seeds -> sqd m (pt q) (pt s) <= sqd m (pt q) (pt s').
Proof.
  intros HP NS SN SP. destruct (init_ok default_dist pt points (fun p q => sqrt (sqd m (pt p) (pt q))) (HEm m pt points HP) seeds SP SN (proj1 HP) NS) as (cs & E & (L & _) & P & M).
  exists cs. conjs; auto. intros j c q Ec Iq s s' Es Is'.
  assert (Hj : (j < length seeds)%nat) by (apply nth_error_Some; congruence).
  pose proof (nth_error_nth _ _ [] Ec) as Nc. pose proof (nth_error_nth _ _ O Es) as Ns. destruct (M j q Hj) as [X|X].
  - now rewrite Nc.
  - rewrite X, Ns, sqd_refl. apply sqd_nonneg.
  - apply (In_nth _ _ O) in Is'. destruct Is' as (j' & Hj' & <-). specialize (X j' Hj'). rewrite Ns in X. apply sqrt_le_0; auto using sqd_nonneg.
Qed.

(** ** where it fails *)
(** KKZ takes the point farthest from the mean; when all points coincide, as when there is only one, there is none and
    a null pointer is dereferenced *)
Theorem C57_kkz_refuted tol m pt points k maxiter : 0 <= tol < 1 -> (0 < k)%nat -> points <> [] -> (forall p, In p points -> vlen (pt p) = m) ->
  (forall p q, In p points -> In q points -> sqd m (pt p) (pt q) = 0) ->
  zVecMultiClusterKMeansKKZ tol (default_errsq m) default_dist (default_core tol) pt maxiter m points k = UB.
Proof. apply kkz_coincident. Qed.

(** floating-point runs: four points on a line *)
Definition f1 (x : float) : fvec float := FV 1 (fun _ => x).
Definition fpt (p : nat) : fvec float := f1 (nth p [0; 1; 5; 7]%float 0%float).
Definition ftol : float := 0.125%float.
Definition samples_of_run (r : res (option (list (@cluster float) * nat * nat))) : option (list (list nat)) :=
  match r with Ok (Some (cs, _, _)) => Some (map sam cs) | _ => None end.
(** zRandF(0,1) may be 0: then the first point of the list is taken again, and it is in two clusters *)
Theorem C57_kmeanspp_refuted :
  samples_of_run (zVecMultiClusterKMeans ftol (default_errsq 1) default_dist (default_core ftol) fpt (fun _ _ => O) (fun _ => 0%float) 0 1 [0;1;2;3]%nat 2 0) = Some [[0;1;2;3]; [0]]%nat.
Proof. vm_compute. reflexivity. Qed.
(** with more clusters than different points the roulette may end without a point *)
Theorem C57_roulette_refuted :
  zVecMultiClusterKMeans ftol (default_errsq 1) default_dist (default_core ftol) (fun _ => f1 1%float) (fun _ _ => O) (fun _ => 0.5%float) 100 1 [0;1]%nat 2 0 = UB.
Proof. vm_compute. reflexivity. Qed.

(** ** the hypotheses are met, and what the answers are *)
Example C57_ex_run :
  samples_of_run (zVecMultiClusterKMeans ftol (default_errsq 1) default_dist (default_core ftol) fpt (fun _ _ => O) (fun _ => 0.5%float) 100 1 [0;1;2;3]%nat 2 0) = Some [[0;1]; [3;2]]%nat.
Proof. vm_compute. reflexivity. Qed.
Example C57_ex_moves : (* from clusters that are not those of the nearest cores *)
  match _zVecMultiClusterKMeansRecluster (default_errsq 1) (default_core ftol) fpt 100 [Cl [0;2]%nat (f1 0%float) 0%float; Cl [1;3]%nat (f1 0%float) 0%float] with
  | Ok (cs, n) => Some (map sam cs, n) | UB => None end = Some ([[0; 1]; [3; 2]]%nat, 1%nat).
Proof. vm_compute. reflexivity. Qed.
Example C57_ex_kkz :
  match zVecMultiClusterKMeansKKZ ftol (default_errsq 1) default_dist (default_core ftol) fpt 100 1 [0;1;2;3]%nat 2 with
  | Ok (Some (cs, n)) => Some (map sam cs, n) | _ => None end = Some ([[3; 2]; [0; 1]]%nat, 0%nat).
Proof. vm_compute. reflexivity. Qed.
Example C57_ex_medoids :
  samples_of_run (zVecMultiClusterKMedoids ftol (default_errsq 1) default_dist fpt (fun _ _ => O) (fun _ => 0.5%float) 100 [0;1;2;3]%nat 2 0) = Some [[0;1]; [3;2]]%nat.
Proof. vm_compute. reflexivity. Qed.
Definition rpt (p : nat) : fvec R := FV 1 (fun _ => INR p).
Example C57_ex_distinct : distinct_points 1 rpt [0; 1; 2; 5]%nat /\ forall p q, p <> q -> 1/2 < sqd 1 (rpt p) (rpt q).
Proof.
  assert (H : forall p q, p <> q -> 1/2 < sqd 1 (rpt p) (rpt q)).
  { intros p q N. unfold sqd. cbn. assert (p < q \/ q < p)%nat as [X|X] by lia; apply le_INR in X; rewrite S_INR in X; nra. }
  split; auto. split; [|split]; auto.
  - repeat constructor; cbn; intuition discriminate.
  - intros p q _ _ N. specialize (H p q N). lra.
Qed.
Print Assumptions C57_reassign.
Print Assumptions C57_recluster.
Print Assumptions C57_kkz_partial.
Print Assumptions C57_kmeanspp_partial.
Print Assumptions C57_kmedoids_partial.
Print Assumptions C57_first_clusters.
Print Assumptions C57_kkz_refuted.
Print Assumptions C57_kmeanspp_refuted.
Print Assumptions C57_roulette_refuted.
