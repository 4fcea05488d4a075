(** C124: the eigenvectors of the bisection method. *)
From Coq Require Import Reals Lra Lia List QArith.
From Verif Require Import Prelude Prelude_Proofs Scalar RealLib Fmat BisV_Model.
Import ListNotations.
Local Open Scope R_scope.

(** [w] is an eigenvector of the matrix [A] of size [n] for [l] *)
Definition eigenpair (n : nat) (A : nat -> nat -> R) (l : R) (w : nat -> R) : Prop :=
  (exists i, (i < n)%nat /\ w i <> 0) /\ forall i, (i < n)%nat -> rsum n (fun j => A i j * w j) = l * w i.
Definition square (n : nat) (m : fmat R) : Prop := nr m = n /\ nc m = n.
Definition unitm (i j : nat) : R := if (i =? j)%nat then 1 else 0.
Definition product (n : nat) (A B : nat -> nat -> R) (i j : nat) : R := rsum n (fun k => A i k * B k j).
(** what is asked of zMatInv: an inverse, when it gives one *)
Definition inverts (n : nat) (inv : fmat R -> option (fmat R)) : Prop := forall a b, square n a -> inv a = Some b ->
  square n b /\ forall i j, (i < n)%nat -> (j < n)%nat -> product n (el a) (el b) i j = unitm i j /\ product n (el b) (el a) i j = unitm i j.
(** what is asked of the power method: an eigenvector for an eigenvalue of the largest absolute value *)
Definition dominates (n : nat) (inv : fmat R -> option (fmat R)) (power : fmat R -> fvec R -> fvec R) (start : nat -> fvec R) : Prop :=
  forall a b i, square n a -> inv a = Some b -> (i < n)%nat ->
    vlen (power b (start i)) = n /\ exists mu, eigenpair n (el b) mu (vel (power b (start i))) /\
      forall nu w, eigenpair n (el b) nu w -> Rabs nu <= Rabs mu.

Lemma unit_row n i (w : nat -> R) : (i < n)%nat -> rsum n (fun j => unitm i j * w j) = w i.
Proof.
  intros H. rewrite (rsum_delta n i (fun j => unitm i j * w j) H); unfold unitm.
  - rewrite Nat.eqb_refl. lra.
  - intros j Hj N. destruct (Nat.eqb_spec i j); [congruence|lra].
Qed.
Lemma mulmul n A B (w : nat -> R) i : rsum n (fun k => A i k * rsum n (fun j => B k j * w j)) = rsum n (fun j => product n A B i j * w j).
Proof.
  unfold product. rewrite (rsum_ext n (fun k => A i k * rsum n (fun j => B k j * w j)) (fun k => rsum n (fun j => A i k * B k j * w j))).
  2:{ intros k _. rewrite <- rsum_scal. apply rsum_ext. intros; ring. }
  rewrite rsum_swap. apply rsum_ext. intros j _. now rewrite <- rsum_scal_r.
Qed.
Lemma shift_row n m k i (w : nat -> R) : (i < n)%nat ->
  rsum n (fun j => el (zMatShift m k) i j * w j) = rsum n (fun j => el m i j * w j) + k * w i.
Proof.
  intros H. rewrite <- (unit_row n i w H). rewrite <- rsum_scal, <- rsum_add. apply rsum_ext. intros j _.
  unfold zMatShift, unitm. cbn [el]. destruct (i =? j)%nat; rs; ring.
Qed.
(** B inverse of M - s: eigenpairs correspond *)
Lemma pair_back n m s b w mu : square n m -> square n b ->
  (forall i j, (i < n)%nat -> (j < n)%nat -> product n (el (zMatShift m (- s))) (el b) i j = unitm i j) ->
  eigenpair n (el b) mu w -> mu <> 0 /\ eigenpair n (el m) (s + / mu) w.
Proof.
  intros _ _ P [N E].
  assert (forall i, (i < n)%nat -> w i = mu * (rsum n (fun j => el m i j * w j) - s * w i)) as K.
  { intros i Hi. rewrite <- (unit_row n i w Hi) at 1.
    rewrite (rsum_ext n _ (fun j => product n (el (zMatShift m (- s))) (el b) i j * w j)) by (intros; rewrite P; auto).
    rewrite <- mulmul. rewrite (rsum_ext n _ (fun k => mu * (el (zMatShift m (- s)) i k * w k))) by (intros; rewrite E by auto; ring).
    rewrite rsum_scal, shift_row by auto. ring. }
  assert (mu <> 0) as Nm. { intros ->. destruct N as (i & Hi & Nw). apply Nw. rewrite K by auto. ring. }
  split; auto. split; auto. intros i Hi. specialize (K i Hi). rewrite Rmult_plus_distr_r. set (q := rsum n _) in *.
  assert (/ mu * w i = q - s * w i); [|lra]. rewrite K at 1. field. auto.
Qed.
Lemma pair_forth n m s b w l : square n m -> square n b ->
  (forall i j, (i < n)%nat -> (j < n)%nat -> product n (el b) (el (zMatShift m (- s))) i j = unitm i j) ->
  eigenpair n (el m) l w -> l <> s /\ eigenpair n (el b) (/ (l - s)) w.
Proof.
  intros _ _ P [N E].
  assert (forall i, (i < n)%nat -> w i = (l - s) * rsum n (fun j => el b i j * w j)) as K.
  { intros i Hi. rewrite <- (unit_row n i w Hi) at 1.
    rewrite (rsum_ext n _ (fun j => product n (el b) (el (zMatShift m (- s))) i j * w j)) by (intros; rewrite P; auto).
    rewrite <- mulmul. rewrite (rsum_ext n _ (fun k => (l - s) * (el b i k * w k))).
    - now rewrite rsum_scal.
    - intros k Hk. rewrite shift_row, E by auto. ring. }
  assert (l <> s) as Nm. { intros ->. destruct N as (i & Hi & Nw). apply Nw. rewrite K by auto. ring. }
  split; auto. split; auto. intros i Hi. rewrite (K i Hi) at 1. field. lra.
Qed.

Lemma shift_shift n m a b i j : square n m -> el (zMatShift (zMatShift m a) b) i j = el (zMatShift m (a + b)) i j.
Proof. intros _. unfold zMatShift. cbn [el]. destruct (i =? j)%nat; rs; ring. Qed.
(** the loop ends with the inverse of m - s for an s further up than where it started *)
Lemma inv_loop_spec n inv : inverts n inv -> forall fuel m k shift b shift', square n m -> 0 < shift ->
  inv_loop inv fuel (zMatShift m k) shift = Some (b, shift') ->
  exists s, - k <= s /\ shift <= shift' /\ (exists a, square n a /\ inv a = Some b) /\ square n b /\
    forall i j, (i < n)%nat -> (j < n)%nat -> product n (el (zMatShift m (- s))) (el b) i j = unitm i j /\ product n (el b) (el (zMatShift m (- s))) i j = unitm i j.
Proof.
  intros Hinv fuel m.
  assert (forall ms k shift b shift', square n ms -> 0 < shift -> (forall i j, el ms i j = el (zMatShift m k) i j) ->
    inv_loop inv fuel ms shift = Some (b, shift') -> exists s, - k <= s /\ shift <= shift' /\ (exists a, square n a /\ inv a = Some b) /\ square n b /\
    forall i j, (i < n)%nat -> (j < n)%nat -> product n (el (zMatShift m (- s))) (el b) i j = unitm i j /\ product n (el b) (el (zMatShift m (- s))) i j = unitm i j) as G.
  { induction fuel as [|fuel IH]; intros ms k shift b shift' Sq Hs EQ; cbn [inv_loop]; destruct (inv ms) as [b'|] eqn:E; try discriminate.
    1,2: intros [= <- <-]; exists (- k); split; [lra|]; split; [lra|]; split; [eauto|]; destruct (Hinv ms b' Sq E) as [Sb P]; split; auto;
      intros i j Hi Hj; destruct (P i j Hi Hj) as [P1 P2]; rewrite Ropp_involutive;
      split; [etransitivity; [|exact P1]|etransitivity; [|exact P2]]; unfold product; apply rsum_ext; intros q _; now rewrite EQ.
    cbv zeta. rs. intros HE. apply (IH _ (k - shift * 10)) in HE.
    - destruct HE as (s & A1 & A2 & R1). exists s. split; [lra|]. split; [lra|]. exact R1.
    - split; apply Sq.
    - lra.
    - intros i j. unfold zMatShift in *. cbn [el] in *. destruct (i =? j)%nat eqn:Q; rewrite EQ, Q; rs; ring. }
  intros k shift b shift' Sq Hs. apply G; auto; split; apply Sq.
Qed.

(** Whenever the method ends: column i is an eigenvector of the matrix, for the eigenvalue nearest to a
    number s not below the i-th eigenvalue plus ten times the tolerance. *)
Theorem C124_nearest_partial ztol inv power start n fuel m eigval eigbase base : 0 < ztol -> square n m -> square n eigbase -> vlen eigval = n ->
  inverts n inv -> dominates n inv power start ->
  bisec_vectors ztol inv power start fuel m eigval eigbase = Ok (Some base) ->
  square n base /\ forall i, (i < n)%nat -> exists s e, vel eigval i + 10 * ztol <= s /\
    eigenpair n (el m) e (fun r => el base r i) /\ e <> s /\
    forall e' w, eigenpair n (el m) e' w -> Rabs (e - s) <= Rabs (e' - s).
Proof.
  intros Hz Sm Sb Lv Hinv Hdom. unfold bisec_vectors. rs. rewrite Lv.
  set (P := fun (k : nat) (st : option (R * fmat R)) => match st with None => True | Some (shift, base) =>
    ztol * 10 <= shift /\ square n base /\ forall i, (i < k)%nat -> exists s e, vel eigval i + 10 * ztol <= s /\
      eigenpair n (el m) e (fun r => el base r i) /\ e <> s /\ forall e' w, eigenpair n (el m) e' w -> Rabs (e - s) <= Rabs (e' - s) end).
  match goal with |- context [for_ 0 n ?f ?x] => destruct (for_inv P 0 n f x) as (st & E & H) end.
  - lia.
  - cbn. split; [lra|]. split; auto. intros; lia.
  - intros k [[shift bs]|] Hk H; [|exists None; split; [reflexivity|exact I]]. destruct H as (H1 & H2 & H3).
    unfold vget. rewrite Lv. replace (k <? n)%nat with true by (symmetry; apply Nat.ltb_lt; lia). cbn [bind].
    match goal with |- context [inv_loop inv fuel ?z shift] => destruct (inv_loop inv fuel z shift) as [[b shift']|] eqn:EL end;
      [|exists None; split; [reflexivity|exact I]].
    eexists. split; [reflexivity|]. cbn [P].
    destruct (inv_loop_spec n inv Hinv fuel m _ shift b shift' Sm ltac:(lra) EL) as (s & A1 & A2 & (a & Sa & Ea) & Sqb & Pr).
    destruct (Hdom a b k Sa Ea) as (Lp & mu & Ep & Dm); [lia|]. set (v := power b (start k)) in *.
    assert (zMatPutCol bs k v = FM (nr bs) (nc bs) (fun r c => if (c =? k)%nat then vel v r else el bs r c)) as EP.
    { unfold zMatPutCol. destruct H2 as [-> ->]. rewrite Lp, Nat.eqb_refl. now replace (k <? n)%nat with true by (symmetry; apply Nat.ltb_lt; lia). }
    rewrite EP. split; [lra|]. split; [exact H2|]. intros i Hi. cbn [el]. destruct (Nat.eqb_spec i k) as [->|Nk]; [|apply H3; lia].
    destruct (pair_back n m s b (vel v) mu Sm Sqb (fun i j Hi Hj => proj1 (Pr i j Hi Hj)) Ep) as [Nmu Em].
    pose proof (Rinv_neq_0_compat mu Nmu) as Ni.
    exists s, (s + / mu). split; [lra|]. split; [exact Em|]. split; [lra|]. intros e' w Ew.
    destruct (pair_forth n m s b w e' Sm Sqb (fun i j Hi Hj => proj2 (Pr i j Hi Hj)) Ew) as [Ne Eb].
    apply Dm in Eb. replace (s + / mu - s) with (/ mu) by ring. assert (e' - s <> 0) as Ne' by lra.
    rewrite Rabs_Rinv in Eb |- * by auto. pose proof (Rabs_pos_lt _ Ne'). pose proof (Rabs_pos_lt _ Nmu).
    rewrite <- (Rinv_inv (Rabs (e' - s))). apply Rinv_le_contravar; auto. now apply Rinv_0_lt_compat.
  - rewrite E. cbn [bind]. intros [= HB]. destruct st as [[shift bs]|]; [|discriminate]. injection HB as <-. cbn [P] in H. tauto.
Qed.

(** If the inverse exists at the first attempt for every eigenvalue and the eigenvalues are further apart than
    twenty times the tolerance, column i belongs to the i-th eigenvalue. *)
Theorem C124_own_partial ztol inv power start n fuel m eigval eigbase : 0 < ztol -> square n m -> square n eigbase -> vlen eigval = n ->
  inverts n inv -> dominates n inv power start ->
  (forall i, (i < n)%nat -> exists w, eigenpair n (el m) (vel eigval i) w) ->
  (forall i e w, (i < n)%nat -> eigenpair n (el m) e w -> e <> vel eigval i -> 20 * ztol < Rabs (e - vel eigval i)) ->
  (forall i, (i < n)%nat -> exists b, inv (zMatShift m (- vel eigval i - ztol * 10)) = Some b) ->
  exists base, bisec_vectors ztol inv power start fuel m eigval eigbase = Ok (Some base) /\ square n base /\
    forall i, (i < n)%nat -> eigenpair n (el m) (vel eigval i) (fun r => el base r i).
Proof.
  intros Hz Sm Sb Lv Hinv Hdom Hev Hgap Hfst. unfold bisec_vectors. rs. rewrite Lv.
  set (P := fun (k : nat) (st : option (R * fmat R)) => match st with None => False | Some (shift, base) =>
    shift = ztol * 10 /\ square n base /\ forall i, (i < k)%nat -> eigenpair n (el m) (vel eigval i) (fun r => el base r i) end).
  match goal with |- context [for_ 0 n ?f ?x] => destruct (for_inv P 0 n f x) as (st & E & H) end.
  - lia.
  - cbn. split; [reflexivity|]. split; auto. intros; lia.
  - intros k [[shift bs]|] Hk H; [|contradiction]. destruct H as (-> & H2 & H3).
    unfold vget. rewrite Lv. replace (k <? n)%nat with true by (symmetry; apply Nat.ltb_lt; lia). cbn [bind].
    destruct (Hfst k) as [b Eb]; [lia|].
    assert (inv_loop inv fuel (zMatShift m (- vel eigval k - ztol * 10)) (ztol * 10) = Some (b, ztol * 10)) as EL by (destruct fuel; cbn [inv_loop]; now rewrite Eb).
    rewrite EL. eexists. split; [reflexivity|]. cbn [P].
    assert (square n (zMatShift m (- vel eigval k - ztol * 10))) as Sq by (split; apply Sm).
    destruct (Hinv _ b Sq Eb) as [Sqb Pr]. destruct (Hdom _ b k Sq Eb) as (Lp & mu & Ep & Dm); [lia|]. set (v := power b (start k)) in *.
    assert (zMatPutCol bs k v = FM (nr bs) (nc bs) (fun r c => if (c =? k)%nat then vel v r else el bs r c)) as EP.
    { unfold zMatPutCol. destruct H2 as [-> ->]. rewrite Lp, Nat.eqb_refl. now replace (k <? n)%nat with true by (symmetry; apply Nat.ltb_lt; lia). }
    rewrite EP. split; [reflexivity|]. split; [exact H2|]. intros i Hi. cbn [el]. destruct (Nat.eqb_spec i k) as [->|Nk]; [|apply H3; lia].
    set (s := vel eigval k + ztol * 10). replace (- vel eigval k - ztol * 10) with (- s) in * by (unfold s; ring).
    destruct (pair_back n m s b (vel v) mu Sm Sqb (fun i j Hi Hj => proj1 (Pr i j Hi Hj)) Ep) as [Nmu Em].
    destruct (Hev k) as [w Ew]; [lia|].
    destruct (pair_forth n m s b w _ Sm Sqb (fun i j Hi Hj => proj2 (Pr i j Hi Hj)) Ew) as [Ne Eb'].
    apply Dm in Eb'. replace (vel eigval k - s) with (- (ztol * 10)) in Eb' by (unfold s; ring).
    rewrite Rabs_Rinv, Rabs_Ropp, (Rabs_right (ztol * 10)) in Eb' by lra.
    assert (Rabs (/ mu) <= ztol * 10) as B.
    { rewrite Rabs_Rinv by auto. rewrite <- (Rinv_inv (ztol * 10)). apply Rinv_le_contravar; auto. apply Rinv_0_lt_compat. lra. }
    destruct (Req_dec (s + / mu) (vel eigval k)) as [Q|Q]; [now rewrite <- Q|]. exfalso.
    pose proof (Hgap k _ _ ltac:(lia) Em Q) as G. revert B G. unfold s, Rabs. destruct (Rcase_abs _), (Rcase_abs _); lra.
  - rewrite E. destruct st as [[shift bs]|]; [|contradiction]. exists bs. destruct H as (_ & H1 & H2). auto.
Qed.

(** The shift grows until the inverse exists and then serves the wrong eigenvalue: diag(0, 10 tol, 110 tol).  The
    inverse and the power method are those of diagonal matrices. *)
Definition dinv (t : Q) (a : fmat Q) : option (fmat Q) :=
  if forallb (fun i => negb (Qle_bool (el a i i) t && Qle_bool (- t) (el a i i))) (List.seq 0 (nr a))
  then Some (FM (nr a) (nc a) (fun i j => if (i =? j)%nat then Qred (1 / el a i i)%Q else 0%Q)) else None.
Definition qabs (x : Q) : Q := if Qle_bool 0 x then x else (- x)%Q.
Definition dpower (b : fmat Q) (v : fvec Q) : fvec Q :=
  let k := fold_left (fun k i => if Qle_bool (qabs (el b i i)) (qabs (el b k k)) then k else i) (List.seq 0 (nr b)) O in
  FV (nr b) (fun i => if (i =? k)%nat then 1%Q else 0%Q).
Definition drift : fmat Q := FM 3 3 (fun i j => if (i =? j)%nat then nth i [0; 10#1000; 110#1000]%Q 0%Q else 0%Q).
Theorem C124_drift_refuted :
  match bisec_vectors (1#1000)%Q (dinv (1#1000)) dpower (fun _ => FV 3 (fun _ => 1%Q)) 5 drift
     (vec_of 0%Q [0; 10#1000; 110#1000]%Q) (FM 3 3 (fun _ _ => 0%Q)) with
  | Ok (Some base) => to_lists base = [[0;0;0];[0;0;0];[1;1;1]]%Q
  | _ => False end.
Proof. vm_compute. reflexivity. Qed.

(** ** a case that meets the hypotheses: diag(0, 1), tolerance 1/1000, the inverse and the power method of diagonal matrices *)
Definition diag2 (x y : R) : fmat R := FM 2 2 (fun i j => if (i =? j)%nat then (if (i =? 0)%nat then x else y) else 0).
Definition inv2 (a : fmat R) : option (fmat R) :=
  if (Reqb (el a 0 1) 0 && Reqb (el a 1 0) 0 && negb (Reqb (el a 0 0) 0) && negb (Reqb (el a 1 1) 0))%bool
  then Some (diag2 (/ el a 0 0) (/ el a 1 1)) else None.
Definition pow2 (b : fmat R) (v : fvec R) : fvec R :=
  let k := if Rleb (Rabs (el b 1 1)) (Rabs (el b 0 0)) then O else 1%nat in FV 2 (fun i => if (i =? k)%nat then 1 else 0).
Lemma diag2_eigen x y l w : eigenpair 2 (el (diag2 x y)) l w -> l = x \/ l = y.
Proof.
  intros [(i & Hi & N) E]. assert (i = O \/ i = 1%nat) as [-> | ->] by lia.
  - left. specialize (E O ltac:(lia)). cbn in E. apply (Rmult_eq_reg_r (w O)); auto. lra.
  - right. specialize (E 1%nat ltac:(lia)). cbn in E. apply (Rmult_eq_reg_r (w 1%nat)); auto. lra.
Qed.
Lemma diag2_pair x y (k : nat) : (k < 2)%nat -> eigenpair 2 (el (diag2 x y)) (if (k =? 0)%nat then x else y) (fun i => if (i =? k)%nat then 1 else 0).
Proof.
  intros Hk. assert (k = O \/ k = 1%nat) as [-> | ->] by lia; (split; [|intros i Hi; assert (i = O \/ i = 1%nat) as [-> | ->] by lia; cbn; ring]).
  - exists O. cbn. split; [lia|lra].
  - exists 1%nat. cbn. split; [lia|lra].
Qed.
Example C124_case : inverts 2 inv2 /\ dominates 2 inv2 pow2 (fun _ => FV 2 (fun _ => 1)) /\
  (forall i, (i < 2)%nat -> exists w, eigenpair 2 (el (diag2 0 1)) (vel (FV 2 INR) i) w) /\
  (forall i e w, (i < 2)%nat -> eigenpair 2 (el (diag2 0 1)) e w -> e <> vel (FV 2 INR) i -> 20 * / 1000 < Rabs (e - vel (FV 2 INR) i)) /\
  (forall i, (i < 2)%nat -> exists b, inv2 (zMatShift (diag2 0 1) (- vel (FV 2 INR) i - / 1000 * 10)) = Some b).
Proof.
  split; [|split; [|split; [|split]]].
  - intros a b Sa. unfold inv2. destruct (Reqb_spec (el a 0 1) 0) as [E1|], (Reqb_spec (el a 1 0) 0) as [E2|], (Reqb_spec (el a 0 0) 0), (Reqb_spec (el a 1 1) 0); try discriminate.
    intros [= <-]. split; [split; reflexivity|]. intros i j Hi Hj.
    assert (i = O \/ i = 1%nat) as [-> | ->] by lia; assert (j = O \/ j = 1%nat) as [-> | ->] by lia; unfold product, unitm; cbn; rewrite ?E1, ?E2; split; field; auto.
  - intros a b i Sa Ea Hi. split; [reflexivity|].
    assert (exists x y, b = diag2 x y) as (x & y & ->). { revert Ea. unfold inv2. destruct (_ && _)%bool; [|discriminate]. intros [= <-]. eauto. }
    unfold pow2. set (k := if Rleb _ _ then O else 1%nat). assert (k < 2)%nat as Hk by (unfold k; destruct (Rleb _ _); lia).
    exists (if (k =? 0)%nat then x else y). split; [exact (diag2_pair x y k Hk)|]. intros nu w H. apply diag2_eigen in H. unfold k.
    change (el (diag2 x y) 1 1) with y. change (el (diag2 x y) 0 0) with x. destruct (Rleb_spec (Rabs y) (Rabs x)); cbn; destruct H; subst; lra.
  - intros i Hi. exists (fun j => if (j =? i)%nat then 1 else 0). assert (i = O \/ i = 1%nat) as [-> | ->] by lia; [exact (diag2_pair 0 1 0 Hi)|exact (diag2_pair 0 1 1 Hi)].
  - intros i e w Hi H N. apply diag2_eigen in H. assert (i = O \/ i = 1%nat) as [-> | ->] by lia; cbn in *; unfold Rabs; destruct (Rcase_abs _); lra.
  - intros i Hi. unfold inv2, zMatShift. assert (i = O \/ i = 1%nat) as [-> | ->] by lia; cbn; rs;
      repeat (match goal with |- context [Reqb ?a ?b] => destruct (Reqb_spec a b); try lra end; cbn); eauto.
Qed.

Print Assumptions C124_nearest_partial.
Print Assumptions C124_own_partial.
Print Assumptions C124_drift_refuted.
