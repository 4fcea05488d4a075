(** C110: zMatToHessenberg gives a Hessenberg matrix orthogonally similar to its argument.
    C111: zMatEigDQR gives the eigenvalues; zMatSymEigBisec those of a symmetric matrix; both stay in their matrices.
    C112: zMatEigPower, zMatEigPowerInv, zMatSingularValueMax/Min and zMatCondNum. *)
From Coq Require Import Reals Lra Lia Psatz List.
From Coq Require Import Floats.PrimFloat.
From Verif Require Import Prelude Prelude_Proofs Scalar RealLib Fmat Fmat_Proofs LE_Model LE_Spec IP_Model Vop Qp_Spec Qp_Proofs
  Eig_Model Eig_Spec Eig4_Proofs Stab_Proofs Mega_Props LE_Props Hess_Model Hess_Spec Hess_Proofs Hess2_Proofs Hess3_Proofs.
From Coquelicot Require Import Complex.
From Verif Require Complex_Model Complex_Proofs.
Import ListNotations.
Local Open Scope R_scope.

(** * C110 *)
Lemma hinv_similar n M c h p : hinv n M c h p -> similar_by n M (el p) (el h).
Proof.
  intros I i j Hi Hj. destruct (hi_orth _ _ _ _ _ I) as [_ O]. rewrite rsum_swap.
  rewrite (rsum_ext n _ (fun l => rsum n (fun q => M i q * (el p q l * el p j l)))).
  - rewrite rsum_swap. rewrite (rsum_ext n _ (fun q => M i q * delta j q)); [now rewrite (delta_sum n j (M i))|].
    intros q Hq. rewrite rsum_scal. f_equal. transitivity (delta q j); [exact (O q j Hq Hj)|]. unfold delta. now rewrite Nat.eqb_sym.
  - intros l Hl. rewrite rsum_scal_r. pose proof (hi_sim _ _ _ _ _ I i l Hi Hl) as Q. unfold mmul in Q. rewrite Q, <- rsum_scal_r. apply rsum_ext. intros; ring.
Qed.
Lemma hinv_back n M c h p : hinv n M c h p -> forall i j, (i < n)%nat -> (j < n)%nat ->
  el h i j = rsum n (fun k => rsum n (fun q => el p k i * M k q * el p q j)).
Proof.
  intros I i j Hi Hj. destruct (hi_orth _ _ _ _ _ I) as [O _].
  transitivity (rsum n (fun l => el h l j * delta i l)); [now rewrite (delta_sum n i (fun l => el h l j))|].
  rewrite (rsum_ext n _ (fun l => rsum n (fun k => el p k i * (el p k l * el h l j)))).
  - rewrite rsum_swap. apply rsum_ext. intros k Hk. rewrite rsum_scal. pose proof (hi_sim _ _ _ _ _ I k j Hk Hj) as Q. unfold mmul in Q. rewrite Q, <- rsum_scal. apply rsum_ext. intros; ring.
  - intros l Hl. rewrite <- (O i l Hi Hl). unfold cdot. rewrite <- rsum_scal. apply rsum_ext. intros; ring.
Qed.
Lemma hinv_symm n M c h p : hinv n M c h p -> symm n M -> symm n (el h).
Proof.
  intros I S i j Hi Hj. rewrite (hinv_back n M c h p I i j), (hinv_back n M c h p I j i) by auto. rewrite rsum_swap.
  apply rsum_ext. intros k Hk. apply rsum_ext. intros q Hq. rewrite (S q k) by auto. ring.
Qed.

(** for every square matrix, once the tolerance is small enough: one pass per column, an orthogonal transformation, a
    Hessenberg matrix, and a tridiagonal one for a symmetric matrix *)
Theorem C110_hessenberg_partial fuel (m : fmat R) h0 p0 : nr m = nc m ->
  (forall h, h0 = Some h -> nr h = nr m /\ nc h = nc m) -> (forall p, p0 = Some p -> nr p = nr m /\ nc p = nc m) ->
  exists d, 0 < d /\ forall tol, 0 <= tol <= d -> exists h p,
    zMatToHessenberg tol (S fuel) m h0 p0 = Hess h (option_map (fun _ => p) p0) /\
    nr h = nr m /\ nc h = nc m /\ nr p = nr m /\ nc p = nc m /\
    orthogonal (nr m) (el p) /\ similar_by (nr m) (el m) (el p) (el h) /\ upper_hessenberg (nr m) (el h) /\
    (symm (nr m) (el m) -> tridiagonal (nr m) (el h)).
Proof.
  intros E H0 P0. apply (small_0 (fun tol => zMatToHessenberg tol (S fuel) m h0 p0) (fun z => exists h p, z = Hess h (option_map (fun _ => p) p0) /\ _)); [apply st_hess|].
  destruct (hess_ok fuel m h0 p0 E H0 P0) as (h & p & A & I). exists h, p. split; [exact A|].
  split; [exact (hi_n _ _ _ _ _ I)|]. split; [rewrite <- E; exact (hi_nc _ _ _ _ _ I)|]. split; [exact (hi_pn _ _ _ _ _ I)|]. split; [rewrite <- E; exact (hi_pc _ _ _ _ _ I)|].
  split; [exact (hi_orth _ _ _ _ _ I)|]. split; [exact (hinv_similar _ _ _ _ _ I)|].
  assert (UH : upper_hessenberg (nr m) (el h)) by (intros i j Hi Hj L; apply (hi_zero _ _ _ _ _ I); lia).
  split; [exact UH|]. intros S i j Hi Hj [L|L]; [now apply UH|]. rewrite (hinv_symm _ _ _ _ _ I S) by auto. now apply UH.
Qed.
(** a 4 x 4 symmetric matrix in binary64: tridiagonal after one pass per column *)
Definition fl4 : fmat PrimFloat.float := mat_of 0%float [[4; 1; -2; 2]; [1; 2; 0; 1]; [-2; 0; 3; -2]; [2; 1; -2; -1]]%float.
Example C110_case : match zMatToHessenberg 1e-12%float 1 fl4 None (Some (zmat 4 4)) with
  | Hess h (Some p) => (is_tol 1e-12 (el h 2 0) && is_tol 1e-12 (el h 3 0) && is_tol 1e-12 (el h 3 1) && is_tol 1e-12 (el h 0 2) && negb (is_tol 1e-12 (el h 1 0)))%float%bool
  | _ => false end = true.
Proof. vm_compute. reflexivity. Qed.

(** whatever the number type: sizes that do not fit are an error, and only they *)
Theorem C110_sizes {T} {ST : Scalar T} (tol : T) fuel (m : fmat T) h0 p0 :
  zMatToHessenberg tol fuel m h0 p0 = HessError <->
  nr m <> nc m \/ (exists h, h0 = Some h /\ (nr h <> nr m \/ nc h <> nc m)) \/ (exists p, p0 = Some p /\ (nr p <> nr m \/ nc p <> nc m)).
Proof.
  unfold zMatToHessenberg. destruct (Nat.eqb_spec (nr m) (nc m)) as [E|E]; cbn [negb]; [|tauto].
  assert (A : forall o : option (fmat T), match o with Some h => negb ((nr m =? nr h) && (nc m =? nc h))%nat | None => false end = true <-> exists h, o = Some h /\ (nr h <> nr m \/ nc h <> nc m)).
  { intros [h|]; [|split; [discriminate|intros (h & Q & _); discriminate]].
    split.
    - intros Q. exists h. split; auto. destruct (Nat.eqb_spec (nr m) (nr h)); [|left; lia]. destruct (Nat.eqb_spec (nc m) (nc h)); [|right; lia]. discriminate.
    - intros (h1 & Q & D). inversion Q; subst h1. destruct (Nat.eqb_spec (nr m) (nr h)); [|reflexivity]. destruct (Nat.eqb_spec (nc m) (nc h)); [|reflexivity]. lia. }
  rewrite <- !A. destruct h0 as [h|].
  - destruct (negb _); [tauto|]. destruct p0 as [p|].
    + destruct (negb _); [tauto|]. destruct (hess_cols _ _ _ _ _ _ _) as [[? ?]|]; split; intros Q; try discriminate; destruct Q as [Q|[Q|Q]]; try discriminate; lia.
    + destruct (hess_cols _ _ _ _ _ _ _) as [[? ?]|]; split; intros Q; try discriminate; destruct Q as [Q|[Q|Q]]; try discriminate; lia.
  - destruct p0 as [p|].
    + destruct (negb _); [tauto|]. destruct (hess_cols _ _ _ _ _ _ _) as [[? ?]|]; split; intros Q; try discriminate; destruct Q as [Q|[Q|Q]]; try discriminate; lia.
    + destruct (hess_cols _ _ _ _ _ _ _) as [[? ?]|]; split; intros Q; try discriminate; destruct Q as [Q|[Q|Q]]; try discriminate; lia.
Qed.

(** refuted: with zTOL = 1e-12 an element of 1e-9 below an otherwise empty column is never removed: its square is
    tiny, so that it is not normalised, and the reflection does not change it *)
Definition stuck : fmat PrimFloat.float := mat_of 0%float [[1; 0; 0]; [0; 1; 0]; [1e-9; 0; 1]]%float.
Definition is_stuck (h : fmat PrimFloat.float) : Prop := nr h = 3%nat /\ forall i j, (i < 3)%nat -> (j < 3)%nat -> el h i j = el stuck i j.
Lemma stuck_step h u : is_stuck h -> let v := house_vec 1e-12%float h 0 1 u in let h' := fst (house h None 1 v) in
  is_stuck h' /\ is_tol 1e-12%float (el h' 2 0) = false.
Proof.
  intros [N H] v h'.
  assert (V : forall i, (1 <= i < 3)%nat -> v i = el stuck i 0).
  { intros i Hi. unfold v, house_vec. rewrite N. cbn [Nat.sub acc_sum Nat.leb]. rewrite !H by lia.
    match goal with |- context [is_tol ?t ?s] => replace (is_tol t s) with true by (vm_compute; reflexivity) end.
    destruct i as [|i]; [lia|]. apply H; lia. }
  assert (E : forall i j, (i < 3)%nat -> (j < 3)%nat -> el h' i j = el stuck i j).
  { clearbody v. intros i j Hi Hj. unfold h', house. rewrite N. unfold ksum. cbn [fst el Nat.sub acc_sum ksum_loop Nat.add].
    destruct i as [|[|[|i]]]; [..|lia]; (destruct j as [|[|[|j]]]; [..|lia]); cbn [Nat.leb Nat.ltb]; rewrite ?(V 1%nat), ?(V 2%nat) by lia; rewrite ?(H 0%nat 0%nat), ?(H 0%nat 1%nat), ?(H 0%nat 2%nat), ?(H 1%nat 0%nat), ?(H 1%nat 1%nat), ?(H 1%nat 2%nat), ?(H 2%nat 0%nat), ?(H 2%nat 1%nat), ?(H 2%nat 2%nat) by lia; vm_compute; reflexivity. }
  split; [split; [exact N|exact E]|]. rewrite E by lia. vm_compute. reflexivity.
Qed.
Lemma stuck_col fuel : forall h u, is_stuck h -> hess_col 1e-12%float fuel 0 h None u = None.
Proof.
  induction fuel as [|fuel IH]; intros h u I; [reflexivity|]. cbn [hess_col].
  destruct (stuck_step h u I) as [I' X]. set (v := house_vec _ h 0 1 u) in *. destruct (house h None 1 v) as [h' p'] eqn:Q. cbn [fst] in *.
  destruct I' as [N' E']. rewrite N'. cbn [Nat.add Nat.sub List.seq forallb]. rewrite X. cbn [andb].
  assert (p' = None) as -> by (unfold house in Q; inversion Q; reflexivity). apply IH. split; auto.
Qed.
Theorem C110_endless_refuted fuel p : (forall q, p = Some q -> nr q = 3%nat /\ nc q = 3%nat) -> zMatToHessenberg 1e-12%float fuel stuck None p = HessEndless.
Proof.
  intros P. assert (A : forall u, hess_cols 1e-12%float fuel 1 0 stuck None u = None) by (intros u; cbn [hess_cols]; rewrite stuck_col; [reflexivity|split; auto]).
  unfold zMatToHessenberg. change (nr stuck) with 3%nat. change (nc stuck) with 3%nat. change (3 - 2)%nat with 1%nat. change (negb (3 =? 3)%nat) with false. cbv iota.
  destruct p as [q|]; cbn [option_map].
  - destruct (P q eq_refl) as [-> ->]. change (negb ((3 =? 3) && (3 =? 3))%nat) with false. cbv iota.
    match goal with |- context [hess_cols ?t fuel 1 0 stuck (Some ?q) ?u] => pose proof (hess_cols_none t fuel 1 0 stuck q u) as Z; destruct (hess_cols t fuel 1 0 stuck (Some q) u) as [[h [p'|]]|] end.
    + rewrite A in Z. discriminate.
    + contradiction.
    + reflexivity.
  - now rewrite A.
Qed.

(** * C111 *)
(** refuted, whatever the number type: three rows or more, and the double QR iteration leaves its matrix as soon as the last
    two subdiagonal elements of the Hessenberg form are not tiny *)
Theorem C111_dqr_memory_refuted {T} {ST : Scalar T} (ztol : T) fuel total iter (m a : fmat T) p : nr m = nc m -> (3 <= nr m)%nat ->
  zMatToHessenberg ztol fuel m None None = Hess a p ->
  is_tol ztol (el a (nr m - 1) (nr m - 2)) = false -> is_tol ztol (el a (nr m - 2) (nr m - 3)) = false ->
  zMatEigDQR ztol fuel (S total) (S iter) m (nr m) = UB.
Proof. apply dqr_out_of_matrix. Qed.
Definition sym3 : fmat PrimFloat.float := mat_of 0%float [[2; 1; 0]; [1; 2; 1]; [0; 1; 2]]%float.
Example C111_dqr_case total iter : zMatEigDQR 1e-12%float 1 (S total) (S iter) sym3 3 = UB.
Proof.
  destruct (zMatToHessenberg 1e-12%float 1 sym3 None None) as [| |a p] eqn:E; try (vm_compute in E; discriminate).
  apply (C111_dqr_memory_refuted 1e-12%float 1 total iter sym3 a p); [reflexivity|cbn; lia|exact E|..].
  - assert (Q : match zMatToHessenberg 1e-12%float 1 sym3 None None with Hess a _ => is_tol 1e-12%float (el a 2 1) | _ => true end = false) by (vm_compute; reflexivity). rewrite E in Q. exact Q.
  - assert (Q : match zMatToHessenberg 1e-12%float 1 sym3 None None with Hess a _ => is_tol 1e-12%float (el a 1 0) | _ => true end = false) by (vm_compute; reflexivity). rewrite E in Q. exact Q.
Qed.
(** refuted: the bisection method leaves its matrix for every symmetric matrix (in fact every square one) *)
Theorem C111_bisection_memory_refuted {T} {ST : Scalar T} {X} (ztol : T) fuel (k : fmat T -> T -> T -> res X) (m : fmat T) ev eb h p :
  nr m = nc m -> (0 < nr m)%nat -> nr eb = nr m -> nc eb = nc m -> vlen ev = nr m -> zMatToHessenberg ztol fuel m None None = Hess h p ->
  zMatSymEigBisec ztol fuel k m ev eb = UB.
Proof. apply bisec_out. Qed.
(** refuted: the eigenvalues 0, 0 of [[1,-1],[1,-1]] are not a number *)
Theorem C111_nan_refuted : match zMatEigDQR 1e-12%float 1 5 5 (mat_of 0%float [[1; -1]; [1; -1]]%float) 2 with
  | Ok (Some (Dqr e)) => PrimFloat.eqb (fst (e 1%nat)) (fst (e 1%nat)) = false | _ => False end.
Proof. vm_compute. reflexivity. Qed.
(** a single element *)
Theorem C111_one tol fuel total iter (m : fmat R) : nr m = 1%nat -> nc m = 1%nat ->
  exists e, zMatEigDQR tol fuel (S total) iter m 1 = Ok (Some (Dqr e)) /\ e 0%nat = (el m 0 0, 0).
Proof.
  intros E1 E2. unfold zMatEigDQR, zMatToHessenberg. rewrite E1, E2. cbn [negb Nat.eqb Nat.sub hess_cols option_map]. rewrite E1.
  cbn [Nat.eqb Nat.sub dqr_outer]. rewrite mget_ok by lia. cbn [bind rmap]. eexists. split; reflexivity.
Qed.
(** two rows: exactly the roots of the characteristic polynomial, unless both are 0; where the element below the diagonal
    is tiny, those of the matrix without it *)
Theorem C111_two_partial tol fuel total iter (m : fmat R) : 0 <= tol -> nr m = 2%nat -> nc m = 2%nat ->
  let tr := el m 0 0 + el m 1 1 in let dt := el m 0 0 * el m 1 1 - el m 0 1 * el m 1 0 in
  (Rabs (el m 1 0) <= tol \/ tr <> 0 \/ dt <> 0) ->
  exists e, zMatEigDQR tol fuel (S (S total)) (S iter) m 2 = Ok (Some (Dqr e)) /\
    (Rabs (el m 1 0) <= tol -> e 0%nat = (el m 0 0, 0) /\ e 1%nat = (el m 1 1, 0)) /\
    (tol < Rabs (el m 1 0) -> forall x : C, Cmult (Cminus x (e 0%nat)) (Cminus x (e 1%nat)) = Cplus (Cminus (Cmult x x) (Cmult (RtoC tr) x)) (RtoC dt)).
Proof.
  intros Ht E1 E2 tr dt C0. unfold zMatEigDQR, zMatToHessenberg. rewrite E1, E2. cbn [negb Nat.eqb Nat.sub hess_cols option_map]. rewrite E1.
  cbn [Nat.eqb Nat.sub]. change (dqr_outer tol (S (S total)) (S iter) m 1 (fun _ => (s0, s0))) with
    (q <- dqr_inner tol (S iter) m 1 (fun _ => (s0, s0)) ;; let '(a, r', _, e) := q in match r' with None => Ok (Dqr e) | Some r' => dqr_outer tol (S total) (S iter) a r' e end).
  cbn [dqr_inner Nat.sub]. rewrite !mget_ok by lia. cbn [bind]. rewrite is_tol_R. destruct (Rleb_spec (Rabs (el m 1 0)) tol) as [H|H].
  - cbn [bind dqr_outer Nat.eqb]. rewrite mget_ok by lia. cbn [bind rmap]. eexists. split; [reflexivity|]. split; [intros _; split; reflexivity|lra].
  - cbn [bind Nat.eqb]. set (b := (- el m 0 0 - el m 1 1)%S). set (c := (el m 0 0 * el m 1 1 - el m 0 1 * el m 1 0)%S).
    destruct (Complex_Proofs.zQESolve_ok 1 b c) as (x1 & x2 & Q & F); [lra| |].
    { destruct C0 as [C0|[C0|C0]]; [lra|left; unfold b, tr in *; rs; lra|right; exact C0]. }
    change (sofZ 1%Z / sofZ 2%Z)%S with (1 / 2). change (@sofZ R RealS 4%Z) with 4. change (@s1 R RealS) with 1. rewrite Q. cbn [bind rmap Nat.ltb Nat.leb].
    eexists. split; [reflexivity|]. split; [lra|]. intros _ x. unfold set_e. cbn [Nat.eqb]. specialize (F x).
    replace (Cmult (RtoC 1) (Cmult (Cminus x x1) (Cminus x x2))) with (Cmult (Cminus x x1) (Cminus x x2)) in F by ring. rewrite F.
    replace (RtoC b) with (Copp (RtoC tr)) by (unfold b, tr; rs; rewrite <- RtoC_opp; f_equal; ring). change (RtoC c) with (RtoC dt). ring.
Qed.
Example C111_two_case : let m := mat_of 0 [[0; -1]; [1; 0]] in 0 < Rabs (el m 1 0) /\ el m 0 0 * el m 1 1 - el m 0 1 * el m 1 0 <> 0.
Proof. cbn. rewrite Rabs_R1. lra. Qed.

(** * C112 *)
(** every answer of the power method is the Rayleigh quotient of a unit vector; when the loop ended early, of one that is an
    eigenvector up to the tolerance *)
Theorem C112_power tol n (m : fmat R) rnd k : 0 <= tol -> nr m = n -> nc m = n -> vlen rnd = n -> tol < norm n (vel rnd) ->
  exists v e lam ok, zMatEigPower tol (S k) m rnd = Ok (lam, e, ok) /\ unit_vec n v /\ vlen e = n /\ lam = dot n v (mulv n (el m) v) /\
    (forall i, (i < n)%nat -> vel e i = if is_tol tol lam then mulv n (el m) v i else mulv n (el m) v i / lam) /\
    (ok = true -> forall i, (i < n)%nat -> Rabs (mulv n (el m) v i - lam * v i) <= tol).
Proof. apply eig_power_ok. Qed.
(** so it never leaves the range of the quadratic form *)
Theorem C112_power_range tol n (m : fmat R) rnd k lo hi : 0 <= tol -> nr m = n -> nc m = n -> vlen rnd = n -> tol < norm n (vel rnd) ->
  (forall x, lo * dot n x x <= dot n x (mulv n (el m) x) <= hi * dot n x x) ->
  exists e lam ok, zMatEigPower tol (S k) m rnd = Ok (lam, e, ok) /\ lo <= lam <= hi.
Proof.
  intros Ht E1 E2 L Hn B. destruct (eig_power_ok tol n m rnd k Ht E1 E2 L Hn) as (v & e & lam & ok & A & U & _ & El & _).
  exists e, lam, ok. split; auto. specialize (B v). unfold unit_vec in U. rewrite U in B. lra.
Qed.
(** a symmetric matrix, ended early: within sqrt(n) times the tolerance of an eigenvalue *)
Theorem C112_power_eigenvalue tol n (m : fmat R) rnd k Q lam : 0 <= tol -> nr m = n -> nc m = n -> vlen rnd = n -> tol < norm n (vel rnd) ->
  symmetric n (el m) -> eigenbasis n (el m) Q lam ->
  exists e mu ok, zMatEigPower tol (S k) m rnd = Ok (mu, e, ok) /\ (ok = true -> exists a, (a < n)%nat /\ Rabs (mu - lam a) <= sqrt (INR n) * tol).
Proof.
  intros Ht E1 E2 L Hn SY EB. destruct (eig_power_ok tol n m rnd k Ht E1 E2 L Hn) as (v & e & mu & ok & A & U & _ & El & _ & C).
  exists e, mu, ok. split; auto. intros O. apply (near_eigenvalue n (el m) Q lam EB SY v mu tol); auto.
  destruct n; [|lia]. unfold norm, dot in Hn. cbn in Hn. rewrite sqrt_0 in Hn. lra.
Qed.
(** the power method approaches the dominant eigenvalue, for every start with a component along its eigenvector *)
Theorem C112_power_dominant tol n (m : fmat R) rnd k Q lam d : 0 <= tol -> nr m = n -> nc m = n -> vlen rnd = n -> tol < norm n (vel rnd) ->
  symmetric n (el m) -> eigenbasis n (el m) Q lam -> (d < n)%nat -> (forall a, (a < n)%nat -> Rabs (lam a) <= Rabs (lam d)) ->
  let c := coef n Q (vel rnd) in tol < Rabs (lam d) * (Rabs (c d) / norm n (vel rnd)) ->
  exists e mu ok, zMatEigPower tol (S k) m rnd = Ok (mu, e, ok) /\
    (ok = true -> Rabs (mu - lam d) <= sqrt (INR n) * tol * norm n (vel rnd) / Rabs (c d)) /\
    (ok = false -> Rabs (mu - lam d) <= rsum n (fun a => Rabs (lam a - lam d) * ((c a / c d) ^ 2 * ((lam a / lam d) ^ 2) ^ k))).
Proof.
  intros Ht E1 E2 L Hn SY EB Hd DOM c HK.
  destruct (power_conv n (el m) Q lam EB SY d Hd DOM tol m k Ht E1 E2 ltac:(auto) rnd (vzero (vlen rnd)) 1 L L Hn HK) as (mu & e & ok & A & B & C).
  destruct (eig_power_ok tol n m rnd k Ht E1 E2 L Hn) as (v & e2 & mu2 & ok2 & A2 & _).
  assert (Q2 : mu2 = mu /\ ok2 = ok).
  { unfold zMatEigPower in A2. change (@s1 R RealS) with 1 in A2. rewrite A in A2. cbn [bind] in A2. destruct (zVecDivDRC tol e mu); cbn [bind] in A2; inversion A2; auto. }
  destruct Q2 as [-> ->]. exists e2, mu, ok. split; auto. split; auto. intros O. specialize (B O). unfold kap in B. fold (c d) in B.
  pose proof (norm_pos n (vel rnd)). assert (P : 0 < Rabs (c d)).
  { pose proof (Rabs_pos (c d)) as [P|P]; auto. exfalso. rewrite <- P in HK. unfold Rdiv in HK. rewrite Rmult_0_l, Rmult_0_r in HK. lra. }
  apply Rmult_le_reg_r with (Rabs (c d) / norm n (vel rnd)); [apply Rdiv_lt_0_compat; lra|].
  eapply Rle_trans; [exact B|]. apply Req_le. field. lra.
Qed.
(** strictly dominant: with enough rounds, as near as the tolerance allows *)
Theorem C112_power_limit tol n (m : fmat R) rnd Q lam d eps : 0 <= tol -> nr m = n -> nc m = n -> vlen rnd = n -> tol < norm n (vel rnd) ->
  symmetric n (el m) -> eigenbasis n (el m) Q lam -> (d < n)%nat ->
  (forall a, (a < n)%nat -> lam a = lam d \/ Rabs (lam a) < Rabs (lam d)) ->
  let c := coef n Q (vel rnd) in tol < Rabs (lam d) * (Rabs (c d) / norm n (vel rnd)) -> 0 < eps ->
  exists K, forall k, (K <= k)%nat -> exists e mu ok, zMatEigPower tol (S k) m rnd = Ok (mu, e, ok) /\
    Rabs (mu - lam d) <= Rmax eps (sqrt (INR n) * tol * norm n (vel rnd) / Rabs (c d)).
Proof.
  intros Ht E1 E2 L Hn SY EB Hd DOM c HK He.
  assert (DOM' : forall a, (a < n)%nat -> Rabs (lam a) <= Rabs (lam d)) by (intros a Ha; destruct (DOM a Ha) as [->|]; lra).
  assert (Ld : 0 < Rabs (lam d)). { pose proof (Rabs_pos (lam d)) as [P|P]; auto. rewrite <- P, Rmult_0_l in HK. lra. }
  assert (S : forall q, (q <= n)%nat -> exists K, forall k, (K <= k)%nat -> rsum q (fun a => Rabs (lam a - lam d) * ((c a / c d) ^ 2 * ((lam a / lam d) ^ 2) ^ k)) <= eps * INR q / INR n).
  { assert (N0 : 0 < INR n) by (apply lt_0_INR; lia).
    induction q as [|q IH]; intros Hq; [exists 0%nat; intros; cbn; unfold Rdiv; lra|]. destruct (IH ltac:(lia)) as (K1 & H1).
    assert (T : exists K, forall k, (K <= k)%nat -> Rabs (lam q - lam d) * ((c q / c d) ^ 2 * ((lam q / lam d) ^ 2) ^ k) <= eps / INR n).
    { assert (P : 0 < eps / INR n) by (apply Rdiv_lt_0_compat; auto).
      destruct (DOM q ltac:(lia)) as [E|E]; [exists 0%nat; intros; rewrite E; rewrite Rminus_diag_eq, Rabs_R0 by auto; lra|].
      set (B := Rabs (lam q - lam d) * (c q / c d) ^ 2). assert (B0 : 0 <= B) by (apply Rmult_le_pos; [apply Rabs_pos|apply pow2_ge_0]).
      assert (R1 : Rabs ((lam q / lam d) ^ 2) < 1).
      { rewrite <- RPow_abs. unfold Rdiv. rewrite Rabs_mult, Rabs_inv. pose proof (Rabs_pos (lam q)).
        assert (X : 0 <= Rabs (lam q) * / Rabs (lam d) < 1).
        { split; [apply Rmult_le_pos; [auto|left; now apply Rinv_0_lt_compat]|]. apply Rmult_lt_reg_r with (Rabs (lam d)); auto. rewrite Rmult_assoc, Rinv_l by lra. lra. }
        nra. }
      destruct (pow_lt_1_zero _ R1 (eps / INR n / (B + 1)) ltac:(apply Rdiv_lt_0_compat; lra)) as (K & H). exists K. intros k Hk. specialize (H k Hk).
      replace (Rabs (lam q - lam d) * ((c q / c d) ^ 2 * ((lam q / lam d) ^ 2) ^ k)) with (B * ((lam q / lam d) ^ 2) ^ k) by (unfold B; ring).
      pose proof (Rle_abs (((lam q / lam d) ^ 2) ^ k)). set (y := ((lam q / lam d) ^ 2) ^ k) in *.
      assert (Z : eps / INR n / (B + 1) * (B + 1) = eps / INR n) by (field; split; lra). assert (0 < eps / INR n / (B + 1)) by (apply Rdiv_lt_0_compat; lra). nra. }
    destruct T as (K2 & H2). exists (Nat.max K1 K2). intros k Hk. cbn [rsum]. rewrite S_INR. specialize (H1 k ltac:(lia)). specialize (H2 k ltac:(lia)).
    replace (eps * (INR q + 1) / INR n) with (eps * INR q / INR n + eps / INR n) by (field; lra). lra. }
  destruct (S n (le_n n)) as (K & H). exists K. intros k Hk. specialize (H k Hk).
  destruct (C112_power_dominant tol n m rnd k Q lam d Ht E1 E2 L Hn SY EB Hd DOM' HK) as (e & mu & ok & A & B & C).
  exists e, mu, ok. split; auto. destruct ok.
  - eapply Rle_trans; [apply (B eq_refl)|apply Rmax_r].
  - eapply Rle_trans; [apply (C eq_refl)|]. eapply Rle_trans; [exact H|]. eapply Rle_trans; [|apply Rmax_l]. apply Req_le. field. apply not_0_INR. lia.
Qed.
(** the hypotheses are met: diag(2, 1) and the start (1, 1) *)
Example C112_case : let m := mat_of 0 [[2; 0]; [0; 1]] in let Q := fun i j => delta i j in let lam := fun a : nat => match a with O => 2 | _ => 1 end in
  let rnd := FV 2 (fun _ => 1) in symmetric 2 (el m) /\ eigenbasis 2 (el m) Q lam /\ (forall a, (a < 2)%nat -> lam a = lam 0%nat \/ Rabs (lam a) < Rabs (lam 0%nat)) /\
  1 / 1000 < norm 2 (vel rnd) /\ 1 / 1000 < Rabs (lam 0%nat) * (Rabs (coef 2 Q (vel rnd) 0) / norm 2 (vel rnd)).
Proof.
  assert (N : 1 < norm 2 (fun _ => 1) <= 2).
  { unfold norm, dot. cbn. replace (0 + 1 * 1 + 1 * 1) with 2 by ring. split; [rewrite <- sqrt_1 at 1; apply sqrt_lt_1; lra|]. replace 2 with (sqrt (2 * 2)) at 2 by (rewrite sqrt_square; lra). apply sqrt_le_1; lra. }
  cbv zeta. split.
  - intros i j Hi Hj. destruct i as [|[|i]], j as [|[|j]]; try lia; reflexivity.
  - split; [split; [split|]|].
    + intros a b Ha Hb. destruct a as [|[|a]], b as [|[|b]]; try lia; cbn; lra.
    + intros a b Ha Hb. destruct a as [|[|a]], b as [|[|b]]; try lia; cbn; lra.
    + intros a i Ha Hi. destruct a as [|[|a]], i as [|[|i]]; try lia; cbn; lra.
    + split; [intros a Ha; destruct a as [|[|a]]; [left; auto|right|lia]; rewrite !Rabs_right; lra|].
      cbn [vel]. split; [lra|]. unfold coef, dot. cbn [rsum]. unfold delta. cbn [Nat.eqb]. rewrite (Rabs_right 2) by lra. rewrite Rabs_right by lra.
      apply Rmult_lt_reg_r with (norm 2 (fun _ => 1)); [lra|]. unfold Rdiv. rewrite !Rmult_assoc, Rinv_l, !Rmult_1_r by lra. lra.
Qed.

(** the greatest singular value is never overestimated: no more than any bound of |A x| / |x| *)
Theorem C112_singular_max tol (m : fmat R) rnd k K : let n := smaller (nr m) (nc m) in 0 <= tol -> vlen rnd = n -> tol < norm n (vel rnd) -> 0 <= K ->
  (forall x, image2 (nr m) (nc m) (el m) x <= K ^ 2 * dot n x x) ->
  exists s ok, zMatSingularValueMax tol (S k) m rnd = Ok (s, ok) /\ 0 <= s <= K.
Proof.
  intros n Ht L Hn HK B. destruct (gram_size m) as [G1 G2].
  destruct (eig_power_ok tol n (singular_mat m) rnd k Ht G1 G2 L Hn) as (v & e & lam & ok & A & U & _ & El & _).
  unfold zMatSingularValueMax. rewrite A. cbn [bind]. exists (sqrt lam), ok. split; [reflexivity|]. split; [apply sqrt_pos|].
  rewrite <- (sqrt_pow2 K) by auto. apply sqrt_le_1_alt. rewrite El. unfold n. rewrite gram_quad. specialize (B v). unfold unit_vec in U. fold n in B. rewrite U in B. lra.
Qed.
(** the least one is never underestimated, for every matrix of full rank and small tolerance *)
Lemma min_lemma (m : fmat R) rnd sg : let n := smaller (nr m) (nc m) in (0 < n)%nat -> vlen rnd = n -> 0 < norm n (vel rnd) -> 0 < sg ->
  (forall x, sg ^ 2 * dot n x x <= image2 (nr m) (nc m) (el m) x) ->
  exists d, 0 < d /\ forall tol, 0 <= tol <= d -> forall k, exists s ok, zMatSingularValueMin tol (S k) m rnd = Ok (s, ok) /\ sg <= s.
Proof.
  intros n N0 L Hn Hs B. destruct (gram_size m) as [G1 G2]. fold n in G1, G2.
  assert (B' : forall x, sg ^ 2 * dot n x x <= dot n x (mulv n (el (singular_mat m)) x)) by (intros x; unfold n; rewrite gram_quad; apply B).
  assert (S2 : 0 < sg ^ 2) by (apply pow_lt; auto).
  destruct (C29_inverse_partial n (singular_mat m) (zmat n n) N0 G1 G2 eq_refl eq_refl (pos_nonsingular n _ _ S2 B')) as (X & E & X1 & X2 & X3).
  destruct (small_0 (fun t => zMatInv t (singular_mat m) (zmat n n)) (fun z => z = Ok (Some X)) (st_matinv _ _) E) as (d & D & Hd).
  exists (Rmin d (norm n (vel rnd) / 2)). split; [apply Rmin_glb_lt; lra|]. intros tol Ht k.
  pose proof (Rmin_l d (norm n (vel rnd) / 2)). pose proof (Rmin_r d (norm n (vel rnd) / 2)).
  destruct (eig_power_ok tol n X rnd k ltac:(lra) X1 X2 L ltac:(lra)) as (v & e & lam & ok & A & U & _ & El & _).
  destruct (inv_rayleigh n _ (el X) v (sg ^ 2) S2 U X3 B') as [P1 P2]. rewrite <- El in P1, P2.
  unfold zMatSingularValueMin, zMatEigPowerInv. rewrite G1, G2, Nat.eqb_refl. cbn [negb]. rewrite Hd by lra. cbn [bind]. rewrite A. cbn [bind].
  eexists _, ok. split; [reflexivity|]. rs. rewrite <- (sqrt_pow2 sg) at 1 by lra. apply sqrt_le_1_alt.
  apply Rmult_le_reg_r with lam; auto. unfold Rdiv. rewrite Rmult_assoc, Rinv_l by lra. lra.
Qed.
Theorem C112_singular_min_partial (m : fmat R) rnd sg : let n := smaller (nr m) (nc m) in (0 < n)%nat -> vlen rnd = n -> 0 < norm n (vel rnd) -> 0 < sg ->
  (forall x, sg ^ 2 * dot n x x <= image2 (nr m) (nc m) (el m) x) ->
  exists d, 0 < d /\ forall tol, 0 <= tol <= d -> forall k, exists s ok, zMatSingularValueMin tol (S k) m rnd = Ok (s, ok) /\ sg <= s.
Proof. apply min_lemma. Qed.
(** so the condition number is never overestimated *)
Theorem C112_condnum_partial (m : fmat R) rnd1 rnd2 sg K : let n := smaller (nr m) (nc m) in (0 < n)%nat -> vlen rnd1 = n -> vlen rnd2 = n ->
  0 < norm n (vel rnd1) -> 0 < norm n (vel rnd2) -> 0 < sg -> 0 <= K ->
  (forall x, sg ^ 2 * dot n x x <= image2 (nr m) (nc m) (el m) x <= K ^ 2 * dot n x x) ->
  exists d, 0 < d /\ forall tol, 0 <= tol <= d -> forall k, exists c, zMatCondNum tol (S k) m rnd1 rnd2 = Ok (Some c) /\ 0 <= c <= K / sg.
Proof.
  intros n N0 L1 L2 H1 H2 Hs HK B. destruct (min_lemma m rnd2 sg N0 L2 H2 Hs ltac:(intros x; apply B)) as (d & D & Hd).
  exists (Rmin (Rmin d (sg / 2)) (norm n (vel rnd1) / 2)). split; [repeat apply Rmin_glb_lt; lra|]. intros tol Ht k.
  pose proof (Rmin_l (Rmin d (sg / 2)) (norm n (vel rnd1) / 2)). pose proof (Rmin_r (Rmin d (sg / 2)) (norm n (vel rnd1) / 2)).
  pose proof (Rmin_l d (sg / 2)). pose proof (Rmin_r d (sg / 2)).
  destruct (Hd tol ltac:(lra) k) as (s & ok & A & As).
  destruct (C112_singular_max tol m rnd1 k K ltac:(lra) L1 ltac:(fold n; lra) HK ltac:(intros x; apply B)) as (g & ok1 & A1 & As1).
  unfold zMatCondNum. rewrite A1. cbn [bind]. rewrite A. cbn [bind]. cbn [slt RealS]. destruct (Rltb_spec tol s) as [Q|Q]; [|lra].
  eexists. split; [reflexivity|]. cbn [sdiv RealS]. split; [apply Rmult_le_pos; [lra|left; apply Rinv_0_lt_compat; lra]|].
  apply Rmult_le_reg_r with s; [lra|]. unfold Rdiv. rewrite Rmult_assoc, Rinv_l, Rmult_1_r by lra.
  apply Rle_trans with (K * / sg * sg); [rewrite Rmult_assoc, Rinv_l by lra; lra|]. apply Rmult_le_compat_l; [|lra]. apply Rmult_le_pos; [auto|left; apply Rinv_0_lt_compat; lra].
Qed.
Example C112_singular_case : let m := mat_of 0 [[2; 0]; [0; 1]; [0; 0]] in smaller (nr m) (nc m) = 2%nat /\
  forall x, 1 ^ 2 * dot 2 x x <= image2 (nr m) (nc m) (el m) x <= 2 ^ 2 * dot 2 x x.
Proof. cbv zeta. split; [reflexivity|]. intros x. unfold image2, dot. cbn. split; nra. Qed.

(** refuted: no convergence to a dominant eigenvalue of diag(1,-1), whatever the start *)
Definition flip : fmat R := mat_of 0 [[1; 0]; [0; -1]].
Lemma flip_loop tol k : 0 <= tol < 1 -> forall e ev lam0, vlen e = 2%nat -> vlen ev = 2%nat -> tol < norm 2 (vel e) ->
  exists mu e' ok, power_loop tol (S k) flip e ev lam0 = Ok (mu, e', ok) /\ mu = (vel e 0%nat ^ 2 - vel e 1%nat ^ 2) / (vel e 0%nat ^ 2 + vel e 1%nat ^ 2).
Proof.
  intros Ht. induction k as [|k IH]; intros e ev lam0 L1 L2 Hn.
  1: destruct (power_round tol 2 flip e ev 0 lam0 ltac:(lra) eq_refl eq_refl L1 L2 (or_introl Hn)) as (v & e' & mu & Lv & Le & U & Ev & El & Sc & P).
  2: destruct (power_round tol 2 flip e ev (S k) lam0 ltac:(lra) eq_refl eq_refl L1 L2 (or_introl Hn)) as (v & e' & mu & Lv & Le & U & Ev & El & Sc & P).
  all: rewrite P; clear P; specialize (Sc Hn).
  all: pose proof (norm_sq 2 (vel e)) as NS; pose proof (Sc 0%nat ltac:(lia)) as S0; pose proof (Sc 1%nat ltac:(lia)) as S1.
  all: pose proof (Ev 0%nat ltac:(lia)) as V0; pose proof (Ev 1%nat ltac:(lia)) as V1.
  all: unfold mulv, dot, unit_vec in *; cbn in V0, V1, El, U, NS; unfold scaled in S0, S1.
  all: set (N := norm 2 (vel e)) in *; assert (N0 : 0 < N) by lra.
  all: assert (MU : mu = (vel e 0%nat ^ 2 - vel e 1%nat ^ 2) / (vel e 0%nat ^ 2 + vel e 1%nat ^ 2)).
  1,3: rewrite El, S0, S1; replace (vel e 0%nat ^ 2 + vel e 1%nat ^ 2) with (N * N) by (rewrite NS; ring); field; lra.
  all: destruct (zVecIsTol _ _); [exists mu, e', true; split; auto|].
  - exists mu, e', false. split; auto.
  - assert (W0 : vel e' 0%nat = vel v 0%nat) by lra. assert (W1 : vel e' 1%nat = - vel v 1%nat) by lra.
    destruct (IH e' v mu Le Lv) as (mu2 & e2 & ok & A & B).
    + assert (norm 2 (vel e') = 1) as ->; [|lra]. unfold norm, dot. cbn. rewrite W0, W1. rewrite <- sqrt_1. f_equal. lra.
    + exists mu2, e2, ok. split; auto. rewrite B, W0, W1, <- MU. replace (vel v 0%nat ^ 2 + (- vel v 1%nat) ^ 2) with 1 by lra. lra.
Qed.
Theorem C112_power_dominant_refuted tol k a b : 0 <= tol < 1 -> tol < sqrt (a ^ 2 + b ^ 2) ->
  exists e ok, zMatEigPower tol (S k) flip (FV 2 (fun i => match i with O => a | _ => b end)) = Ok ((a ^ 2 - b ^ 2) / (a ^ 2 + b ^ 2), e, ok).
Proof.
  intros Ht Hn. set (rnd := FV 2 _).
  assert (N : norm 2 (vel rnd) = sqrt (a ^ 2 + b ^ 2)) by (unfold norm, dot; cbn; f_equal; ring).
  destruct (flip_loop tol k Ht rnd (vzero 2) 1 eq_refl eq_refl ltac:(lra)) as (mu & e' & ok & A & B). cbn [vel rnd] in B. subst mu.
  destruct (eig_power_ok tol 2 flip rnd k ltac:(lra) eq_refl eq_refl eq_refl ltac:(lra)) as (v & e & lam & ok2 & A2 & _).
  rewrite A2. unfold zMatEigPower in A2. change (vlen rnd) with 2%nat in A2. change (@s1 R RealS) with 1 in A2. rewrite A in A2. cbn [bind] in A2.
  destruct (zVecDivDRC tol e' _); cbn [bind] in A2; inversion A2. exists e, ok2. reflexivity.
Qed.
(** refuted: the least singular value of a singular matrix is 1 for diag(1,0) (zMatInv leaves the identity), and its
    condition number is 1 *)
Theorem C112_singular_refuted : let m := mat_of 0%float [[1; 0]; [0; 0]]%float in let r := FV 2 (fun i => match i with O => 0.5 | _ => 0.25 end)%float in
  match zMatSingularValueMin 1e-12%float 1000 m r, zMatCondNum 1e-12%float 1000 m r r with
  | Ok (s, _), Ok (Some c) => (s =? 1)%float = true /\ (c =? 1)%float = true | _, _ => False end.
Proof. vm_compute. split; reflexivity. Qed.

Print Assumptions C110_hessenberg_partial.
Print Assumptions C110_sizes.
Print Assumptions C110_endless_refuted.
Print Assumptions C111_dqr_memory_refuted.
Print Assumptions C111_bisection_memory_refuted.
Print Assumptions C111_nan_refuted.
Print Assumptions C111_one.
Print Assumptions C111_two_partial.
Print Assumptions C112_power.
Print Assumptions C112_power_range.
Print Assumptions C112_power_eigenvalue.
Print Assumptions C112_power_dominant.
Print Assumptions C112_power_limit.
Print Assumptions C112_singular_max.
Print Assumptions C112_singular_min_partial.
Print Assumptions C112_condnum_partial.
Print Assumptions C112_power_dominant_refuted.
Print Assumptions C112_singular_refuted.
