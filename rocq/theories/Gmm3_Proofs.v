(** The EM algorithm of the model computes the steps of Gmm2_Proofs, over the reals and without a tolerance. *)
From Coq Require Import Reals Lra Lia List.
From Verif Require Import Prelude Prelude_Proofs Scalar RealLib Fmat Fmat_Proofs LE_Model LE_Spec IP_Model IP_Proofs Vop Misc_Model Misc_Proofs Stat_Model Stat2_Proofs
  Qp_Spec Qp_Proofs Det_Proofs Cluster_Model LE_Props Gmm_Model Gmm_Spec Gmm_Proofs Gmm2_Proofs.
Import ListNotations.
Local Open Scope R_scope.

Lemma foreach_n {A St} (P : nat -> St -> Prop) (f : A -> St -> res St) (d : A) l : forall s, P O s ->
  (forall k s, (k < length l)%nat -> P k s -> exists s', f (nth k l d) s = Ok s' /\ P (S k) s') ->
  exists s', foreach l f s = Ok s' /\ P (length l) s'.
Proof.
  intros s H0 H. assert (G : forall m, (m <= length l)%nat -> exists s', foreach (firstn m l) f s = Ok s' /\ P m s').
  { induction m as [|m IH]; intros Hm; [exists s; split; auto; cbn; auto|]. destruct IH as (s1 & E & P1); [lia|]. destruct (H m s1) as (s2 & E2 & P2); [lia|auto|]. exists s2. split; auto.
    assert (F : firstn (S m) l = firstn m l ++ [nth m l d]). { clear -Hm. revert l Hm. induction m; intros [|a l] Hm; cbn in *; try lia; auto. f_equal. apply IHm. lia. }
    rewrite F. unfold foreach in *. rewrite fold_left_app, E. cbn. exact E2. }
  destruct (G (length l) (le_n _)) as (s' & E & P'). rewrite firstn_all in E. eauto.
Qed.

Notation Runit := (@unit_ R).
Definition u0 : Runit := GU (zvec 0) (zmat 0 0) 0 (zmat 0 0) 0.
Definition shape (n : nat) (u : Runit) : Prop := vlen (ucore u) = n /\ nr (ucov u) = n /\ nc (ucov u) = n /\ nr (uinv u) = n /\ nc (uinv u) = n.
Definition regular (n : nat) (u : Runit) : Prop := symmetric n (el (ucov u)) /\ pd n (el (ucov u)) /\ inverse n (el (ucov u)) (el (uinv u)) /\ udet u = det n (el (ucov u)).
(** what the code takes as the density *)
Definition udens (n : nat) (u : Runit) (y : nat -> R) : R :=
  if Req_EM_T (udet u) 0 then 1 else exp (- (1 / 2) * qf n (el (uinv u)) (fun a => y a - vel (ucore u) a)) / sqrt ((2 * PI) ^ n * udet u).
Notation PDF := (_zGMMUnitPDF 0 exp (2 * PI)).

Lemma error_ok n (p c : fvec R) : vlen p = n -> vlen c = n -> error_ n p c = Ok (FV n (fun a => vel p a - vel c a)).
Proof. intros P C. unfold error_, zVecSubC, zVecSubNC. cbn [vlen zvec]. rewrite P, C, Nat.eqb_refl. cbn [andb]. rewrite vop2_ok by auto. reflexivity. Qed.
Lemma pdf_ok n u p : shape n u -> vlen p = n -> PDF n u p = Ok (udens n u (vel p)).
Proof.
  intros (S1 & S2 & S3 & S4 & S5) Hp. unfold _zGMMUnitPDF. rewrite error_ok by auto. cbn [bind]. set (e := FV n _). unfold zMulMatVec. cbn [vlen zvec]. rewrite S4, S5. cbn [vlen e]. rewrite Nat.eqb_refl. cbn [andb].
  destruct (mulmv_R (uinv u) e (zvec n)) as (w & -> & W1 & W2); auto. cbn [bind]. cbn [vlen zvec] in W1, W2. f_equal. unfold udens. destruct (Req_EM_T (udet u) 0) as [E|N].
  - rewrite (proj2 (is_tol_0 (udet u)) E). reflexivity.
  - destruct (is_tol 0 (udet u)) eqn:T; [apply is_tol_0 in T; contradiction|]. rewrite inner_R by (cbn; auto). rewrite spow_R. cbn [vlen e]. unfold dot. rs. assert (Q : rsum n (fun i => vel e i * vel w i) = qf n (el (uinv u)) (fun a => vel p a - vel (ucore u) a)) by (rewrite qf_bf; unfold bf, mv; apply rsum_ext; intros a Ha; rewrite W2 by auto; reflexivity). rewrite Q. replace (- (1 / 2)) with (- (IZR 1 / IZR 2)) by lra. reflexivity.
Qed.
Lemma udens_regular n u y : regular n u -> udens n u y = normal n (vel (ucore u)) (el (ucov u)) (el (uinv u)) y.
Proof. intros (A & B & C & D). unfold udens, normal. rewrite D. pose proof (pd_det n _ A B). destruct (Req_EM_T (det n (el (ucov u))) 0); [lra|auto]. Qed.
Lemma udens_pos n u y : udet u = 0 \/ regular n u -> 0 < udens n u y.
Proof. intros [E|G]. - unfold udens. destruct (Req_EM_T (udet u) 0); [lra|contradiction]. - rewrite udens_regular by auto. destruct G as (A & B & C & D). apply normal_pos, pd_det; auto. Qed.

Lemma sym_nonsingular n (A : nat -> nat -> R) : (0 < n)%nat -> symmetric n A -> det n A <> 0 -> nonsingular n A.
Proof.
  intros Hn SA HD x Hx i Hi. destruct n as [|n1]; [lia|]. assert (Z : x i * det (S n1) A = 0); [|apply Rmult_integral in Z; destruct Z; auto; contradiction].
  transitivity (rsum (S n1) (fun r => x r * rsum (S n1) (fun k => A r k * (sgn (i + k) * det n1 (minor A i k))))).
  - rewrite (rsum_ext (S n1) _ (fun r => if (r =? i)%nat then x i * det (S n1) A else 0)); [rewrite rsum_if by auto; auto|]. intros r Hr. rewrite (rsum_ext (S n1) _ (fun k => sgn (i + k) * A r k * det n1 (minor A i k))) by (intros; ring).
    pose proof (det_cofactors n1 A i r Hi Hr) as DC. rewrite (rsum_ext (S n1) _ (fun j => A r j * (sgn (i + j) * det n1 (minor A i j)))) by (intros; ring). 
    rewrite (rsum_ext (S n1) _ (fun j => sgn (i + j) * A r j * det n1 (minor A i j))) by (intros; ring).
    match type of DC with ?l = _ => match goal with |- x r * ?s = _ => replace s with l by (apply rsum_ext; intros; ring) end end. rewrite DC. destruct (Nat.eqb_spec r i), (Nat.eqb_spec i r); subst; try congruence; ring.
  - rewrite (rsum_ext (S n1) _ (fun r => rsum (S n1) (fun k => A r k * x r * (sgn (i + k) * det n1 (minor A i k))))) by (intros; rewrite <- rsum_scal; apply rsum_ext; intros; ring). rewrite rsum_swap. apply rsum_0. intros k Hk. rewrite rsum_scal_r.
    rewrite (rsum_ext (S n1) _ (fun r => A k r * x r)) by (intros; rewrite SA by auto; auto). specialize (Hx k Hk). unfold mv in Hx. rewrite Hx. ring.
Qed.
Lemma pd_nonsingular n (A : nat -> nat -> R) : pd n A -> nonsingular n A.
Proof.
  intros PA x Hx i Hi. destruct (Req_EM_T (x i) 0) as [|NE]; auto. exfalso. assert (0 < qf n A x) by (apply PA; eauto). rewrite qf_bf in *. unfold bf in *. rewrite rsum_0 in H; [lra|]. intros r Hr. rewrite Hx by auto. ring.
Qed.

(** ** the expectation *)
Section Expect.
Variables n : nat.
Variable us : list Runit.
Variable pts : list (fvec R).
Notation K := (length us).
Notation N := (length pts).
Definition pnt (i : nat) : nat -> R := vel (nth i pts (zvec 0)).
Definition wts (k : nat) : R := uweight (nth k us u0).
Definition fdens (k i : nat) : R := udens n (nth k us u0) (pnt i).
Hypothesis SH : forall u, In u us -> shape n u.
Hypothesis SZ : forall p, In p pts -> vlen p = n.
Lemma densities_ok (pdf : fmat R) (dt : fvec R) : nr pdf = K -> nc pdf = N -> vlen dt = N ->
  exists pdf' dt', densities 0 exp (2 * PI) n us pts pdf dt = Ok (pdf', dt') /\ nr pdf' = K /\ nc pdf' = N /\ vlen dt' = N /\
    (forall k i, (k < K)%nat -> (i < N)%nat -> el pdf' k i = fdens k i) /\ forall i, (i < N)%nat -> vel dt' i = mixed K wts fdens i.
Proof.
  intros P1 P2 D1. unfold densities.
  match goal with |- context [foreach pts ?f ?s0] => destruct (foreach_n (fun m (s : fmat R * fvec R * nat) => let '(pdf', dt', i) := s in i = m /\ nr pdf' = K /\ nc pdf' = N /\ vlen dt' = N /\
    (forall k i, (k < K)%nat -> (i < m)%nat -> el pdf' k i = fdens k i) /\ (forall i, (i < m)%nat -> vel dt' i = mixed K wts fdens i) /\ forall i, (m <= i < N)%nat -> vel dt' i = 0) f (zvec 0) pts s0) as (((pdf' & dt') & i) & -> & I & A & B & D & E & F & _) end.
  - conjs; auto; intros; lia.
  - intros m ((pd & dd) & i) Hm (-> & A & B & D & E & F & G). set (p := nth m pts (zvec 0)). assert (Hp : vlen p = n) by (apply SZ, nth_In; auto).
    match goal with |- context [foreach us ?f ?s0] => destruct (foreach_n (fun q (s : fmat R * fvec R * nat) => let '(pdf', dt', j) := s in j = q /\ nr pdf' = K /\ nc pdf' = N /\ vlen dt' = N /\
      (forall k i, (k < K)%nat -> (i < m)%nat \/ (i = m /\ (k < q)%nat) -> el pdf' k i = fdens k i) /\ (forall i, i <> m -> vel dt' i = vel dd i) /\ vel dt' m = rsum q (fun k => wts k * fdens k m)) f u0 us s0) as (((pd2 & dd2) & j2) & -> & J & A2 & B2 & D2 & E2 & F2 & G2) end.
    + conjs; auto. * intros k i Hk [Hi|Hi]; [auto|lia].
    + intros q ((pd1 & dd1) & j) Hq (-> & A1 & B1 & D1' & E1 & F1 & G1). rewrite pdf_ok by (auto; apply SH, nth_In; auto). cbn [bind]. rewrite mset_ok by lia. cbn [bind]. rewrite vmod_ok, vset_ok by lia. cbn [bind]. eexists. split; [reflexivity|]. cbv beta iota. cbn [nr nc el vlen vel]. conjs; auto.
      * intros k i Hk Hi. destruct (Nat.eqb_spec k q) as [->|]; destruct (Nat.eqb_spec i m) as [->|]; cbn [andb]; auto; apply E1; auto; lia.
      * intros i Ni. destruct (Nat.eqb_spec i m); [lia|]. auto.
      * rewrite Nat.eqb_refl. rewrite G1. cbn [rsum]. rs. reflexivity.
    + subst j2. cbn [bind]. eexists. split; [reflexivity|]. cbv beta iota. conjs; auto.
      * intros k i Hk Hi. apply E2; auto. lia.
      * intros i Hi. destruct (Nat.eq_dec i m) as [->|]; [exact G2|]. rewrite F2 by auto. apply F. lia.
      * intros i Hi. rewrite F2 by lia. apply G. lia.
  - cbn [bind]. eexists _, _. split; [reflexivity|]. conjs; auto.
Qed.
Lemma loads_ok (pdf ld : fmat R) (dt nk : fvec R) : nr pdf = K -> nc pdf = N -> nr ld = K -> nc ld = N -> vlen dt = N -> vlen nk = K ->
  (forall k i, (k < K)%nat -> (i < N)%nat -> el pdf k i = fdens k i) -> (forall i, (i < N)%nat -> vel dt i = mixed K wts fdens i) ->
  exists ld' nk', loads us pts pdf ld dt nk = Ok (ld', nk') /\ nr ld' = K /\ nc ld' = N /\ vlen nk' = K /\
    (forall k i, (k < K)%nat -> (i < N)%nat -> el ld' k i = gam K wts fdens k i) /\ forall k, (k < K)%nat -> vel nk' k = nks K N wts fdens k.
Proof.
  intros P1 P2 L1 L2 D1 K1 PE DE. unfold loads.
  match goal with |- context [foreach pts ?f ?s0] => destruct (foreach_n (fun m (s : fmat R * fvec R * nat) => let '(ld', nk', i) := s in i = m /\ nr ld' = K /\ nc ld' = N /\ vlen nk' = K /\
    (forall k i, (k < K)%nat -> (i < m)%nat -> el ld' k i = gam K wts fdens k i) /\ (forall k, (k < K)%nat -> vel nk' k = rsum m (fun i => gam K wts fdens k i))) f (zvec 0) pts s0) as (((ld' & nk') & i) & -> & I & A & B & D & E & F) end.
  - conjs; auto; intros; lia.
  - intros m ((pd & dd) & i) Hm (-> & A & B & D & E & F).
    match goal with |- context [foreach us ?f ?s0] => destruct (foreach_n (fun q (s : fmat R * fvec R * nat) => let '(ld', nk', j) := s in j = q /\ nr ld' = K /\ nc ld' = N /\ vlen nk' = K /\
      (forall k i, (k < K)%nat -> (i < m)%nat \/ (i = m /\ (k < q)%nat) -> el ld' k i = gam K wts fdens k i) /\ (forall k, (k < K)%nat -> vel nk' k = rsum (if (k <? q)%nat then S m else m) (fun i => gam K wts fdens k i))) f u0 us s0) as (((pd2 & dd2) & j2) & -> & J & A2 & B2 & D2 & E2 & F2) end.
    + conjs; auto. intros k i Hk [Hi|Hi]; [auto|lia].
    + intros q ((pd1 & dd1) & j) Hq (-> & A1 & B1 & D1' & E1 & F1). rewrite mget_ok by lia. cbn [bind]. rewrite vget_ok by lia. cbn [bind]. rewrite mset_ok by lia. cbn [bind]. rewrite vmod_ok, vset_ok by lia. cbn [bind]. eexists. split; [reflexivity|]. cbv beta iota. cbn [nr nc el vlen vel].
      rewrite PE, DE by auto. conjs; auto.
      * intros k i Hk Hi. destruct (Nat.eqb_spec k q) as [->|]; destruct (Nat.eqb_spec i m) as [->|]; cbn [andb]; auto; apply E1; auto; lia.
      * intros k Hk. destruct (Nat.eqb_spec k q) as [->|].
        -- rewrite F1 by auto. destruct (Nat.ltb_spec q q); [lia|]. destruct (Nat.ltb_spec q (S q)); [|lia]. reflexivity.
        -- rewrite F1 by auto. destruct (Nat.ltb_spec k q), (Nat.ltb_spec k (S q)); auto; lia.
    + subst j2. cbn [bind]. eexists. split; [reflexivity|]. cbv beta iota. conjs; auto.
      * intros k i Hk Hi. apply E2; auto. lia.
      * intros k Hk. rewrite F2 by auto. destruct (Nat.ltb_spec k K); [auto|lia].
  - cbn [bind]. eexists _, _. split; [reflexivity|]. conjs; auto.
Qed.

(** ** the maximization *)
Section Max.
Variables (ld : fmat R) (nk : fvec R).
Hypothesis L1 : nr ld = K.
Hypothesis L2 : nc ld = N.
Hypothesis K1 : vlen nk = K.
Hypothesis LE : forall k i, (k < K)%nat -> (i < N)%nat -> el ld k i = gam K wts fdens k i.
Hypothesis KE : forall k, (k < K)%nat -> vel nk k = nks K N wts fdens k.
Hypothesis HN : (0 < N)%nat.
Hypothesis Hn : (0 < n)%nat.
Hypothesis Hw : forall k, (k < K)%nat -> 0 < wts k.
Hypothesis Hd : forall k, (k < K)%nat -> udet (nth k us u0) = 0 \/ regular n (nth k us u0).
Hypothesis SP : spread n N pnt.
Lemma fdens_pos k i : (k < K)%nat -> (i < N)%nat -> 0 < fdens k i.
Proof. intros Hk Hi. apply udens_pos. auto. Qed.
Lemma nk_pos k : (k < K)%nat -> 0 < nks K N wts fdens k.
Proof. intros Hk. apply nks_pos; auto; [lia|apply fdens_pos]. Qed.
Lemma mean_ok k (c : fvec R) : (k < K)%nat -> vlen c = n -> exists m, loaded_mean 0 pts ld k (nks K N wts fdens k) c = Ok m /\ vlen m = n /\ forall a, vel m a = mu1 K N pnt wts fdens k a.
Proof.
  intros Hk Hc. unfold loaded_mean.
  match goal with |- context [foreach pts ?f ?s0] => destruct (foreach_n (fun m (s : fvec R * nat) => snd s = m /\ vlen (fst s) = n /\ forall a, vel (fst s) a = rsum m (fun i => gam K wts fdens k i * pnt i a)) f (zvec 0) pts s0) as ((c1 & i) & -> & I & A & B) end.
  - cbn. conjs; auto.
  - intros m (c1 & i) Hm (I & A & B). cbn [fst snd] in *. subst i. rewrite mget_ok by lia. cbn [bind]. assert (Hp : vlen (nth m pts (zvec 0)) = n) by (apply SZ, nth_In; auto). rewrite catDRC_ok by lia. cbn [bind]. eexists. split; [reflexivity|]. cbn [fst snd vlen vel]. conjs; auto.
    intros a. rewrite B. cbn [rsum]. rewrite LE by auto. fold (pnt m). rs. unfold pnt. ring.
  - cbn [bind fst snd] in *. pose proof (nk_pos k Hk) as HP. unfold zVecDivDRC. destruct (is_tol 0 (nks K N wts fdens k)) eqn:T; [apply is_tol_0 in T; lra|]. unfold zVecDivNC. rewrite vop1_ok by auto. eexists. split; [reflexivity|]. cbn [vlen vel]. split; auto.
    intros a. rewrite B. unfold mu1. rs. field. lra.
Qed.
Lemma cov_ok k (u : Runit) : (k < K)%nat -> shape n u -> (forall a, vel (ucore u) a = mu1 K N pnt wts fdens k a) ->
  exists u', _zGMMUnitLoadedCov 0 n u pts ld k (nks K N wts fdens k) = Ok u' /\ shape n u' /\ regular n u' /\ ucore u' = ucore u /\ forall a b, (a < n)%nat -> (b < n)%nat -> el (ucov u') a b = cov1 K N pnt wts fdens k a b.
Proof.
  intros Hk (S1 & S2 & S3 & S4 & S5) MU. unfold _zGMMUnitLoadedCov.
  match goal with |- context [foreach pts ?f ?s0] => destruct (foreach_n (fun m (s : fmat R * nat) => snd s = m /\ nr (fst s) = n /\ nc (fst s) = n /\ forall a b, (a < n)%nat -> (b < n)%nat -> el (fst s) a b = rsum m (fun i => gam K wts fdens k i * (pnt i a - mu1 K N pnt wts fdens k a) * (pnt i b - mu1 K N pnt wts fdens k b))) f (zvec 0) pts s0) as ((c1 & i) & -> & I & A & B & C) end.
  - cbn. conjs; auto.
  - intros m (c1 & i) Hm (I & A & B & C). cbn [fst snd] in *. subst i. rewrite mget_ok by lia. cbn [bind]. assert (Hp : vlen (nth m pts (zvec 0)) = n) by (apply SZ, nth_In; auto). rewrite error_ok by auto. cbn [bind]. unfold zVecMulNC. rewrite vop1_ok by auto. cbn [bind].
    match goal with |- context [add_dyad c1 ?v1 ?v2] => destruct (dyad_ok pts n SZ c1 v1 v2) as (c' & E & A' & B' & D') end; auto.
    rewrite E. cbn [bind]. eexists. split; [reflexivity|]. cbn [fst snd]. conjs; auto. intros a b Ha Hb. rewrite D', C by auto. cbn [vel rsum]. rewrite LE by auto. rewrite !MU. fold (pnt m). rs. unfold pnt. ring.
  - cbn [bind fst snd] in *. pose proof (nk_pos k Hk) as HP. unfold mat_div. destruct (is_tol 0 (nks K N wts fdens k)) eqn:T; [apply is_tol_0 in T; lra|]. set (c := FM (nr c1) (nc c1) _).
    assert (CE : forall a b, (a < n)%nat -> (b < n)%nat -> el c a b = cov1 K N pnt wts fdens k a b). { intros a b Ha Hb. cbn [c el]. rewrite C by auto. unfold cov1. rs. field. lra. }
    assert (SC : symmetric n (el c)). { intros a b Ha Hb. rewrite !CE by auto. apply (cov1_sym n); auto. }
    assert (PC : pd n (el c)). { intros v Hv. rewrite (LE6_Proofs.qf_ext n (el c) (cov1 K N pnt wts fdens k) v v) by (intros; rewrite CE by auto; auto). apply cov1_pd; auto; [lia|apply fdens_pos]. }
    destruct (C29_inverse_partial n c (uinv u)) as (X & -> & X1 & X2 & XI); auto; [apply pd_nonsingular; auto|]. cbn [bind]. rewrite (C28_det_exact n c) by auto. cbn [bind]. eexists. split; [reflexivity|]. unfold shape, regular. cbn. conjs; auto.
Qed.
Lemma max_ok : exists us', _zGMMCreateEMMaximize 0 n us pts ld nk = Ok us' /\ length us' = K /\
  forall k, (k < K)%nat -> let u := nth k us' u0 in shape n u /\ regular n u /\ uweight u = w1 K N wts fdens k /\ (forall a, vel (ucore u) a = mu1 K N pnt wts fdens k a) /\
    forall a b, (a < n)%nat -> (b < n)%nat -> el (ucov u) a b = cov1 K N pnt wts fdens k a b.
Proof.
  unfold _zGMMCreateEMMaximize.
  match goal with |- context [foreach us ?f ?s0] => destruct (foreach_n (fun m (s : list Runit * nat) => snd s = m /\ length (fst s) = m /\ forall k, (k < m)%nat -> let u := nth k (fst s) u0 in shape n u /\ regular n u /\ uweight u = w1 K N wts fdens k /\ (forall a, vel (ucore u) a = mu1 K N pnt wts fdens k a) /\
    forall a b, (a < n)%nat -> (b < n)%nat -> el (ucov u) a b = cov1 K N pnt wts fdens k a b) f u0 us s0) as ((us' & i) & -> & I & A & B) end.
  - cbn. conjs; auto. intros; lia.
  - intros m (l & i) Hm (I & A & B). cbn [fst snd] in *. subst i. rewrite vget_ok by lia. cbn [bind]. rewrite KE by auto. assert (SU : shape n (nth m us u0)) by (apply SH, nth_In; auto).
    destruct (mean_ok m (ucore (nth m us u0)) Hm) as (c & -> & C1 & C2); [apply SU|]. cbn [bind].
    match goal with |- context [_zGMMUnitLoadedCov 0 n ?u pts ld m _] => destruct (cov_ok m u Hm) as (u' & -> & U1 & U2 & U3 & U4) end; [destruct SU as (? & ? & ? & ? & ?); unfold shape; cbn; auto|exact C2|]. cbn [bind]. cbn [ucore] in U3.
    eexists. split; [reflexivity|]. cbn [fst snd]. split; auto. rewrite app_length. cbn [length]. split; [lia|]. intros k Hk. destruct (Nat.eq_dec k m) as [->|].
    + rewrite app_nth2 by lia. rewrite A, Nat.sub_diag. cbn [nth]. cbv zeta. unfold shape, regular in *. cbn [ucore ucov uweight uinv udet]. conjs; try tauto; auto.
      * unfold w1. rs. rewrite <- INR_IZR_INZ. reflexivity.
      * intros a. rewrite U3. auto.
    + rewrite app_nth1 by lia. apply B. lia.
  - cbn [bind fst snd] in *. eexists. split; [reflexivity|]. split; auto.
Qed.
End Max.
End Expect.
