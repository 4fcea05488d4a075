(** Exact factorisation, touching up, and the Durand-Kerner-Aberth method. *)
From Coq Require Import Reals Lra.
From Verif Require Import Prelude Prelude_Proofs Scalar RealLib Pex_Model Pex_Spec Complex_Model Complex_Spec Complex_Proofs PexEq_Model PexEq_Spec PexEq_Proofs PexEq2_Proofs.
From Coquelicot Require Import Coquelicot.
Local Open Scope R_scope.

(** ** zero tolerance *)
Lemma small_zero n a fs : small_remainders 0 n a fs -> forall f, In f fs -> fu f = 0 /\ fv f = 0.
Proof.
  intros H. induction H as [n a Hn|a f H1 H2 H3 H4|n a f fs b c Hn Hb Hc Hu Hv Bu Bv H IH]; intros g Hg.
  - destruct Hg.
  - destruct Hg as [<-|[]]; auto.
  - destruct Hg as [<-|Hg]; [|now apply IH]. rewrite Rmult_0_l in Bu, Bv.
    split; [revert Bu|revert Bv]; unfold Rabs; destruct (Rcase_abs _); intros; lra.
Qed.

Lemma nested_no_remainder fs L x : (forall f, In f fs -> fu f = 0 /\ fv f = 0) -> nested fs L x = nested (map no_remainder fs) L x.
Proof.
  induction fs as [|f fs IH]; intros H; cbn [nested map]; auto. rewrite IH by (intros; apply H; now right).
  destruct (H f) as (Hu & Hv); [now left|]. cbn [no_remainder fp fq fu fv]. now rewrite Hu, Hv.
Qed.

Lemma division_recur p q a n b : (2 <= n)%nat -> (forall k, (k <= n)%nat -> b k = divided p q a n k) ->
  quotient_of p q n a b.
Proof.
  intros Hn H. unfold quotient_of. rs. 
  assert (forall m, (m < n)%nat -> division p q a n (S m) = (b (n - S m)%nat, b (n - m)%nat)) as D.
  { intros m Hm. rewrite (H (n - S m)%nat), (H (n - m)%nat) by lia. unfold divided.
    replace (n - (n - S m))%nat with (S m) by lia. replace (n - (n - m))%nat with m by lia.
    cbn [division]. destruct (division p q a n m). reflexivity. }
  assert (b n = a n) as B0 by (rewrite H by lia; unfold divided; rewrite Nat.sub_diag; reflexivity).
  split; auto. split.
  - rewrite H by lia. unfold divided. replace (n - (n - 1))%nat with 1%nat by lia. cbn [division fst].
    rewrite B0. ring.
  - intros k Hk. rewrite H by lia. unfold divided. replace (n - k)%nat with (S (S (n - k - 2))) by lia.
    set (m := (n - k - 2)%nat). change (division p q a n (S (S m))) with (let '(u, v) := division p q a n (S m) in (a (n - S (S m))%nat - p * u - q * v, u)).
    rewrite D by lia. cbn [fst]. unfold m. replace (n - S (S (n - k - 2)))%nat with k by lia. replace (n - S (n - k - 2))%nat with (k + 1)%nat by lia.
    replace (n - (n - k - 2))%nat with (k + 2)%nat by lia. reflexivity.
Qed.

(** without a double zero root no factor is x^2 *)
Lemma small_nonzero n a fs : small_remainders 0 n a fs -> a n <> 0 -> a 0%nat <> 0 \/ a 1%nat <> 0 -> forall f, In f fs -> fp f <> 0 \/ fq f <> 0.
Proof.
  intros H. induction H as [n a Hn|a f H1 H2 H3 H4|n a f fs b c Hn Hb Hc Hu Hv Bu Bv H IH]; intros Hl Hz g Hg.
  - destruct Hg.
  - destruct Hg as [<-|[]]. rewrite H1, H2. unfold Rdiv. destruct Hz as [Hz|Hz]; [right|left]; apply Rmult_integral_contrapositive; split; auto; now apply Rinv_neq_0_compat.
  - assert (fu f = 0 /\ fv f = 0) as (U & V).
    { rewrite Rmult_0_l in Bu, Bv. split; [revert Bu|revert Bv]; unfold Rabs; destruct (Rcase_abs _); intros; lra. }
    destruct (division_recur (fp f) (fq f) a n b) as (Q1 & Q2 & Q3); [lia|auto|]. rs.
    pose proof (Q3 0%nat ltac:(lia)) as E0. pose proof (Q3 1%nat ltac:(lia)) as E1. cbn [Nat.add] in E0, E1.
    rewrite <- Hu, U in E0, E1. rewrite <- Hv, V in E0.
    destruct Hg as [<-|Hg].
    + destruct (Req_dec (fp f) 0) as [Ep|]; [|now left]. right. intros Eq. rewrite Ep, Eq in E0, E1. destruct Hz as [Hz|Hz]; apply Hz; lra.
    + apply IH; auto.
      * replace (n - 2 + 2)%nat with n by lia. congruence.
      * destruct (Req_dec (b (0 + 2)%nat) 0) as [Z0|]; [|now left]. right. intros Z1. cbn [Nat.add] in *. rewrite Z0 in E0, E1. rewrite Z1 in E1.
        destruct Hz as [Hz|Hz]; apply Hz; lra.
Qed.

(** ** touching up *)
Lemma touchup_ok tol (z : C) : 0 <= tol -> touched tol z (zComplexTouchup tol z).
Proof.
  intros Ht. unfold touched, zComplexTouchup, quot_tol, is_tol. rs.
  assert (forall a b, (negb (Reqb b 0) && Rleb (Rabs (a / b)) tol || Rleb (Rabs a) tol)%bool = true -> Rabs a <= tol * Rmax 1 (Rabs b)) as K.
  { intros a b H. pose proof (Rmax_l 1 (Rabs b)). pose proof (Rmax_r 1 (Rabs b)).
    apply Bool.orb_true_iff in H as [H|H].
    - apply andb_prop in H as (Hx & Hy). destruct (Reqb_spec b 0) as [|Hb]; [discriminate|]. destruct (Rleb_spec (Rabs (a / b)) tol) as [H3|]; [|discriminate].
      replace a with (a / b * b) by (field; auto). rewrite Rabs_mult. pose proof (Rabs_pos b). pose proof (Rabs_pos (a / b)). nra.
    - destruct (Rleb_spec (Rabs a) tol) as [H3|]; [|discriminate]. nra. }
  cbn [fst snd]. split.
  - destruct (_ || _)%bool eqn:E at 1 2; [right; split; auto|now left].
  - destruct (_ || _)%bool eqn:E at 1 2; [right; split; auto|now left].
Qed.

Lemma touchup_vec tol (v : list C) : 0 <= tol -> Forall2 (touched tol) v (zCVecTouchup tol v).
Proof. intros Ht. induction v as [|z v IH]; cbn; constructor; auto. now apply touchup_ok. Qed.

(** ** a polynomial with n distinct zeros *)
Lemma csum_shift n (f : nat -> C) : csum (S n) f = Cplus (f 0%nat) (csum n (fun i => f (S i))).
Proof.
  induction n as [|n IH]; [cbn; ring|]. change (csum (S (S n)) f) with (Cplus (csum (S n) f) (f (S n))). rewrite IH. cbn [csum]. ring.
Qed.
Lemma csum_scale n c (f : nat -> C) : csum n (fun i => Cmult c (f i)) = Cmult c (csum n f).
Proof. induction n as [|n IH]; cbn [csum]; [ring|rewrite IH; ring]. Qed.
Definition pv (f : nat -> C) (n : nat) (x : C) : C := csum n (fun i => Cmult (f i) (Cpown x i)).
Lemma pv_shift f n x : pv f (S n) x = Cplus (f 0%nat) (Cmult x (pv (fun i => f (S i)) n x)).
Proof.
  unfold pv. rewrite csum_shift. cbn [Cpown]. rewrite <- csum_scale. f_equal; [ring|]. apply csum_ext. intros; ring.
Qed.
Lemma pv_divide n : forall (f : nat -> C) (z : C), exists g, g n = f (S n) /\ forall x, Cminus (pv f (S (S n)) x) (pv f (S (S n)) z) = Cmult (Cminus x z) (pv g (S n) x).
Proof.
  induction n as [|n IH]; intros f z.
  - exists (fun _ => f 1%nat). split; auto. intros x. unfold pv. cbn. ring.
  - destruct (IH (fun i => f (S i)) z) as (g & Hg & H).
    set (h := fun i => match i with O => pv (fun i => f (S i)) (S (S n)) z | S i => g i end).
    exists h. split; [exact Hg|].
    intros x. rewrite !(pv_shift f), (pv_shift h (S n)).
    transitivity (Cplus (Cmult x (Cminus (pv (fun i => f (S i)) (S (S n)) x) (pv (fun i => f (S i)) (S (S n)) z))) (Cmult (Cminus x z) (pv (fun i => f (S i)) (S (S n)) z))); [ring|].
    rewrite H. change (pv (fun i => h (S i)) (S n) x) with (pv g (S n) x). change (h 0%nat) with (pv (fun i => f (S i)) (S (S n)) z). ring.
Qed.
Lemma Cmult_int (a b : C) : Cmult a b = RtoC 0 -> a = RtoC 0 \/ b = RtoC 0.
Proof.
  intros E. destruct (Req_dec (Cmod a) 0) as [Ha|Ha]; [left; now apply Cmod_eq_0|]. right. apply Cmod_eq_0.
  assert (Cmod a * Cmod b = 0) as M by (rewrite <- Cmod_mult, E; apply Cmod_0). apply Rmult_integral in M. tauto.
Qed.
Lemma distinct_zeros n : forall (f : nat -> C) zs, length zs = n -> NoDup zs -> (forall z, In z zs -> pv f (S n) z = RtoC 0) ->
  forall x, pv f (S n) x = Cmult (f n) (Croots zs x).
Proof.
  induction n as [|n IH]; intros f zs L N H x.
  - destruct zs; [|discriminate]. unfold pv. cbn. ring.
  - destruct zs as [|z zs]; [discriminate|]. destruct (pv_divide n f z) as (g & Hg & D).
    apply NoDup_cons_iff in N as (Nz & N). cbn [length] in L.
    assert (forall y, pv f (S (S n)) y = Cmult (Cminus y z) (pv g (S n) y)) as D'.
    { intros y. rewrite <- D, (H z) by now left. ring. }
    rewrite D', (IH g zs); [|lia|auto|].
    + rewrite Hg. unfold Croots. cbn [fold_right]. ring.
    + intros y Hy. pose proof (H y (or_intror Hy)) as E. rewrite D' in E. apply Cmult_int in E as [E|E]; auto.
      exfalso. apply Nz. replace z with y; auto. transitivity (Cplus (Cminus y z) z); [ring|]. rewrite E. ring.
Qed.

(** ** Durand-Kerner-Aberth *)
Lemma getZ_of_nat {A} (l : list A) n : getZ l (Z.of_nat n) = get l n.
Proof. unfold getZ. destruct (Z.ltb_spec (Z.of_nat n) 0); [lia|]. now rewrite Nat2Z.id. Qed.
Lemma pexcval_ok (a : list R) (z : C) : (0 < length a)%nat -> pexcval a z = Ok (Cpeval a z).
Proof.
  intros Ha. unfold pexcval. replace (Z.of_nat (length a) - 1)%Z with (Z.of_nat (length a - 1)) by lia. rewrite getZ_of_nat.
  rewrite (get_ok _ _ s0) by lia. cbn [bind]. set (n := (length a - 1)%nat).
  destruct (for_down_inv (fun k (c : R * R) => c = csum (S n - k) (fun i => Cmult (RtoC (coef a (k + i))) (Cpown z i))) n
    (fun i c => y <- get a i ;; let tmp := cmulv c z in Ok (sadd y (fst tmp), snd tmp)) (nth n a 0, 0)) as (s & E & H).
  - replace (S n - n)%nat with 1%nat by lia. cbn [csum Cpown]. rewrite Nat.add_0_r. unfold coef. apply C_eq; cbn; ring.
  - intros k s Hk Hs. rewrite (get_ok _ _ s0) by lia. cbn [bind]. eexists; split; [reflexivity|]. 
    replace (S n - k)%nat with (S (S n - S k)) by lia. rewrite csum_shift.
    rewrite (csum_ext _ (fun i => Cmult (RtoC (coef a (k + S i))) (Cpown z (S i))) (fun i => Cmult z (Cmult (RtoC (coef a (S k + i))) (Cpown z i)))).
    + rewrite csum_scale, <- Hs, Nat.add_0_r. unfold cmulv. rs. destruct s as [u v], z as [x y]. unfold coef. apply C_eq; cbn; ring.
    + intros i Hi. replace (k + S i)%nat with (S k + i)%nat by lia. cbn [Cpown]. ring.
  - etransitivity; [exact E|]. f_equal. rewrite H. unfold Cpeval. f_equal. lia.
Qed.

Lemma for_pres {St} (P : St -> Prop) lo hi f (s s' : St) : P s -> (forall k s s', f k s = Ok s' -> P s -> P s') -> for_ lo hi f s = Ok s' -> P s'.
Proof.
  unfold for_. intros H0 Hs. generalize (hi - lo)%nat as n. intros n. revert lo s H0. induction n as [|n IH]; intros lo s H0 E; cbn in E.
  - inversion E. now subst.
  - apply bind_ok in E as (s1 & E1 & E2). eapply IH; [|exact E2]. eapply Hs; eauto.
Qed.

Lemma dka_eval_ok tol (a : list R) n (ans p : list C) : (0 < length a)%nat -> (n <= length ans)%nat -> (n <= length p)%nat ->
  exists flag p', dka_eval tol a n ans p = Ok (flag, p') /\ length p' = length p /\
    (flag = true -> forall i, (i < n)%nat -> let v := Cpeval a (nth i ans (RtoC 0)) in Rabs (fst v) <= tol /\ Rabs (snd v) <= tol).
Proof.
  intros Ha Hans Hp. unfold dka_eval.
  destruct (for_inv (fun k (s : bool * list (R * R)) => length (snd s) = length p /\ (fst s = true -> forall i, (i < k)%nat ->
      let v := Cpeval a (nth i ans (RtoC 0)) in Rabs (fst v) <= tol /\ Rabs (snd v) <= tol)) 0 n
    (fun i '(flag, p) => z <- get ans i ;; v <- pexcval a z ;; p <- set p i v ;;
      Ok ((flag && (is_tol tol (fst v) && is_tol tol (snd v)))%bool, p)) (true, p)) as ((flag & p') & E & L & H).
  - lia.
  - cbn. split; auto. intros; lia.
  - intros k [fl s] Hk (L & H). cbn [fst snd] in *. rewrite (get_ok ans k (RtoC 0)) by (unfold C in *; lia). cbn [bind]. rewrite pexcval_ok by auto. cbn [bind].
    rewrite set_ok by (unfold C in *; lia). cbn [bind]. eexists; split; [reflexivity|]. cbn [fst snd]. rewrite upd_length. split; auto.
    intros Hf i Hi. apply andb_prop in Hf as (F1 & F2). apply andb_prop in F2 as (F2 & F3). destruct (Nat.eq_dec i k) as [->|].
    + unfold is_tol in F2, F3. rs. destruct (Rleb_spec (Rabs (fst (Cpeval a (nth k ans (RtoC 0))))) tol); [|discriminate].
      destruct (Rleb_spec (Rabs (snd (Cpeval a (nth k ans (RtoC 0))))) tol); [|discriminate]. now split.
    + apply H; auto. lia.
  - exists flag, p'. auto.
Qed.

Definition kept (n : nat) (ans ans' : list C) : Prop := length ans' = length ans /\ forall i, (n <= i)%nat -> nth i ans' (RtoC 0) = nth i ans (RtoC 0).

Lemma dka_update_ok n (ans p ans' : list C) : dka_update n ans p = Ok ans' -> kept n ans ans'.
Proof.
  unfold dka_update, for_. rewrite Nat.sub_0_r. 
  assert (forall m lo (s : list (R * R)), (lo + m <= n)%nat -> kept n ans s -> loop m lo (fun i ans => x <- get ans i ;; y <- get p i ;; set ans i (csubl x y)) s = Ok ans' -> kept n ans ans') as K.
  { induction m as [|m IH]; intros lo s Hm Hk E; cbn in E.
    - inversion E; now subst.
    - apply bind_ok in E as (s1 & E1 & E2). apply bind_ok in E1 as (x & _ & E1). apply bind_ok in E1 as (y & _ & E1).
      apply set_inv in E1 as (H1 & ->). eapply IH; [|  |exact E2]; [lia|]. destruct Hk as (L & Hk). split; [rewrite upd_length; auto|].
      intros i Hi. rewrite nth_upd_neq by lia. auto. }
  apply K; [lia|]. split; auto.
Qed.
Lemma dka_delta_length ztol (a : list R) n (ans p p' : list C) : dka_delta ztol a n ans p = Ok p' -> length p' = length p.
Proof.
  unfold dka_delta. apply (for_pres (fun s : list C => length s = length p)); auto. intros k s s' E L.
  apply bind_ok in E as (s1 & E1 & E). apply bind_ok in E as (w & _ & E). apply bind_ok in E as (c & _ & E).
  assert (length s1 = length s) as L1.
  { revert E1. apply (for_pres (fun s1 : list C => length s1 = length s)); auto. intros j t t' Et Lt. destruct (j =? k)%nat; [inversion Et; now subst|].
    apply bind_ok in Et as (? & _ & Et). apply bind_ok in Et as (? & _ & Et). apply bind_ok in Et as (? & _ & Et). apply bind_ok in Et as (? & _ & Et).
    apply set_inv in Et as (_ & ->). now rewrite upd_length. }
  destruct (is_tol ztol c); [inversion E; subst; unfold C in *; congruence|]. apply set_inv in E as (_ & ->). rewrite upd_length. unfold C in *; congruence.
Qed.

Lemma dka_loop_ok ztol tol (a : list R) n k : (0 < length a)%nat -> forall (ans p ans' : list C), (n <= length ans)%nat -> (n <= length p)%nat ->
  dka_loop ztol k tol a n ans p = Ok (ans', false) ->
  kept n ans ans' /\ forall i, (i < n)%nat -> let v := Cpeval a (nth i ans' (RtoC 0)) in Rabs (fst v) <= tol /\ Rabs (snd v) <= tol.
Proof.
  intros Ha. induction k as [|k IH]; intros ans p ans' Hans Hp E; cbn [dka_loop] in E; [discriminate|].
  destruct (dka_eval_ok tol a n ans p Ha Hans Hp) as (flag & p' & E1 & L & H). rewrite E1 in E. cbn [bind] in E. destruct flag.
  - inversion E; subst. split; [split; auto|]. exact (H eq_refl).
  - apply bind_ok in E as (p2 & E2 & E). apply bind_ok in E as (an & E3 & E).
    pose proof (dka_delta_length _ _ _ _ _ _ E2) as L2. pose proof (dka_update_ok _ _ _ _ E3) as (L3 & K3).
    destruct (IH an p2 ans') as ((L4 & K4) & H4); [unfold C in *; lia|unfold C in *; lia|auto|]. split; auto. split; [unfold C in *; lia|].
    intros i Hi. rewrite K4, K3; auto.
Qed.

Lemma dka_init_ok n s r0 cosr sinr pix2 c15 (ans ans' : list C) : dka_init cosr sinr pix2 c15 n s r0 ans = Ok ans' -> kept n ans ans'.
Proof.
  unfold dka_init, for_. rewrite Nat.sub_0_r. intros E.
  assert (forall m lo (s1 : list (R * R)), (lo + m <= n)%nat -> kept n ans s1 ->
    loop m lo (fun i ans => let t := ((pix2 * nofn i + c15) / nofn n)%S in set ans i (r0 * cosr t - s, r0 * sinr t)%S) s1 = Ok ans' -> kept n ans ans') as K.
  { induction m as [|m IH]; intros lo s1 Hm Hk E1; cbn in E1.
    - inversion E1; now subst.
    - apply bind_ok in E1 as (s2 & E2 & E3).
      apply set_inv in E2 as (H1 & ->). eapply IH; [|  |exact E3]; [lia|]. destruct Hk as (L & Hk). split; [rewrite upd_length; auto|].
      intros i Hi. rewrite nth_upd_neq by lia. auto. }
  eapply K; [|  |exact E]; [lia|]. split; auto.
Qed.

(** ** one step of the iteration *)
Lemma dka_eval_val tol (a : list R) n (ans p : list C) flag p' : (0 < length a)%nat -> (n <= length ans)%nat -> length p = n ->
  dka_eval tol a n ans p = Ok (flag, p') -> length p' = n /\ forall i, (i < n)%nat -> nth i p' (RtoC 0) = Cpeval a (nth i ans (RtoC 0)).
Proof.
  intros Ha Hans Hp E. unfold dka_eval in E.
  destruct (for_inv (fun k (s : bool * list (R * R)) => length (snd s) = n /\ forall i, (i < k)%nat ->
      nth i (snd s) (RtoC 0) = Cpeval a (nth i ans (RtoC 0))) 0 n
    (fun i '(flag, p) => z <- get ans i ;; v <- pexcval a z ;; p <- set p i v ;;
      Ok ((flag && (is_tol tol (fst v) && is_tol tol (snd v)))%bool, p)) (true, p)) as ((flag' & q) & E' & L & H).
  - lia.
  - cbn. split; [exact Hp|]. intros; lia.
  - intros k [fl s] Hk (L & H). cbn [fst snd] in *. rewrite (get_ok ans k (RtoC 0)) by (unfold C in *; lia). cbn [bind]. rewrite pexcval_ok by auto. cbn [bind].
    rewrite set_ok by (unfold C in *; lia). cbn [bind]. eexists; split; [reflexivity|]. cbn [fst snd]. rewrite upd_length. split; auto.
    intros i Hi. destruct (Nat.eq_dec i k) as [->|].
    + rewrite nth_upd_eq by (unfold C in *; lia). reflexivity.
    + rewrite nth_upd_neq by lia. apply H. lia.
  - assert (Ok (flag', q) = Ok (flag, p')) as Eq by (etransitivity; [symmetry; exact E'|exact E]).
    inversion Eq; subst. cbn [snd] in *. split; auto.
Qed.

Lemma Cminus_eq (x y : C) : csubl x y = Cminus x y.
Proof. unfold csubl. rs. apply C_eq; cbn; ring. Qed.

Lemma cdivl_ok ztol (w d v : C) : 0 <= ztol -> cdivl ztol w d = Ok v -> d <> RtoC 0 /\ v = Cmult w (Cinv d).
Proof.
  intros Hz. unfold cdivl. intros E. destruct (inv_local ztol d) as [cc|] eqn:I; [|discriminate]. inversion E; subst. clear E.
  unfold inv_local, is_tol in I. rs. destruct (Rleb_spec (Rabs (sqrabs d)) ztol) as [|Hd]; [discriminate|]. inversion I; subst. clear I.
  rewrite Rabs_pos_eq in Hd by apply sqrabs_nonneg. assert (sqrabs d <> 0) as Hn by lra. split.
  - intros ->. apply Hn. unfold sqrabs. rs. cbn. ring.
  - rewrite (Cinv_eq d Hn). unfold cmulv. rs. apply C_eq; cbn; ring.
Qed.

Lemma differences_neq z zs i n : (forall j, (j < n)%nat -> j <> i -> Cminus z (nth j zs (RtoC 0)) <> RtoC 0) -> differences z zs i n <> RtoC 0.
Proof.
  induction n as [|n IH]; intros H; cbn [differences].
  - intros E. apply (f_equal fst) in E. cbn in E. lra.
  - destruct (Nat.eqb_spec n i) as [->|Hn]; [apply IH; intros; apply H; lia|]. apply Cmult_neq_0; [apply IH; intros; apply H; lia|apply H; lia].
Qed.

Lemma cget (l : list C) k x : @get (R * R) l k = Ok x -> x = nth k l (RtoC 0).
Proof. intros E. apply get_inv in E as (_ & E). symmetry. apply nth_error_nth. exact E. Qed.

Lemma dka_delta_val ztol (a : list R) n (ans p p' : list C) : 0 <= ztol -> (n < length a)%nat -> (n <= length ans)%nat -> length p = n ->
  ztol < Rabs (coef a n) ->
  dka_delta ztol a n ans p = Ok p' ->
  length p' = n /\ forall i, (i < n)%nat -> differences (nth i ans (RtoC 0)) ans i n <> RtoC 0 /\
    nth i p' (RtoC 0) = Cdiv (nth i p (RtoC 0)) (Cmult (RtoC (coef a n)) (differences (nth i ans (RtoC 0)) ans i n)).
Proof.
  intros Hz Ha Hans Hp Hk E.
  assert (coef a n <> 0) as Hc by (intros E0; rewrite E0, Rabs_R0 in Hk; lra).
  unfold dka_delta, for_ in E. rewrite Nat.sub_0_r in E.
  set (inner := fun k (p : list (R * R)) => loop n 0 (fun j p =>
        if (j =? k)%nat then Ok p
        else x <- get ans k ;; y <- get ans j ;; w <- get p k ;; w <- cdivl ztol w (csubl x y) ;; set p k w) p).
  assert (forall k (s s1 : list C), length s = n -> (k < n)%nat -> inner k s = Ok s1 -> length s1 = n /\
    (forall j, j <> k -> nth j s1 (RtoC 0) = nth j s (RtoC 0)) /\
    differences (nth k ans (RtoC 0)) ans k n <> RtoC 0 /\ nth k s1 (RtoC 0) = Cdiv (nth k s (RtoC 0)) (differences (nth k ans (RtoC 0)) ans k n)) as In.
  { intros k s s1 Ls Hkn. unfold inner. set (z := nth k ans (RtoC 0)).
    assert (forall m lo t, (lo + m <= n)%nat -> length t = n -> (forall j, j <> k -> nth j t (RtoC 0) = nth j s (RtoC 0)) ->
      differences z ans k lo <> RtoC 0 -> nth k t (RtoC 0) = Cdiv (nth k s (RtoC 0)) (differences z ans k lo) ->
      loop m lo (fun j p => if (j =? k)%nat then Ok p else x <- get ans k ;; y <- get ans j ;; w <- get p k ;; w <- cdivl ztol w (csubl x y) ;; set p k w) t = Ok s1 ->
      length s1 = n /\ (forall j, j <> k -> nth j s1 (RtoC 0) = nth j s (RtoC 0)) /\
      differences z ans k (lo + m) <> RtoC 0 /\ nth k s1 (RtoC 0) = Cdiv (nth k s (RtoC 0)) (differences z ans k (lo + m))) as Lp.
    { induction m as [|m IH]; intros lo t Hm Lt Ho Hd Hv El; cbn [loop] in El.
      - inversion El; subst. rewrite Nat.add_0_r. auto.
      - apply bind_ok in El as (t1 & E1 & E2). replace (lo + S m)%nat with (S lo + m)%nat by lia.
        destruct (Nat.eqb_spec lo k) as [->|Hne].
        + inversion E1; subst t1. apply (IH (S k) t); auto; [lia| |]; cbn [differences]; rewrite Nat.eqb_refl; auto.
        + apply bind_ok in E1 as (x & Gx & E1). apply bind_ok in E1 as (y & Gy & E1). apply bind_ok in E1 as (w & Gw & E1). apply bind_ok in E1 as (w' & Cw & E1).
          apply cget in Gx. apply cget in Gy. apply cget in Gw. subst x y w.
          rewrite Cminus_eq in Cw. apply cdivl_ok in Cw as (Nz & ->); auto. apply set_inv in E1 as (Hl & ->).
          apply (IH (S lo) (upd t k _)) in E2; auto.
          * lia.
          * now rewrite upd_length.
          * intros j Hj. rewrite nth_upd_neq by auto. auto.
          * cbn [differences]. destruct (Nat.eqb_spec lo k); [contradiction|]. apply Cmult_neq_0; auto.
          * rewrite nth_upd_eq by auto. cbn [differences]. destruct (Nat.eqb_spec lo k); [contradiction|]. rewrite Hv. fold z. field. auto. }
    intros El. apply (Lp n 0%nat s); auto; cbn [differences].
    - intros E0. apply (f_equal fst) in E0. cbn in E0. lra.
    - field. intros E0. apply (f_equal fst) in E0. cbn in E0. lra. }
  assert (forall m lo t, (lo + m <= n)%nat -> length t = n -> (forall j, (lo <= j)%nat -> nth j t (RtoC 0) = nth j p (RtoC 0)) ->
    (forall i, (i < lo)%nat -> differences (nth i ans (RtoC 0)) ans i n <> RtoC 0 /\
      nth i t (RtoC 0) = Cdiv (nth i p (RtoC 0)) (Cmult (RtoC (coef a n)) (differences (nth i ans (RtoC 0)) ans i n))) ->
    loop m lo (fun i p => p <- inner i p ;; w <- get p i ;; k <- get a n ;;
      if is_tol ztol k then Ok p else set p i (smul (fst w) (sdiv s1 k), smul (snd w) (sdiv s1 k))) t = Ok p' ->
    length p' = n /\ forall i, (i < lo + m)%nat -> differences (nth i ans (RtoC 0)) ans i n <> RtoC 0 /\
      nth i p' (RtoC 0) = Cdiv (nth i p (RtoC 0)) (Cmult (RtoC (coef a n)) (differences (nth i ans (RtoC 0)) ans i n))) as Lp.
  { induction m as [|m IH]; intros lo t Hm Lt Ho Hd El; cbn [loop] in El.
    - inversion El; subst. rewrite Nat.add_0_r. auto.
    - apply bind_ok in El as (t1 & E1 & E2). replace (lo + S m)%nat with (S lo + m)%nat by lia.
      apply bind_ok in E1 as (t2 & Ei & E1). destruct (In lo t t2 Lt) as (L2 & O2 & N2 & V2); [lia|exact Ei|].
      apply bind_ok in E1 as (w & Gw & E1). apply bind_ok in E1 as (k & Gk & E1).
      apply cget in Gw. rewrite (get_ok a n s0) in Gk by lia. inversion Gk; subst w k. clear Gk.
      unfold is_tol in E1. rs. change (nth n a 0) with (coef a n) in E1. destruct (Rleb_spec (Rabs (coef a n)) ztol); [lra|].
      apply set_inv in E1 as (Hl & ->). apply (IH (S lo) (upd t2 lo _)) in E2; auto.
      + lia.
      + now rewrite upd_length.
      + intros j Hj. rewrite nth_upd_neq by lia. rewrite O2 by lia. apply Ho. lia.
      + intros i Hi. destruct (Nat.eq_dec i lo) as [->|].
        * split; auto. rewrite nth_upd_eq by auto. rewrite V2, Ho by lia.
          assert (RtoC (coef a n) <> RtoC 0) as Hc' by (intros E0; apply Hc; now apply (f_equal fst) in E0).
          transitivity (Cmult (Cdiv (nth lo p (RtoC 0)) (differences (nth lo ans (RtoC 0)) ans lo n)) (RtoC (1 / coef a n))).
          { destruct (Cdiv _ _) as [u v]. apply C_eq; cbn; ring. }
          unfold Rdiv. rewrite Rmult_1_l, RtoC_inv by auto. field. auto.
        * rewrite nth_upd_neq by lia. rewrite O2 by lia. apply Hd. lia. }
  apply (Lp n 0%nat p); auto; intros; lia.
Qed.

Lemma dka_update_val n (ans p ans' : list C) : (n <= length ans)%nat -> length p = n -> dka_update n ans p = Ok ans' ->
  length ans' = length ans /\ (forall i, (n <= i)%nat -> nth i ans' (RtoC 0) = nth i ans (RtoC 0)) /\
  forall i, (i < n)%nat -> nth i ans' (RtoC 0) = Cminus (nth i ans (RtoC 0)) (nth i p (RtoC 0)).
Proof.
  intros Hans Hp E. destruct (dka_update_ok _ _ _ _ E) as (L & K). split; auto. split; auto.
  unfold dka_update in E.
  destruct (for_inv (fun k (s : list (R * R)) => length s = length ans /\ (forall i, (k <= i)%nat -> nth i s (RtoC 0) = nth i ans (RtoC 0)) /\
      forall i, (i < k)%nat -> nth i s (RtoC 0) = Cminus (nth i ans (RtoC 0)) (nth i p (RtoC 0))) 0 n
    (fun i ans => x <- get ans i ;; y <- get p i ;; set ans i (csubl x y)) ans) as (q & E' & _ & _ & H).
  - lia.
  - repeat split; auto. intros; lia.
  - intros k s Hk (Ls & H1 & H2). rewrite (get_ok s k (RtoC 0)) by (unfold C in *; lia). cbn [bind]. rewrite (get_ok p k (RtoC 0)) by (unfold C in *; lia). cbn [bind].
    rewrite set_ok by (unfold C in *; lia). eexists; split; [reflexivity|]. rewrite upd_length. split; auto. split.
    + intros i Hi. rewrite nth_upd_neq by lia. apply H1. lia.
    + intros i Hi. destruct (Nat.eq_dec i k) as [->|].
      * rewrite nth_upd_eq by (unfold C in *; lia). rewrite Cminus_eq, H1 by lia. reflexivity.
      * rewrite nth_upd_neq by lia. apply H2. lia.
  - assert (Ok q = Ok ans') as Eq by (etransitivity; [symmetry; exact E'|exact E]). inversion Eq; now subst.
Qed.

Lemma dka_loop_steps ztol tol (a : list R) n : 0 <= ztol -> (n < length a)%nat -> ztol < Rabs (coef a n) -> forall iter (ans p out : list C) w,
  (n <= length ans)%nat -> length p = n -> dka_loop ztol iter tol a n ans p = Ok (out, w) ->
  exists k, (k <= iter)%nat /\ (w = true -> k = iter) /\ weierstrass a n k ans out.
Proof.
  intros Hz Ha Hc. induction iter as [|iter IH]; intros ans p out w Hans Hp E; cbn [dka_loop] in E.
  - inversion E; subst. exists 0%nat. repeat split; auto. constructor.
  - apply bind_ok in E as ([flag p1] & E1 & E). destruct (dka_eval_val tol a n ans p flag p1) as (L1 & V1); auto; [lia|]. destruct flag.
    + inversion E; subst. exists 0%nat. repeat split; [lia|discriminate|constructor].
    + apply bind_ok in E as (p2 & E2 & E). apply bind_ok in E as (an & E3 & E).
      destruct (dka_delta_val ztol a n ans p1 p2) as (L2 & V2); auto.
      destruct (dka_update_val n ans p2 an) as (L3 & K3 & V3); auto.
      destruct (IH an p2 out w) as (k & Hk & Hw & W); auto; [unfold C in *; lia|].
      exists (S k). repeat split; [lia|intros; f_equal; auto|]. eapply ws_step; [exact L3|exact K3| |exact W].
      intros i Hi z. destruct (V2 i Hi) as (N & V). split; auto. rewrite V3, V, V1 by auto. reflexivity.
Qed.

Lemma dka_init_val n s r0 (cosr sinr : R -> R) pix2 c15 (ans ans' : list C) : (n <= length ans)%nat ->
  dka_init cosr sinr pix2 c15 n s r0 ans = Ok ans' ->
  forall i, (i < n)%nat -> let t := (pix2 * INR i + c15) / INR n in nth i ans' (RtoC 0) = (r0 * cosr t - s, r0 * sinr t).
Proof.
  intros Hans E. unfold dka_init in E.
  destruct (for_inv (fun k (s1 : list (R * R)) => length s1 = length ans /\ forall i, (i < k)%nat ->
     let t := (pix2 * INR i + c15) / INR n in nth i s1 (RtoC 0) = (r0 * cosr t - s, r0 * sinr t)) 0 n
    (fun i ans => let t := ((pix2 * nofn i + c15) / nofn n)%S in set ans i (r0 * cosr t - s, r0 * sinr t)%S) ans) as (q & E' & _ & H).
  - lia.
  - split; auto. intros; lia.
  - intros k s1 Hk (L & H). cbn zeta. rewrite set_ok by (unfold C in *; lia). eexists; split; [reflexivity|]. rewrite upd_length. split; auto.
    intros i Hi. destruct (Nat.eq_dec i k) as [->|].
    + cbn zeta. rewrite nth_upd_eq by (unfold C in *; lia). unfold nofn. rs. rewrite <- !INR_IZR_INZ. reflexivity.
    + rewrite nth_upd_neq by lia. apply H. lia.
  - assert (Ok q = Ok ans') as Eq by (etransitivity; [symmetry; exact E'|exact E]). inversion Eq; now subst.
Qed.
Lemma dka_radius_shift (powr : R -> R -> R) (a : list R) n s r0 : (1 <= n)%nat -> (n < length a)%nat -> dka_radius powr a n = Ok (s, r0) -> s = coef a (n - 1) / (coef a n * INR n).
Proof.
  intros Hn Ha E. unfold dka_radius in E. replace (Z.of_nat n - 1)%Z with (Z.of_nat (n - 1)) in E by lia. rewrite getZ_of_nat in E.
  rewrite !(get_ok a _ s0) in E by lia. cbn [bind] in E. apply bind_ok in E as (b & _ & E). destruct b as [b|]; [|discriminate].
  apply bind_ok in E as (r & _ & E). unfold nofn in E. rs. rewrite <- INR_IZR_INZ in E. inversion E. reflexivity.
Qed.
