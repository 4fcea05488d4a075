(** The Bairstow-Hitchcock method over the real numbers. *)
From Coq Require Import Reals Lra.
From Verif Require Import Prelude Prelude_Proofs Scalar RealLib Pex_Model Pex_Spec Complex_Model Complex_Spec Complex_Proofs PexEq_Model PexEq_Spec PexEq_Proofs.
From Coquelicot Require Import Coquelicot.
Local Open Scope R_scope.

Lemma csum_ext n (f g : nat -> C) : (forall i, (i < n)%nat -> f i = g i) -> csum n f = csum n g.
Proof. induction n as [|n IH]; intros H; cbn [csum]; auto. rewrite IH, H by (intros; try apply H; lia). reflexivity. Qed.

(** the identity behind the division *)
Lemma division_identity (p q : R) (b : nat -> R) (x : C) m :
  csum m (fun i => Cmult (RtoC (b i + p * b (i + 1)%nat + q * b (i + 2)%nat)) (Cpown x i)) =
  Cminus (Cplus (Cmult (Cplus (Cplus (Cmult x x) (Cmult (RtoC p) x)) (RtoC q)) (csum m (fun j => Cmult (RtoC (b (j + 2)%nat)) (Cpown x j))))
                (Cplus (Cmult (RtoC (b 1%nat)) (Cplus x (RtoC p))) (RtoC (b 0%nat))))
         (Cmult (Cpown x m) (Cplus (Cmult (RtoC (b (m + 1)%nat)) (Cplus x (RtoC p))) (RtoC (b m)))).
Proof.
  induction m as [|m IH]; cbn [csum Cpown].
  - cbn [Nat.add]. ring.
  - rewrite IH. replace (S m + 1)%nat with (m + 2)%nat by lia. replace (S m) with (m + 1)%nat by lia.
    rewrite !RtoC_plus, !RtoC_mult. ring.
Qed.

Lemma csum_tail0 n m (f : nat -> C) : (forall i, (n <= i < n + m)%nat -> f i = RtoC 0) -> csum (n + m) f = csum n f.
Proof.
  induction m as [|m IH]; intros H; [now rewrite Nat.add_0_r|]. rewrite Nat.add_succ_r. cbn [csum].
  rewrite IH by (intros; apply H; lia). rewrite H by lia. ring.
Qed.

Lemma quotient_identity p q n (a b : nat -> R) (x : C) : (2 <= n)%nat -> quotient_of p q n a b ->
  csum (n + 1) (fun i => Cmult (RtoC (a i)) (Cpown x i)) =
  Cplus (Cmult (Cplus (Cplus (Cmult x x) (Cmult (RtoC p) x)) (RtoC q)) (csum (n - 1) (fun j => Cmult (RtoC (b (j + 2)%nat)) (Cpown x j))))
        (Cplus (Cmult (RtoC (b 1%nat)) (Cplus x (RtoC p))) (RtoC (b 0%nat))).
Proof.
  intros Hn (H1 & H2 & H3). rs. set (g k := if (k <=? n)%nat then b k else 0).
  assert (forall k, (k <= n)%nat -> g k = b k) as G by (intros; unfold g; now destruct (Nat.leb_spec k n); [|lia]).
  assert (forall k, (n < k)%nat -> g k = 0) as G0 by (intros; unfold g; now destruct (Nat.leb_spec k n); [lia|]).
  pose proof (division_identity p q g x (n + 1)) as E.
  rewrite (csum_ext (n + 1) _ (fun i => Cmult (RtoC (a i)) (Cpown x i))) in E.
  - rewrite E, (G0 (n + 1 + 1)%nat), (G0 (n + 1)%nat), (G 1%nat), (G 0%nat) by lia.
    replace (csum (n + 1) (fun j => Cmult (RtoC (g (j + 2)%nat)) (Cpown x j))) with (csum (n - 1) (fun j => Cmult (RtoC (b (j + 2)%nat)) (Cpown x j))).
    + ring.
    + replace (n + 1)%nat with (n - 1 + 2)%nat by lia. rewrite csum_tail0.
      * apply csum_ext. intros; rewrite G by lia; reflexivity.
      * intros i Hi. rewrite G0 by lia. ring.
  - intros i Hi. f_equal. f_equal. destruct (Nat.eq_dec i n) as [->|]; [|destruct (Nat.eq_dec i (n - 1)) as [->|]].
    + rewrite G, !G0, H1 by lia. ring.
    + replace (n - 1 + 1)%nat with n by lia. rewrite G, (G n), G0, H2 by lia. ring.
    + rewrite !G by lia. rewrite (H3 i) by lia. ring.
Qed.

Lemma quotient_divided p q n (a b : nat -> R) : (1 <= n)%nat -> quotient_of p q n a b ->
  forall k, (k <= n)%nat -> b k = divided p q a n k.
Proof.
  intros Hn (H1 & H2 & H3). rs. unfold divided.
  assert (forall m, (m <= n)%nat -> division p q a n m = (b (n - m)%nat, if (m =? 0)%nat then 0 else b (n - m + 1)%nat)) as D.
  { induction m as [|m IH]; intros Hm; cbn [division].
    - rewrite Nat.sub_0_r, H1. reflexivity.
    - rewrite IH by lia. cbn [Nat.eqb]. destruct m as [|m].
      + cbn [Nat.eqb]. rewrite Nat.sub_0_r, H2. replace (n - 1 + 1)%nat with n by lia. f_equal. ring.
      + cbn [Nat.eqb]. rewrite (H3 (n - S (S m))%nat) by lia.
        replace (n - S (S m) + 1)%nat with (n - S m)%nat by lia. replace (n - S (S m) + 2)%nat with (n - S m + 1)%nat by lia. reflexivity. }
  intros k Hk. rewrite D by lia. cbn. f_equal. lia.
Qed.

Lemma divided_ext p q (a a' : nat -> R) n k : (forall i, (i <= n)%nat -> a i = a' i) -> divided p q a n k = divided p q a' n k.
Proof.
  intros H. unfold divided. f_equal. induction (n - k)%nat as [|m IH]; cbn [division]; rewrite ?IH, ?H by lia; auto.
Qed.

Lemma small_ext tol n a fs : small_remainders tol n a fs -> forall a', (forall i, (i <= n)%nat -> a i = a' i) -> small_remainders tol n a' fs.
Proof.
  intros H. induction H as [n a Hn|a f H1 H2 H3 H4|n a f fs b c Hn Hb Hc Hu Hv Bu Bv H IH]; intros a' E.
  - now constructor.
  - constructor; auto; rewrite <- !E by lia; auto.
  - apply sr_factor with (b := b) (c := c); auto. intros k Hk. rewrite Hb by lia. now apply divided_ext.
Qed.

Lemma Croots_app a b x : Croots (a ++ b) x = Cmult (Croots a x) (Croots b x).
Proof. unfold Croots. induction a as [|z a IH]; cbn [app fold_right]; [ring|rewrite IH; ring]. Qed.

Lemma firstn_two {A} (d : A) n l : (n + 2 <= length l)%nat -> firstn (n + 2) l = firstn n l ++ nth n l d :: nth (n + 1) l d :: nil.
Proof.
  revert l; induction n as [|n IH]; intros [|y l] H; cbn in *; try lia.
  - destruct l as [|z l]; cbn in *; [lia|reflexivity].
  - f_equal. apply IH. lia.
Qed.

(** the corrections in terms of the remainder *)
Lemma delta_small tol b0 b1 c0 c1 c2 det d : 0 <= tol -> det = c1 * c1 + (b1 - c0) * c2 -> det <> 0 -> d = 1 / det ->
  Rabs ((b1 * c1 - b0 * c2) * d) <= tol -> Rabs ((b0 * c1 + b1 * (b1 - c0)) * d) <= tol ->
  Rabs b1 <= tol * (Rabs c1 + Rabs c2) /\ Rabs b0 <= tol * (Rabs c1 + Rabs (b1 - c0)).
Proof.
  intros Ht Ed Hd -> H1 H2. set (dp := (b1 * c1 - b0 * c2) * (1 / det)) in *. set (dq := (b0 * c1 + b1 * (b1 - c0)) * (1 / det)) in *.
  assert (b1 = c1 * dp + c2 * dq) as E1.
  { replace (c1 * dp + c2 * dq) with (b1 * (c1 * c1 + (b1 - c0) * c2) / det) by (unfold dp, dq; field; auto). rewrite <- Ed. field; auto. }
  assert (b0 = c1 * dq - (b1 - c0) * dp) as E0.
  { replace (c1 * dq - (b1 - c0) * dp) with (b0 * (c1 * c1 + (b1 - c0) * c2) / det) by (unfold dp, dq; field; auto). rewrite <- Ed. field; auto. }
  clearbody dp dq. assert (forall u v w, Rabs v <= tol -> Rabs w <= tol -> forall y, Rabs (u * v + y * w) <= tol * (Rabs u + Rabs y)) as K.
  { intros u v w Hv Hw y. eapply Rle_trans; [apply Rabs_triang|]. rewrite !Rabs_mult. pose proof (Rabs_pos u). pose proof (Rabs_pos y).
    pose proof (Rmult_le_compat_l _ _ _ H Hv). pose proof (Rmult_le_compat_l _ _ _ H0 Hw). lra. }
  split.
  - rewrite E1 at 1. now apply K.
  - rewrite E0 at 1. replace (c1 * dq - (b1 - c0) * dp) with (c1 * dq + (- (b1 - c0)) * dp) by ring.
    rewrite <- (Rabs_Ropp (b1 - c0)). now apply K.
Qed.

Definition lead (a : list R) (n : nat) (x : C) : C := csum (n + 1) (fun i => Cmult (RtoC (coef a i)) (Cpown x i)).

Ltac clia := unfold C in *; lia.
Lemma bhdst_trace maxiter tol iter : 0 <= tol -> forall fuel n a ans ans' w,
  (n <= 2 * fuel + 2)%nat -> (n < length a)%nat -> (n <= length ans)%nat -> coef a n <> 0 ->
  bhdst_loop maxiter (1 / 2) 4 fuel n tol iter a ans w = Ok (ans', false) ->
  length ans' = length ans /\ (forall i, (n <= i)%nat -> nth i ans' (RtoC 0) = nth i ans (RtoC 0)) /\
  exists fs rest, small_remainders tol n (coef a) fs /\ (length rest <= 1)%nat /\
    ((forall f, In f fs -> fp f <> 0 \/ fq f <> 0) -> forall x,
      lead a n x = nested fs (fun x => Cmult (RtoC (coef a n)) (Croots rest x)) x /\
      Cmult (RtoC (coef a n)) (Croots (firstn n ans') x) = nested (map no_remainder fs) (fun x => Cmult (RtoC (coef a n)) (Croots rest x)) x).
Proof.
  intros Ht. 
  assert (forall a (ans ans' : list C) w, (0 < length a)%nat -> Ok (ans, w) = Ok (ans', false) -> coef a 0 <> 0 ->
    length ans' = length ans /\ (forall i, (0 <= i)%nat -> nth i ans' (RtoC 0) = nth i ans (RtoC 0)) /\
    exists fs rest, small_remainders tol 0 (coef a) fs /\ (length rest <= 1)%nat /\
    ((forall f, In f fs -> fp f <> 0 \/ fq f <> 0) -> forall x,
      lead a 0 x = nested fs (fun x => Cmult (RtoC (coef a 0)) (Croots rest x)) x /\
      Cmult (RtoC (coef a 0)) (Croots (firstn 0 ans') x) = nested (map no_remainder fs) (fun x => Cmult (RtoC (coef a 0)) (Croots rest x)) x)) as Z0.
  { intros a ans ans' w Ha E H0. inversion E; subst. repeat split; auto. exists nil, nil. split; [constructor; clia|]. split; [cbn; clia|].
    intros _ x. unfold lead. cbn. split; ring. }
  assert (forall a (ans ans' : list C) w, (1 < length a)%nat -> (1 <= length ans)%nat -> 
    (x0 <- get a 0 ;; x1 <- get a 1 ;; ans <- set ans 0 (sopp x0 / x1, 0)%S ;; Ok (ans, w)) = Ok (ans', false) -> coef a 1 <> 0 ->
    length ans' = length ans /\ (forall i, (1 <= i)%nat -> nth i ans' (RtoC 0) = nth i ans (RtoC 0)) /\
    exists fs rest, small_remainders tol 1 (coef a) fs /\ (length rest <= 1)%nat /\
    ((forall f, In f fs -> fp f <> 0 \/ fq f <> 0) -> forall x,
      lead a 1 x = nested fs (fun x => Cmult (RtoC (coef a 1)) (Croots rest x)) x /\
      Cmult (RtoC (coef a 1)) (Croots (firstn 1 ans') x) = nested (map no_remainder fs) (fun x => Cmult (RtoC (coef a 1)) (Croots rest x)) x)) as Z1.
  { intros a ans ans' w Ha Hans E H1. rewrite !get_el in E by clia. cbn [bind] in E. rewrite set_ok in E by clia. cbn [bind] in E. inversion E; subst.
    rewrite upd_length. split; auto. split; [intros; rewrite nth_upd_neq by clia; reflexivity|].
    set (z := ((- nth 0 a 0 / nth 1 a 0)%R, 0)). exists nil, (z :: nil). split; [constructor; clia|]. split; [cbn; clia|].
    intros _ x. destruct ans as [|y ans]; [cbn in Hans; clia|]. split.
    - unfold lead, nested. cbn [csum Nat.add Croots fold_right Cpown]. unfold coef in *. unfold z. destruct x as [u v].
      apply C_eq; cbn; field; auto.
    - unfold nested. cbn [map upd firstn]. reflexivity. }
  assert (forall a (ans ans' : list C) w, (2 < length a)%nat -> (2 <= length ans)%nat -> 
    (x0 <- get a 0 ;; x1 <- get a 1 ;; x2 <- get a 2 ;; ans <- qe_store (1 / 2) 4 x2 x1 x0 ans 0 ;; Ok (ans, w)) = Ok (ans', false) -> coef a 2 <> 0 ->
    length ans' = length ans /\ (forall i, (2 <= i)%nat -> nth i ans' (RtoC 0) = nth i ans (RtoC 0)) /\
    exists fs rest, small_remainders tol 2 (coef a) fs /\ (length rest <= 1)%nat /\
    ((forall f, In f fs -> fp f <> 0 \/ fq f <> 0) -> forall x,
      lead a 2 x = nested fs (fun x => Cmult (RtoC (coef a 2)) (Croots rest x)) x /\
      Cmult (RtoC (coef a 2)) (Croots (firstn 2 ans') x) = nested (map no_remainder fs) (fun x => Cmult (RtoC (coef a 2)) (Croots rest x)) x)) as Z2.
  { intros a ans ans' w Ha Hans E H2. rewrite !get_el in E by clia. cbn [bind] in E.
    destruct (qe_store_ok (1 / 2) 4 (nth 2 a s0) (nth 1 a s0) (nth 0 a s0) ans 0) as (an & E1 & L & K & Q); [clia|].
    rewrite E1 in E. cbn [bind] in E. inversion E; subst. split; auto. split; [intros; apply (K i); clia|].
    set (f := Factor (coef a 1 / coef a 2) (coef a 0 / coef a 2) 0 0). exists (f :: nil), nil.
    split; [now constructor|]. split; [cbn; clia|]. intros Hf x.
    assert (coef a 1 <> 0 \/ coef a 0 <> 0) as Hz.
    { destruct (Hf f) as [H|H]; [now left| |]; cbn in H; [left|right]; intros E0; apply H; rewrite E0; field; auto. }
    destruct (zQESolve_ok (coef a 2) (coef a 1) (coef a 0) H2 Hz) as (x1 & x2 & Eq & F). destruct (Q x1 x2 Eq) as (Q1 & Q2).
    assert (nested (f :: nil) (fun x => Cmult (RtoC (coef a 2)) (Croots nil x)) x = Cplus (Cplus (Cmult (RtoC (coef a 2)) (Cmult x x)) (Cmult (RtoC (coef a 1)) x)) (RtoC (coef a 0))) as N.
    { cbn [nested Croots fold_right f fp fq fu fv]. destruct x as [u v]. apply C_eq; cbn; field; auto. }
    split.
    - rewrite N. unfold lead. cbn [csum Nat.add Cpown]. ring.
    - replace (nested (map no_remainder (f :: nil)) (fun x0 => Cmult (RtoC (coef a 2)) (Croots nil x0)) x) with (nested (f :: nil) (fun x => Cmult (RtoC (coef a 2)) (Croots nil x)) x) by reflexivity.
      rewrite N, <- F. change (firstn 2 ans') with (firstn (0 + 2) ans'). rewrite (firstn_two (RtoC 0) 0 ans') by clia. cbn [firstn app]. rs. change (@nth C) with (@nth (R * R)). change (RtoC 0) with (0, 0). cbn [Nat.add] in *. rewrite Q1, Q2. unfold Croots. cbn [fold_right]. ring. }
  induction fuel as [|fuel IH]; intros n a ans ans' w Hf Ha Hans Hl E.
  { destruct n as [|[|[|n]]]; cbn [bhdst_loop] in E; [eapply Z0|eapply Z1|eapply Z2|clia]; eauto. }
  destruct n as [|[|[|n]]]; cbn [bhdst_loop] in E; [eapply Z0; eauto|eapply Z1; eauto|eapply Z2; eauto|].
  clear Z0 Z1 Z2. set (N := S (S (S n))) in *. assert (3 <= N)%nat as HN by clia. assert (N - 2 = S n)%nat as EN by clia.
  rewrite !get_el in E by clia. cbn [bind] in E.
  destruct (zPexBH_step maxiter (sadd (nth 1 a s0) s1) (sadd (nth 0 a s0) s1) a N tol iter HN Ha) as (p & q & a' & w' & E1 & La & H).
  rewrite E1 in E. cbn [bind] in E.
  destruct (qe_store_ok (1 / 2) 4 s1 p q ans (N - 2)) as (an & E2 & L2 & K & Q); [clia|].
  rewrite E2 in E. cbn [bind] in E.
  destruct (bhdst_total maxiter (1 / 2) 4 tol iter fuel (N - 2) a' an (w || w')) as (an2 & w2 & E3 & L3 & W); [clia|clia|clia|].
  rewrite E in E3. inversion E3; subst an2 w2. assert (w || w' = false)%bool as Hw by (destruct (w || w')%bool; auto; now rewrite W).
  assert (w' = false) as Hw' by (destruct w'; auto; rewrite Bool.orb_true_r in Hw; discriminate).
  destruct (H Hw') as (b & c & Lb & Lc & Sh & Qu & Gr & dp & dq & Dl & T1 & T2). clear H.
  assert (coef a' (N - 2) = coef a N) as Elead.
  { unfold coef. rs. rewrite Sh by clia. replace (N - 2 + 2)%nat with N by clia. apply Qu. }
  destruct (IH (N - 2)%nat a' an ans' (w || w')%bool) as (_ & K2 & fs & rest & Sm & Lr & F); [clia|clia|clia|now rewrite Elead|exact E|].
  split; [clia|]. split; [intros i Hi; rewrite K2 by clia; apply (K i); clia|].
  unfold is_tol in T1, T2. rs. destruct (Rleb_spec (Rabs dp) tol) as [T1'|]; [|discriminate]. destruct (Rleb_spec (Rabs dq) tol) as [T2'|]; [|discriminate].
  unfold bh_delta in Dl. rewrite !get_el in Dl by clia. cbn [bind] in Dl. rs. inversion Dl as [[D1 D2 D3]]. clear Dl. symmetry in D1, D2.
  match type of D3 with Reqb ?d 0 = false => destruct (Reqb_spec d 0) as [|Hdet]; [discriminate|] end. clear D3.
  rewrite D1 in T1'. rewrite D2 in T2'.
  destruct (delta_small tol (nth 0 b 0) (nth 1 b 0) (nth 0 c 0) (nth 1 c 0) (nth 2 c 0) _ _ Ht eq_refl Hdet eq_refl T1' T2') as (B1 & B0).
  set (f := Factor p q (nth 1 b 0) (nth 0 b 0)). exists (f :: fs), rest. split; [|split; auto].
  { apply sr_factor with (b := fun k => nth k b 0) (c := fun k => nth k c 0); auto.
    - intros k Hk. apply (quotient_divided p q N (coef a) (fun k => nth k b 0)); [clia|exact Qu|clia].
    - intros k Hk. apply (quotient_divided p q (N - 1) (fun j => nth (S j) b 0) (fun k => nth k c 0)); [clia| |clia].
      destruct Gr as (G1 & G2 & G3). unfold quotient_of. rs. replace (S (N - 1)) with N by clia. split; [exact G1|]. split.
      + replace (N - 1 - 1)%nat with (N - 2)%nat by clia. replace (S (N - 2)) with (N - 1)%nat by lia. exact G2.
      + intros j Hj. replace (S j) with (j + 1)%nat by lia. apply G3. lia.
    - apply small_ext with (a := coef a'); auto. intros i Hi. unfold coef. rs. apply Sh. clia. }
  intros Hg x. destruct (F (fun f' Hf' => Hg f' (or_intror Hf')) x) as (F1 & F2). rewrite Elead in F1, F2.
  split.
  - unfold lead. rewrite (quotient_identity p q N (coef a) (fun k => nth k b 0) x); [|clia|exact Qu].
    cbn [nested f fp fq fu fv]. rewrite <- F1. f_equal. f_equal. unfold lead. replace (N - 2 + 1)%nat with (N - 1)%nat by clia.
    apply csum_ext. intros i Hi. do 2 f_equal. unfold coef. rs. symmetry. apply Sh. clia.
  - cbn [map nested no_remainder f fp fq fu fv]. rewrite <- F2.
    destruct (zQESolve_ok 1 p q) as (x1 & x2 & Eq & Fq); [lra|apply (Hg f); now left|].
    destruct (Q x1 x2 Eq) as (Q1 & Q2). rs.
    assert (firstn N ans' = firstn (N - 2) ans' ++ nth (N - 2) ans' (RtoC 0) :: nth (N - 2 + 1) ans' (RtoC 0) :: nil) as Ef.
    { pose proof (firstn_two (RtoC 0) (N - 2) ans') as Ef. replace (N - 2 + 2)%nat with N in Ef by lia. apply Ef. clia. }
    rewrite Ef.
    rewrite !K2 by clia. change (@nth C) with (@nth (R * R)). change (RtoC 0) with (0, 0). rewrite Q1, Q2, Croots_app.
    unfold Croots at 2. cbn [fold_right]. pose proof (Fq x) as Fx. rewrite Cmult_1_l in Fx.
    transitivity (Cmult (Cmult (RtoC 1) (Cmult (Cminus x x1) (Cminus x x2))) (Cmult (RtoC (coef a N)) (Croots (firstn (N - 2) ans') x))); [ring|].
    rewrite Cmult_1_l, Fx. change (0, 0) with (RtoC 0). ring.
Qed.
