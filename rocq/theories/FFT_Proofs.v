From Coq Require Import Reals Lra.
From Coquelicot Require Import Coquelicot.
From Verif Require Import Prelude Prelude_Proofs Scalar RealLib Complex_Model Complex_Spec Complex_Proofs Complex2_Proofs Fmat Fmat_Proofs FFT_Model FFT_Spec.
Local Open Scope R_scope.

(** ** cis *)
Lemma cis_plus a b : cis (a + b) = Cmult (cis a) (cis b).
Proof. unfold cis, Cmult. cbn [fst snd]. rewrite cos_plus, sin_plus. f_equal; ring. Qed.
Lemma cis_0 : cis 0 = RtoC 1.
Proof. unfold cis. now rewrite cos_0, sin_0. Qed.
Lemma cis_nat k : cis (2 * INR k * PI) = RtoC 1.
Proof. induction k as [|k IH]. { replace (2 * INR 0 * PI) with 0 by (cbn; ring). apply cis_0. }
  rewrite S_INR. replace (2 * (INR k + 1) * PI) with (2 * INR k * PI + 2 * PI) by ring. rewrite cis_plus, IH.
  unfold cis. rewrite cos_2PI, sin_2PI. fold (RtoC 1). ring. Qed.
Lemma cis_opp a : Cmult (cis a) (cis (- a)) = RtoC 1.
Proof. rewrite <- cis_plus. replace (a + - a) with 0 by ring. apply cis_0. Qed.
Lemma cis_Z z : cis (2 * PI * IZR z) = RtoC 1.
Proof.
  destruct z as [|p|p].
  - replace (2 * PI * 0) with 0 by ring. apply cis_0.
  - rewrite <- (cis_nat (Pos.to_nat p)). f_equal. rewrite INR_IZR_INZ, positive_nat_Z. ring.
  - assert (E := cis_opp (2 * INR (Pos.to_nat p) * PI)). rewrite cis_nat in E.
    replace (2 * PI * IZR (Z.neg p)) with (- (2 * INR (Pos.to_nat p) * PI)).
    { rewrite <- E. ring. }
    rewrite INR_IZR_INZ, positive_nat_Z. change (Z.neg p) with (- Z.pos p)%Z. rewrite opp_IZR. ring.
Qed.

(** ** sums *)
Lemma csum_add n f g : csum n (fun i => Cplus (f i) (g i)) = Cplus (csum n f) (csum n g).
Proof. induction n; cbn [csum]; [ring|]. rewrite IHn. ring. Qed.
Lemma csum_0 n : csum n (fun _ => RtoC 0) = RtoC 0.
Proof. induction n; cbn [csum]; [ring|]. rewrite IHn. ring. Qed.
Lemma csum_scal_l n f c : csum n (fun i => Cmult c (f i)) = Cmult c (csum n f).
Proof. induction n; cbn [csum]; [ring|]. rewrite IHn. ring. Qed.
Lemma csum_swap n m f : csum n (fun i => csum m (f i)) = csum m (fun j => csum n (fun i => f i j)).
Proof. induction n; cbn [csum]. { now rewrite csum_0. } now rewrite IHn, csum_add. Qed.
Lemma csum_app n m f : csum (n + m) f = Cplus (csum n f) (csum m (fun i => f (n + i)%nat)).
Proof. induction m; cbn [csum]. { rewrite Nat.add_0_r. ring. } rewrite Nat.add_succ_r. cbn [csum]. rewrite IHm. ring. Qed.
Lemma csum_blocks m r f : csum (m * r) f = csum m (fun i => csum r (fun k => f (m * k + i)%nat)).
Proof.
  rewrite <- csum_swap. induction r; cbn [csum]. { now rewrite Nat.mul_0_r. }
  rewrite Nat.mul_succ_r, csum_app, IHr. reflexivity.
Qed.
Lemma csum_delta n k f : (k < n)%nat -> csum n (fun j => if Nat.eqb j k then f j else RtoC 0) = f k.
Proof.
  induction n as [|n IH]; intros H; [lia|]. cbn [csum]. destruct (Nat.eqb_spec n k) as [->|N].
  - rewrite (csum_ext k _ (fun _ => RtoC 0)). { rewrite csum_0. ring. }
    intros i Hi. destruct (Nat.eqb_spec i k); auto; lia.
  - rewrite IH by lia. ring.
Qed.

(** ** radix *)
Lemma radix_loop_ge fuel : forall r n, (r <= radix_loop fuel r n)%nat.
Proof. induction fuel as [|fuel IH]; intros r n; cbn [radix_loop]; auto. specialize (IH (S r) n). nbts. Qed.
Lemma radix_ok n : (2 <= n)%nat -> (2 <= _zFFTRadix n)%nat /\ (n = n / _zFFTRadix n * _zFFTRadix n)%nat /\ (1 <= n / _zFFTRadix n < n)%nat.
Proof.
  intros H. assert (K : (2 <= _zFFTRadix n)%nat /\ (n mod _zFFTRadix n = 0)%nat).
  { unfold _zFFTRadix. assert (G := radix_loop_ge n 2 n). destruct (Nat.eqb_spec (n mod radix_loop n 2 n) 0); [auto|].
    split; auto. apply Nat.mod_same. lia. }
  destruct K as (K & M). split; auto. set (r := _zFFTRadix n) in *.
  assert (E : (n = r * (n / r) + n mod r)%nat) by (apply Nat.div_mod; lia). rewrite M in E. split; [nia|]. nia.
Qed.
Lemma steps_ok m r : (1 <= m)%nat -> steps (m * r) m = r.
Proof. intros H. unfold steps. symmetry. apply (Nat.div_unique _ _ r (m - 1)); lia. Qed.
Lemma cell_inj m i j i' j' : (i < m)%nat -> (i' < m)%nat -> (m * j + i = m * j' + i')%nat -> i = i' /\ j = j'.
Proof. intros H H' E. assert (j = j') by nia. subst. split; auto. lia. Qed.

Local Notation cv := (fvec (@cplx R)).

(** ** filling a grid *)
Lemma grid_loop (body : nat -> nat -> cv -> res cv) (idx : nat -> nat -> nat) V (b : cv) m r :
  (forall i j b', (i < m)%nat -> (j < r)%nat -> vlen b' = vlen b -> body i j b' = vset b' (idx i j) (V i j)) ->
  (forall i j, (i < m)%nat -> (j < r)%nat -> (idx i j < vlen b)%nat) ->
  (forall i j i' j', (i < m)%nat -> (j < r)%nat -> (i' < m)%nat -> (j' < r)%nat -> idx i j = idx i' j' -> i = i' /\ j = j') ->
  exists b', for_ 0 m (fun i => for_ 0 r (fun j => body i j)) b = Ok b' /\ vlen b' = vlen b /\
    (forall i j, (i < m)%nat -> (j < r)%nat -> vel b' (idx i j) = V i j) /\
    (forall k, (forall i j, (i < m)%nat -> (j < r)%nat -> k <> idx i j) -> vel b' k = vel b k).
Proof.
  intros HB HL HI.
  pose (Q := fun i j (b' : cv) => vlen b' = vlen b /\
    (forall i' j', (i' < m)%nat -> (j' < r)%nat -> (i' < i \/ i' = i /\ j' < j)%nat -> vel b' (idx i' j') = V i' j') /\
    (forall k, (forall i' j', (i' < m)%nat -> (j' < r)%nat -> k <> idx i' j') -> vel b' k = vel b k)).
  destruct (for_inv (fun i b' => Q i 0%nat b') 0 m (fun i => for_ 0 r (fun j => body i j)) b) as (b' & E & K1 & K2 & K3).
  - lia.
  - repeat split; auto. intros; lia.
  - intros i b1 Hi Q1.
    destruct (for_inv (fun j b' => Q i j b') 0 r (fun j => body i j) b1) as (b2 & E2 & J1 & J2 & J3); auto; [lia| |].
    + intros j b3 Hj (L1 & L2 & L3). rewrite HB by (auto; lia). rewrite vset_ok by (rewrite L1; apply HL; lia).
      eexists; split; [reflexivity|]. unfold Q. cbn [vlen vel]. split; auto. split.
      * intros i' j' Hi' Hj' D. destruct (Nat.eqb_spec (idx i' j') (idx i j)) as [E|N].
        { apply HI in E as (-> & ->); auto; lia. }
        apply L2; auto. destruct D as [|(-> & D)]; auto. destruct (Nat.eq_dec j' j) as [->|]; [congruence|]. lia.
      * intros k Hk. destruct (Nat.eqb_spec k (idx i j)) as [->|]; auto. exfalso. apply (Hk i j); auto; lia.
    + exists b2. split; auto. split; auto. split; auto. intros i' j' Hi' Hj' D. apply J2; auto. lia.
  - exists b'. repeat split; auto.
Qed.

Lemma ofn_R n : ofn (T := R) n = INR n.
Proof. unfold ofn. cbn [sofZ RealS]. symmetry. apply INR_IZR_INZ. Qed.

Local Notation inner := (_zFFTInner (T := R) cos sin).
Local Notation butt := (butterfly (T := R) cos sin).

Lemma butterfly_ok (d : cv) od m r i tj : (1 <= m)%nat -> (1 <= r)%nat -> (i < m)%nat -> (od + m * r <= vlen d)%nat ->
  butt d od (m * r) m i tj = Ok (csum r (fun k => Cmult (cis (tj * INR (m * k))) (vel d (od + (m * k + i))%nat))).
Proof.
  intros Hm Hr Hi HL. assert (LT : forall k, (k < r)%nat -> (m * k + i < m * r)%nat) by (intros; nia).
  unfold butterfly. rewrite vget_ok by (specialize (LT O); lia). cbn [bind]. rewrite steps_ok by auto.
  match goal with |- for_ 1 r ?f ?s = _ =>
    destruct (for_inv (fun kk x => x = csum kk (fun k => Cmult (cis (tj * INR (m * k))) (vel d (od + (m * k + i))%nat))) 1 r f s) as (x & E & P) end.
  - auto.
  - cbn [csum]. rewrite Nat.mul_0_r. cbn [INR]. rewrite Rmult_0_r, cis_0. cbn [Nat.add]. rewrite Cplus_0_l, Cmult_1_l. reflexivity.
  - intros k x Hk ->. rewrite vget_ok by (specialize (LT k); lia). cbn [bind]. eexists; split; [reflexivity|]. cbn [csum].
    rewrite ofn_R. reflexivity.
  - etransitivity; [exact E|]. now rewrite P.
Qed.

(** the transform of a composite length *)
Lemma dft_split m r theta z x q j : theta * INR (m * r) = 2 * PI * IZR z ->
  dft m (theta * INR r) (fun i => Cmult (csum r (fun k => Cmult (cis (theta * INR j * INR (m * k))) (x (m * k + i)%nat))) (cis (theta * INR j * INR i))) q =
  dft (m * r) theta x (r * q + j).
Proof.
  intros HZ. unfold dft. rewrite csum_blocks. apply csum_ext. intros i Hi.
  rewrite <- !csum_scal_r. apply csum_ext. intros k Hk.
  assert (E : cis (theta * INR (m * k + i) * INR (r * q + j)) =
    Cmult (Cmult (cis (theta * INR j * INR (m * k))) (cis (theta * INR j * INR i))) (cis (theta * INR r * INR i * INR q))).
  { rewrite <- !cis_plus. rewrite <- (Cmult_1_r (cis (_ + _ + _))), <- (cis_Z (z * Z.of_nat (k * q))), <- cis_plus. f_equal.
    rewrite mult_IZR, <- INR_IZR_INZ, <- Rmult_assoc, <- HZ. rewrite !plus_INR, !mult_INR. ring. }
  rewrite E. ring.
Qed.

Lemma inner_ok : forall fuel n (d b : cv) od ob theta z, (n < fuel)%nat -> (od + n <= vlen d)%nat -> (ob + n <= vlen b)%nat ->
  theta * INR n = 2 * PI * IZR z ->
  exists d' b', inner fuel d b od ob n theta = Ok (d', b') /\ vlen d' = vlen d /\ vlen b' = vlen b /\
    (forall k, (k < n)%nat -> vel d' (od + k)%nat = dft n theta (fun j => vel d (od + j)%nat) k) /\
    (forall k, ~ (od <= k < od + n)%nat -> vel d' k = vel d k) /\
    (forall k, ~ (ob <= k < ob + n)%nat -> vel b' k = vel b k).
Proof.
  induction fuel as [|fuel IH]; intros n d b od ob theta z HF HD HB HZ; [lia|].
  cbn [_zFFTInner]. destruct (Nat.leb_spec n 1) as [L|L].
  - exists d, b. repeat split; auto. intros k Hk. assert (n = 1%nat) by lia. assert (k = 0%nat) by lia. subst.
    unfold dft. cbn [csum INR]. replace (theta * 0 * 0) with 0 by ring. rewrite cis_0, Cplus_0_l, Cmult_1_r. reflexivity.
  - destruct (radix_ok n) as (R1 & R2 & R3); [lia|]. set (r := _zFFTRadix n) in *. set (m := (n / r)%nat) in *.
    assert (Ob : forall i j, (i < m)%nat -> (j < r)%nat -> (m * j + i < n)%nat) by (intros; nia).
    (* butterflies *)
    match goal with |- context [for_ 0 m ?f b] =>
    destruct (grid_loop (fun i j b => x <- butt d od n m i (theta * ofn j) ;; vset b (ob + (m * j + i))%nat (cmulv x (rot cos sin (theta * ofn j * ofn i))))
      (fun i j => (ob + (m * j + i))%nat)
      (fun i j => Cmult (csum r (fun k => Cmult (cis (theta * INR j * INR (m * k))) (vel d (od + (m * k + i))%nat))) (cis (theta * INR j * INR i)))
      b m r) as (b1 & E1 & A1 & A2 & A3) end.
    { intros i j b' Hi Hj Hb'. rewrite R2 at 1. rewrite butterfly_ok by (auto; nia). cbn [bind]. rewrite !ofn_R. reflexivity. }
    { intros i j Hi Hj. specialize (Ob i j Hi Hj). lia. }
    { intros i j i' j' Hi Hj Hi' Hj' E. apply (cell_inj m); auto; lia. }
    match type of E1 with ?l = _ => match goal with |- context [for_ 0 m ?f b] => change (for_ 0 m f b) with l end end.
    rewrite E1. cbn [bind].
    (* sub-transforms *)
    assert (ST : steps n m = r). { rewrite R2 at 1. apply steps_ok. lia. }
    rewrite ST.
    assert (HZm : (theta * INR r) * INR m = 2 * PI * IZR z). { rewrite <- HZ, R2 at 1. rewrite mult_INR. ring. }
    match goal with |- context [for_ 0 r ?f (b1, d)] =>
    destruct (for_inv (fun ii (s : cv * cv) => vlen (fst s) = vlen b1 /\ vlen (snd s) = vlen d /\
        (forall j q, (j < ii)%nat -> (q < m)%nat -> vel (fst s) (ob + (m * j + q))%nat = dft m (theta * INR r) (fun i => vel b1 (ob + (m * j + i))%nat) q) /\
        (forall j q, (ii <= j < r)%nat -> (q < m)%nat -> vel (fst s) (ob + (m * j + q))%nat = vel b1 (ob + (m * j + q))%nat) /\
        (forall k, ~ (ob <= k < ob + n)%nat -> vel (fst s) k = vel b1 k) /\
        (forall k, ~ (od <= k < od + n)%nat -> vel (snd s) k = vel d k)) 0 r f (b1, d)) as ((b2, d2) & E2 & B1 & B2 & B3 & _ & B5 & B6) end.
    { lia. }
    { cbn [fst snd]. repeat split; auto. intros; lia. }
    { intros ii (b2, d2) Hii (B1 & B2 & B3 & B4 & B5 & B6). cbn [fst snd] in *.
      destruct (IH m b2 d2 (ob + m * ii)%nat od (theta * INR r) z) as (b3 & d3 & E3 & C1 & C2 & C3 & C4 & C5).
      - lia. - nia. - nia. - auto.
      - exists (b3, d3). rewrite ofn_R. split; [exact E3|]. cbn [fst snd]. split; [lia|]. split; [lia|]. split; [|split; [|split]].
        + intros j q Hj Hq. destruct (Nat.eq_dec j ii) as [->|Nj].
          * specialize (C3 q Hq). rewrite Nat.add_assoc. rewrite C3. unfold dft. apply csum_ext. intros i Hi. rewrite <- Nat.add_assoc, B4 by lia. reflexivity.
          * rewrite C4. { apply B3; auto; lia. } nia.
        + intros j q Hj Hq. rewrite C4 by nia. apply B4; auto; lia.
        + intros k Hk. rewrite C4 by nia. now apply B5.
        + intros k Hk. rewrite C5 by nia. now apply B6. }
    rewrite E2. cbn [bind fst snd] in *.
    (* rearrangement *)
    destruct (grid_loop (fun i j d => y <- vget b2 (ob + (m * j + i))%nat ;; vset d (od + (r * i + j))%nat y)
      (fun i j => (od + (r * i + j))%nat) (fun i j => vel b2 (ob + (m * j + i))%nat) d2 m r) as (d3 & E3 & D1 & D2 & D3).
    { intros i j d' Hi Hj Hd'. rewrite vget_ok. { reflexivity. } specialize (Ob i j Hi Hj). lia. }
    { intros i j Hi Hj. rewrite B2. nia. }
    { intros i j i' j' Hi Hj Hi' Hj' E. destruct (cell_inj r j i j' i'); auto; lia. }
    rewrite E3. cbn [bind]. exists d3, b2. split; auto. split; [lia|]. split; [lia|]. split; [|split].
    + intros k Hk.
      assert (EK : (k = r * (k / r) + k mod r)%nat) by (apply Nat.div_mod; lia).
      assert (Hj : (k mod r < r)%nat) by (apply Nat.mod_upper_bound; lia).
      assert (Hq : (k / r < m)%nat) by (apply Nat.div_lt_upper_bound; [lia|nia]).
      transitivity (dft (m * r) theta (fun j => vel d (od + j)%nat) (r * (k / r) + k mod r)).
      2:{ now rewrite <- EK, <- R2. }
      rewrite EK at 1. rewrite D2 by auto. rewrite B3 by auto.
      rewrite <- (dft_split m r theta z) by (rewrite <- R2; auto). unfold dft. apply csum_ext. intros i Hi. rewrite A2 by auto. reflexivity.
    + intros k Hk. rewrite D3. { apply B6; auto. } intros i j Hi Hj. nia.
    + intros k Hk. rewrite B5 by auto. apply A3. intros i j Hi Hj. specialize (Ob i j Hi Hj). lia.
Qed.

Lemma transform_ok (v : cv) theta z : theta * INR (vlen v) = 2 * PI * IZR z ->
  exists w, transform cos sin v theta = Ok w /\ vlen w = vlen v /\ forall k, (k < vlen v)%nat -> vel w k = dft (vlen v) theta (vel v) k.
Proof.
  intros H. unfold transform. destruct (inner_ok (S (vlen v)) (vlen v) v (cbuf (vlen v)) 0 0 theta z) as (d & b & E & A & _ & B & _); auto.
  rewrite E. cbn [bind]. eexists; split; [reflexivity|]. auto.
Qed.

(** ** orthogonality *)
Lemma cis_ne1 x : 0 < x < 2 * PI -> cis x <> RtoC 1.
Proof.
  intros H E. assert (cos x = 1) by (apply (f_equal fst) in E; exact E).
  assert (0 < sin (x / 2)) by (apply sin_gt_0; lra).
  replace x with (2 * (x / 2)) in H0 by lra. rewrite cos_2a_sin in H0. nra.
Qed.
Lemma geom w n : Cmult (Cminus w (RtoC 1)) (csum n (fun k => Cpown w k)) = Cminus (Cpown w n) (RtoC 1).
Proof. induction n as [|n IH]; cbn [csum]. { cbn [Cpown]. ring. } rewrite Cpown_S, Cmult_plus_distr_l, IH. ring. Qed.
Lemma cis_pow t n : Cpown (cis t) n = cis (t * INR n).
Proof. induction n as [|n IH]. { cbn [INR Cpown]. now rewrite Rmult_0_r, cis_0. } rewrite Cpown_S, IH, <- cis_plus, S_INR. f_equal. ring. Qed.
Lemma csum_const n c : csum n (fun _ => c) = Cmult (RtoC (INR n)) c.
Proof. induction n as [|n IH]. { cbn [csum INR]. ring. } cbn [csum]. rewrite IH, S_INR, RtoC_plus. ring. Qed.
Lemma ortho_pos n d : (0 < d < n)%nat -> csum n (fun k => cis (2 * PI / INR n * INR d * INR k)) = RtoC 0.
Proof.
  intros H. assert (0 < INR n) by (apply lt_0_INR; lia). assert (0 < INR d) by (apply lt_0_INR; lia). assert (INR d < INR n) by (apply lt_INR; lia).
  set (t := 2 * PI / INR n * INR d). assert (PI0 := PI_RGT_0).
  assert (T : 0 < t < 2 * PI).
  { unfold t. split. { apply Rmult_lt_0_compat; [|lra]. apply Rdiv_lt_0_compat; lra. }
    unfold Rdiv. rewrite Rmult_assoc. rewrite <- (Rmult_1_r (2 * PI)) at 2. apply Rmult_lt_compat_l; [lra|].
    apply (Rmult_lt_reg_l (INR n)); auto. field_simplify; lra. }
  assert (E := geom (cis t) n). rewrite cis_pow in E.
  replace (t * INR n) with (2 * INR d * PI) in E by (unfold t; field; lra). rewrite cis_nat in E.
  rewrite (csum_ext _ _ (fun k => Cpown (cis t) k)) by (intros; now rewrite cis_pow).
  assert (N : Cminus (cis t) (RtoC 1) <> RtoC 0). { intros K. apply (cis_ne1 t T). replace (cis t) with (Cplus (Cminus (cis t) (RtoC 1)) (RtoC 1)) by ring. rewrite K. ring. }
  replace (csum n (fun k => Cpown (cis t) k)) with (Cmult (Cinv (Cminus (cis t) (RtoC 1))) (Cmult (Cminus (cis t) (RtoC 1)) (csum n (fun k => Cpown (cis t) k)))).
  { rewrite E. ring. } rewrite Cmult_assoc, Cinv_l by auto. ring.
Qed.
Lemma ortho_gen n a b s : (a < n)%nat -> (b < n)%nat -> s = 2 * PI / INR n \/ s = - (2 * PI / INR n) ->
  csum n (fun k => Cmult (cis (s * INR a * INR k)) (cis (- (s * INR b * INR k)))) = if Nat.eqb a b then RtoC (INR n) else RtoC 0.
Proof.
  intros Ha Hb Hs. assert (0 < INR n) by (apply lt_0_INR; lia).
  destruct (Nat.eqb_spec a b) as [->|N].
  - rewrite (csum_ext _ _ (fun _ => RtoC 1)). { rewrite csum_const. ring. } intros k _. apply cis_opp.
  - assert (G : forall d x, (0 < d < n)%nat -> (x = 2 * PI / INR n * INR d \/ x = - (2 * PI / INR n * INR d)) -> csum n (fun k => cis (x * INR k)) = RtoC 0).
    { intros d x Hd [-> | ->]; [now apply ortho_pos|].
      assert (E := ortho_pos n (n - d)). rewrite <- E by lia. apply csum_ext. intros k _.
      rewrite <- (Cmult_1_r (cis (- _ * _))), <- (cis_nat k), <- cis_plus. f_equal. rewrite minus_INR by lia. field. lra. }
    rewrite (csum_ext _ _ (fun k => cis ((s * INR a - s * INR b) * INR k))).
    2:{ intros k _. rewrite <- cis_plus. f_equal. ring. }
    destruct (Nat.lt_total a b) as [L|[|L]]; [|lia|].
    + apply (G (b - a)%nat); [lia|]. rewrite minus_INR by lia. destruct Hs as [-> | ->]; [right|left]; ring.
    + apply (G (a - b)%nat); [lia|]. rewrite minus_INR by lia. destruct Hs as [-> | ->]; [left|right]; ring.
Qed.
Lemma dft_inv n x l : (l < n)%nat ->
  dft n (- (2 * PI / INR n)) (dft n (2 * PI / INR n) x) l = Cmult (RtoC (INR n)) (x l).
Proof.
  intros Hl. unfold dft.
  rewrite (csum_ext n _ (fun k => csum n (fun j => Cmult (x j) (Cmult (cis (2 * PI / INR n * INR j * INR k)) (cis (- (2 * PI / INR n * INR l * INR k))))))).
  2:{ intros k _. rewrite <- csum_scal_r. apply csum_ext. intros j _. rewrite <- Cmult_assoc. f_equal. f_equal. f_equal. ring. }
  rewrite csum_swap. rewrite (csum_ext n _ (fun j => if Nat.eqb j l then Cmult (RtoC (INR n)) (x j) else RtoC 0)).
  2:{ intros j Hj. rewrite csum_scal_l, ortho_gen by auto. destruct (Nat.eqb j l); ring. }
  now rewrite csum_delta.
Qed.
