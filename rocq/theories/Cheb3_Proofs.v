(** Chebyshev interpolation stays inside its arrays, whatever the numbers are. *)
From Coq Require Import Lia List Arith.
From Verif Require Import Prelude Prelude_Proofs Scalar Fmat Fmat_Proofs Safe LE_Model LE9_Proofs LE_Props IP_Model IP_Proofs Cheb_Model.
Import ListNotations.

Section Safe.
Context {T : Type} {ST : Scalar T}.
Variables (n m : nat).
Definition shape (d : ipdata T) : Prop := vlen (ip_t d) = n /\ vlen (ip_c d) = n /\ vlen (ip_va d) = n /\
  (forall i, i < n -> vlen (snd (vel (ip_c d) i)) = m) /\ (forall i, i < n -> vlen (vel (ip_va d) i) = m).
Lemma shape_time d i : shape d -> i < n -> exists t, zIPDataTime d i = Ok t.
Proof. intros (A & _) H. unfold zIPDataTime. rewrite vget_ok by lia. eauto. Qed.
Lemma shape_va d i : shape d -> i < n -> exists v, ipva d i = Ok v /\ vlen v = m.
Proof. intros (_ & _ & A & _ & B) H. unfold ipva. rewrite vget_ok by lia. eauto. Qed.
Lemma shape_vec d i : shape d -> i < n -> exists v, zIPDataSecVec d i = Ok v /\ vlen v = m.
Proof. intros (_ & A & _ & B & _) H. unfold zIPDataSecVec. rewrite vget_ok by lia. cbn. eauto. Qed.
Lemma shape_size d : shape d -> zIPDataSize d = n.
Proof. intros H. apply H. Qed.
Lemma shape_set d i v : shape d -> i < n -> vlen v = m -> exists d', set_va d i v = Ok d' /\ shape d'.
Proof.
  intros (A & B & C & D & E) H L. unfold set_va. rewrite vset_ok by lia. cbn. eexists. split; [reflexivity|]. repeat split; cbn; auto. intros k Hk. destruct (k =? i); auto.
Qed.
Lemma s_vop1 (f : T -> T) v1 v : vlen v1 = vlen v -> exists w, vop1 f v1 v = Ok w /\ vlen w = vlen v.
Proof. intros E. unfold vop1. destruct (Nat.leb_spec (vlen v) (vlen v1)); [|lia]. eexists. split; reflexivity. Qed.
Lemma s_vop2 (f : T -> T -> T) v1 v2 v : vlen v1 = vlen v -> vlen v2 = vlen v -> exists w, vop2 f v1 v2 v = Ok w /\ vlen w = vlen v.
Proof. intros E F. unfold vop2. destruct (Nat.leb_spec (vlen v) (vlen v1)); [|lia]. destruct (Nat.leb_spec (vlen v) (vlen v2)); [|lia]. eexists. split; reflexivity. Qed.
Lemma s_cat (v : fvec T) k v2 : vlen v2 = vlen v -> exists w, zVecCatDRC v k v2 = Ok w /\ vlen w = vlen v.
Proof. intros E. unfold zVecCatDRC. rewrite E, Nat.eqb_refl. apply s_vop2; auto. Qed.
Hypothesis Hn : 2 <= n.
Lemma s_x d t : shape d -> exists x, cheb_x d t = Ok x.
Proof. intros H. unfold cheb_x. rewrite (shape_size d H). destruct (shape_time d 0 H) as (t0 & ->); [lia|]. destruct (shape_time d (n - 1) H) as (t1 & ->); [lia|]. cbn. eauto. Qed.
Lemma s_dx d : shape d -> exists x, cheb_dx d = Ok x.
Proof. intros H. unfold cheb_dx. rewrite (shape_size d H). destruct (shape_time d 0 H) as (t0 & ->); [lia|]. destruct (shape_time d (n - 1) H) as (t1 & ->); [lia|]. cbn. eauto. Qed.
Lemma s_loop {St : Type} (f : nat -> fvec T * St -> res (fvec T * St)) v st : vlen v = m ->
  (forall i v st, 2 <= i < n -> vlen v = m -> exists v' st', f i (v, st) = Ok (v', st') /\ vlen v' = m) -> exists w, rmap fst (for_ 2 n f (v, st)) = Ok w /\ vlen w = m.
Proof.
  intros L H. destruct (for_inv (fun _ (s : fvec T * St) => vlen (fst s) = m) 2 n f (v, st)) as (w & -> & Lw); auto.
  - intros k [v1 st1] Hk L1. destruct (H k v1 st1 Hk L1) as (v' & st' & -> & L'). eauto.
  - cbn. eauto.
Qed.
Lemma s_eval d t v : shape d -> vlen v = m ->
  (exists w, zIPVecChebyshev d t v = Ok w /\ vlen w = m) /\ (exists w, zIPVelChebyshev d t v = Ok w /\ vlen w = m) /\ (exists w, zIPAccChebyshev d t v = Ok w /\ vlen w = m).
Proof.
  intros H L. destruct (s_x d t H) as (x & Ex). destruct (s_dx d H) as (dx & Edx).
  destruct (shape_va d 0 H) as (a0 & E0 & L0); [lia|]. destruct (shape_va d 1 H) as (a1 & E1 & L1); [lia|].
  unfold zIPVecChebyshev, zIPVelChebyshev, zIPAccChebyshev. rewrite Ex, Edx, E0, E1, (shape_size d H). cbn [bind]. split; [|split].
  - destruct (s_vop1 (fun x => x) a0 (zVecZero v)) as (w & Ew & Lw); [cbn; lia|]. unfold zVecCopyNC. rewrite Ew. cbn [bind]. cbn [vlen zVecZero vzero] in Lw.
    unfold zVecCatNCDRC, zVecCatNC. match goal with |- context [vop2 ?f w a1 w] => destruct (s_vop2 f w a1 w) as (w2 & Ew2 & Lw2) end; try lia. rewrite Ew2. cbn [bind].
    apply s_loop; [lia|]. intros i v1 [f1 f2] Hi Lv1. destruct (shape_va d i H) as (a & -> & La); [lia|]. cbn [bind].
    match goal with |- context [zVecCatDRC v1 ?k a] => destruct (s_cat v1 k a) as (w3 & -> & Lw3) end; [lia|]. cbn. do 2 eexists. split; [reflexivity|lia].
  - unfold zVecMulC. replace (vlen a1 =? vlen (zVecZero v)) with true by (symmetry; apply Nat.eqb_eq; cbn; lia). unfold zVecMulNC.
    match goal with |- context [vop1 ?f a1 ?w] => destruct (s_vop1 f a1 w) as (w2 & Ew2 & Lw2) end; [cbn; lia|]. cbn [vlen zVecZero vzero] in Lw2. rewrite Ew2. cbn [bind].
    apply s_loop; [lia|]. intros i v1 [[f1 f2] [g1 g2]] Hi Lv1. destruct (shape_va d i H) as (a & -> & La); [lia|]. cbn [bind].
    match goal with |- context [zVecCatDRC v1 ?k a] => destruct (s_cat v1 k a) as (w3 & -> & Lw3) end; [lia|]. cbn. do 2 eexists. split; [reflexivity|lia].
  - apply s_loop; [cbn; lia|]. intros i v1 [[[f1 f2] [g1 g2]] [h1 h2]] Hi Lv1. destruct (shape_va d i H) as (a & -> & La); [lia|]. cbn [bind].
    match goal with |- context [zVecCatDRC v1 ?k a] => destruct (s_cat v1 k a) as (w3 & -> & Lw3) end; [lia|]. cbn. do 2 eexists. split; [reflexivity|lia].
Qed.
Lemma s_row i x (r : fmat T) : i < n -> nr r = n -> nc r = n -> exists r', cheb_row n i x r = Ok r' /\ nr r' = n /\ nc r' = n.
Proof.
  intros Hi R1 R2. unfold cheb_row. rewrite mset_ok by lia. cbn [bind]. rewrite mset_ok by (cbn; lia). cbn [bind].
  match goal with |- context [for_ 2 n ?f ?st0] =>
    destruct (for_inv (fun _ (s : fmat T * (T * T)) => nr (fst s) = n /\ nc (fst s) = n) 2 n f st0) as (w & -> & L1 & L2) end; auto.
  - intros k [r1 [f1 f2]] Hk (A & B). cbn [fst] in *. rewrite mset_ok by lia. cbn. eexists. split; [reflexivity|]. auto.
  - cbn. eauto.
Qed.
Lemma s_put i v (p : fmat T) : i < n -> nr p = n -> nc p = m -> vlen v = m -> exists p', put_row p i v = Ok p' /\ nr p' = n /\ nc p' = m.
Proof.
  intros Hi P1 P2 L. unfold put_row. destruct (for_inv (fun _ (s : fmat T) => nr s = n /\ nc s = m) 0 (nc p) (fun j m0 => x <- vget v j ;; mset m0 i j x) p) as (w & -> & H); auto; [lia| |eauto].
  intros k q Hk (A & B). rewrite vget_ok by lia. cbn [bind]. rewrite mset_ok by lia. eexists. split; [reflexivity|]. auto.
Qed.
Lemma s_get i v (p : fmat T) : i < n -> nr p = n -> nc p = m -> vlen v = m -> exists v', get_row p i v = Ok v' /\ vlen v' = m.
Proof.
  intros Hi P1 P2 L. unfold get_row. destruct (for_inv (fun _ (s : fvec T) => vlen s = m) 0 (nc p) (fun j v0 => x <- mget p i j ;; vset v0 j x) v) as (w & -> & H); auto; [lia| |eauto].
  intros k q Hk A. rewrite mget_ok by lia. cbn [bind]. rewrite vset_ok by lia. eexists. split; [reflexivity|]. auto.
Qed.
End Safe.
Lemma muli_shape {T} {ST : Scalar T} tol n m (r p : fmat T) : 0 < n -> nr r = n -> nc r = n -> nr p = n -> nc p = m ->
  exists o, zMulInvMatMat tol r p (zmat n m) = Ok o /\ forall X, o = Some X -> nr X = n /\ nc X = m.
Proof.
  intros Hn R1 R2 P1 P2. unfold zMulInvMatMat. rewrite R1, R2, P1, P2. cbn [nr nc zmat]. rewrite !Nat.eqb_refl. cbn [negb orb andb]. unfold zMulInvMatMatNC. rewrite R1.
  destruct (s_mul_inv tol n m r p (zmat n m) (List.seq 0 n) (Some (zvec n))) as (o & E & H); eauto using perm_seq; try (split; auto).
  exists o. split; auto. intros X ->. exact H.
Qed.
Lemma cheb_safe {T} {ST : Scalar T} tol (s : list (T * fvec T)) m : 2 <= length s -> (forall c, In c s -> vlen (snd c) = m) ->
  exists d, zIPCreateChebyshev tol s = Ok d /\ forall v t, vlen v = m ->
    (exists w, zIPVecChebyshev d t v = Ok w /\ vlen w = m) /\ (exists w, zIPVelChebyshev d t v = Ok w /\ vlen w = m) /\ (exists w, zIPAccChebyshev d t v = Ok w /\ vlen w = m).
Proof.
  intros Hn D. set (n := length s) in *. unfold zIPCreateChebyshev.
  assert (A : exists d, zIPDataAlloc s = Ok d /\ shape n m d).
  { destruct s as [|c r]; [cbn in Hn; lia|]. cbn [zIPDataAlloc]. eexists. split; [reflexivity|]. repeat split; cbn [ip_t ip_c ip_va vlen vel vec_of]; auto.
    - rewrite length_times. reflexivity.
    - intros i Hi. apply D. apply nth_In. exact Hi.
    - intros i Hi. cbn. apply D. now left. }
  destruct A as (d & -> & Hd). cbn [bind]. rewrite (shape_size _ _ _ Hd). destruct (shape_vec n m d 0 Hd) as (c0 & -> & Lc0); [lia|]. cbn [bind]. rewrite Lc0.
  match goal with |- context [for_ 0 n ?f ?st0] =>
    destruct (for_inv (fun _ (st : fmat T * fmat T) => nr (fst st) = n /\ nc (fst st) = n /\ nr (snd st) = n /\ nc (snd st) = m) 0 n f st0) as ((r & p) & -> & R1 & R2 & P1 & P2) end; [lia| | |].
  - cbn. auto.
  - intros k [r p] Hk (R1 & R2 & P1 & P2). cbn [fst snd] in *. destruct (shape_time n m d k Hd) as (tk & ->); [lia|]. destruct (shape_time n m d 0 Hd) as (t0 & ->); [lia|].
    destruct (shape_time n m d (n - 1) Hd) as (t1 & ->); [lia|]. cbn [bind].
    match goal with |- context [cheb_row n k ?x r] => destruct (s_row n Hn k x r) as (r' & -> & R1' & R2') end; try lia. cbn [bind].
    destruct (shape_vec n m d k Hd) as (c & -> & Lc); [lia|]. cbn [bind]. destruct (s_put n m Hn k c p) as (p' & -> & P1' & P2'); try lia. cbn [bind]. eexists. split; [reflexivity|]. auto.
  - cbn [bind fst snd] in *. destruct (muli_shape tol n m r p) as (o & Eo & Do); auto; [lia|]. rewrite Eo. cbn [bind].
    set (v := match o with Some v => v | None => zmat n m end).
    assert (Dv : nr v = n /\ nc v = m) by (unfold v; destruct o as [X|]; [apply Do; auto|auto]). destruct Dv as [V1 V2].
    match goal with |- context [for_ 0 n ?f d] => destruct (for_inv (fun _ d => shape n m d) 0 n f d) as (d' & -> & Hd') end; auto; [lia| |].
    { intros k d1 Hk H1. destruct (shape_va n m d1 k H1) as (a & -> & La); [lia|]. cbn [bind]. destruct (s_get n m Hn k a v) as (a' & -> & La'); try lia. cbn [bind]. apply shape_set; auto. lia. }
    exists d'. split; auto. intros u t Lu. apply (s_eval n m Hn); auto.
Qed.
