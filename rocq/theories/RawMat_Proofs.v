From Verif Require Import Prelude Prelude_Proofs Scalar Raw_Model Raw_Spec Raw_Proofs.

(** Address arithmetic of strided matrices. *)
Lemma row_at2 p cap (i j : nat) : padd (row p cap (Z.of_nat i)) (Z.of_nat j) = at2 p cap i j.
Proof. unfold row, at2. rewrite padd_padd. f_equal. Qed.

Lemma stride_lt (a b cap w : Z) : (0 <= a -> a < b -> 0 <= w <= cap -> a * cap + w <= b * cap)%Z.
Proof.
  intros Ha Hab Hw. assert ((a + 1) * cap <= b * cap)%Z by (apply Z.mul_le_mono_nonneg_r; lia). lia.
Qed.

Lemma at2_inj p cap cs (i j i' j' : nat) : (Z.of_nat cs <= cap)%Z -> j < cs -> j' < cs ->
  at2 p cap i j = at2 p cap i' j' -> i = i' /\ j = j'.
Proof.
  intros Hc Hj Hj' E. unfold at2 in E. apply padd_inj in E.
  destruct (Nat.lt_trichotomy i i') as [H|[->|H]].
  - pose proof (stride_lt (Z.of_nat i) (Z.of_nat i') cap (Z.of_nat cs)). lia.
  - lia.
  - pose proof (stride_lt (Z.of_nat i') (Z.of_nat i) cap (Z.of_nat cs)). lia.
Qed.

Lemma inmat_row p cap (rs cs i : nat) q : i < rs -> inrange (row p cap (Z.of_nat i)) cs q -> inmat p cap rs cs q.
Proof.
  intros Hi H. apply inrange_iff in H. destruct H as (j & Hj & ->). exists i, j.
  rewrite row_at2. auto.
Qed.
Lemma inmat_mono p cap rs rs' cs q : rs <= rs' -> inmat p cap rs cs q -> inmat p cap rs' cs q.
Proof. intros H (i & j & Hi & Hj & ->). exists i, j; repeat split; auto; lia. Qed.

Section Rows.
  Context {T : Type}.
  Implicit Types (m : mem T) (p q s d : ptr).

  Lemma mframe_cells m m' p cap rs cs :
    mframe m m' p cap rs cs <-> (forall q, (forall i k, i < rs -> k < cs -> q <> at2 p cap i k) -> cell m' q = cell m q).
  Proof.
    split; intros H q Hq; apply H.
    - intros (i & j & Hi & Hj & ->). now apply (Hq i j).
    - intros i k Hi Hk ->. apply Hq. exists i, k; auto.
  Qed.

  Lemma rows_ok (rs cs : nat) d dcap (g : nat -> nat -> T) f m :
    (Z.of_nat cs <= dcap)%Z ->
    (forall i m', i < rs -> mframe m m' d dcap i cs ->
       exists m'', f (Z.of_nat i) m' = Ok m'' /\ vecat m'' (row d dcap (Z.of_nat i)) cs (g i) /\
                   frame m' m'' (row d dcap (Z.of_nat i)) cs) ->
    exists m', forZ (Z.of_nat rs) f m = Ok m' /\ matat m' d dcap rs cs g /\ mframe m m' d dcap rs cs.
  Proof.
    intros Hc Hs.
    destruct (forZ_cells2 rs cs (at2 d dcap) g f m) as (m' & E & H1 & H2).
    - intros i j k l Hij Hk Hl E. apply (at2_inj d dcap cs) in E; auto. lia.
    - intros i m1 Hi H1. destruct (Hs i m1) as (m2 & E2 & A & F); auto.
      { now apply mframe_cells. }
      exists m2. split; auto. split.
      + intros k Hk. rewrite <- row_at2. auto.
      + intros q Hq. apply F. intros H. apply inrange_iff in H. destruct H as (k & Hk & ->).
        apply (Hq k); auto. apply row_at2.
    - exists m'. split; auto. split; auto. now apply mframe_cells.
  Qed.

  Lemma matat_row m p cap rs cs x i : matat m p cap rs cs x -> i < rs ->
    vecat m (row p cap (Z.of_nat i)) cs (x i).
  Proof. intros H Hi j Hj. rewrite row_at2. auto. Qed.
  Lemma matat_malloc m p cap rs cs x : matat m p cap rs cs x -> mallocated m p cap rs cs.
  Proof. intros H i j Hi Hj. now rewrite H. Qed.

  (** Row [i] is still original when only the rows before it were rewritten. *)
  Lemma alloc_row m m' d dcap rs cs i : (Z.of_nat cs <= dcap)%Z ->
    mallocated m d dcap rs cs -> i < rs -> mframe m m' d dcap i cs ->
    allocated m' (row d dcap (Z.of_nat i)) cs.
  Proof.
    intros Hc Ha Hi Hf j Hj. rewrite row_at2. rewrite Hf. { auto. }
    intros (i' & j' & Hi' & Hj' & E). apply (at2_inj d dcap cs) in E; auto. lia.
  Qed.
  Lemma src_row m m' s scap d dcap rs cs x i : (Z.of_nat cs <= dcap)%Z ->
    matat m s scap rs cs x -> same_or_apart s scap d dcap rs cs -> i < rs -> mframe m m' d dcap i cs ->
    vecat m' (row s scap (Z.of_nat i)) cs (x i).
  Proof.
    intros Hc Hx Ho Hi Hf j Hj. rewrite row_at2. rewrite Hf. { auto. }
    destruct Ho as [[-> ->]|Ha].
    - intros (i' & j' & Hi' & Hj' & E). apply (at2_inj d dcap cs) in E; auto. lia.
    - intros H. apply (Ha (at2 s scap i j)).
      + exists i, j; auto.
      + eapply inmat_mono; [|exact H]. lia.
  Qed.
  Lemma rows_fwd s scap d dcap rs cs i : same_or_apart s scap d dcap rs cs -> i < rs ->
    fwd (row s scap (Z.of_nat i)) (row d dcap (Z.of_nat i)) cs.
  Proof.
    intros [[-> ->]|H] Hi; [apply fwd_refl|]. apply apart_fwd. intros q H1 H2.
    apply (H q); eapply inmat_row; eauto.
  Qed.
  Lemma rows_apart s scap d dcap rs cs i : mapart s scap rs cs d dcap rs cs -> i < rs ->
    apart (row s scap (Z.of_nat i)) cs (row d dcap (Z.of_nat i)) cs.
  Proof. intros H Hi q H1 H2. apply (H q); eapply inmat_row; eauto. Qed.

  Lemma matwise1_pass f :
    matwise1 (fun m s scap d dcap rs cs => rows rs (fun i m => pass1 cs (row s scap i) (row d dcap i) f m) m) f.
  Proof.
    intros m s scap d dcap rs cs x Hx Ha Hc _ Ho. unfold rows.
    apply rows_ok; auto. intros i m' Hi Hf.
    apply (pass1_ok cs _ _ f m' (x i)).
    - eapply src_row; eauto.
    - eapply alloc_row; eauto.
    - eapply rows_fwd; eauto.
  Qed.
  Lemma matwise2_pass f :
    matwise2 (fun m s1 cap1 s2 cap2 d dcap rs cs =>
      rows rs (fun i m => pass2 cs (row s1 cap1 i) (row s2 cap2 i) (row d dcap i) f m) m) f.
  Proof.
    intros m s1 cap1 s2 cap2 d dcap rs cs x y Hx Hy Ha Hc _ _ Ho1 Ho2. unfold rows.
    apply rows_ok; auto. intros i m' Hi Hf.
    apply (pass2_ok cs _ _ _ f m' (x i) (y i)).
    - eapply src_row with (s:=s1); eauto.
    - eapply src_row with (s:=s2); eauto.
    - eapply alloc_row; eauto.
    - eapply rows_fwd; eauto.
    - eapply rows_fwd; eauto.
  Qed.
  Lemma same_self d dcap rs cs : same_or_apart d dcap d dcap rs cs.
  Proof. left; auto. Qed.

  (** Column-shaped writes. *)
  Lemma getcol_ok m (a : ptr) cap (n : nat) cs vec (x : nat -> T) :
    (forall i, i < n -> cell m (padd a (Z.of_nat i * cap)) = Some (x i)) -> allocated m vec n ->
    (forall i, i < n -> ~ inrange vec n (padd a (Z.of_nat i * cap))) ->
    exists m', zRawMatGetCol m a cap (Z.of_nat n) cs 0 vec = Ok m' /\ vecat m' vec n x /\ frame m m' vec n.
  Proof.
    intros Hx Ha Hd. unfold zRawMatGetCol.
    apply (pass_ok n vec (fun i m => load m (padd (padd a 0) (i * cap))) x m); auto.
    intros i m' Hi Hf. apply load_ok. rewrite padd_0. rewrite Hf. { auto. }
    intros H. apply (Hd i Hi). unfold inrange in *. lia.
  Qed.
End Rows.

Lemma at2_at2 p cap r c i j : at2 (at2 p cap r c) cap i j = at2 p cap (r + i) (c + j).
Proof. unfold at2. rewrite padd_padd. f_equal. lia. Qed.

Section Blocks.
  Context {T : Type} {ST : Scalar T}.
  Implicit Types (m : mem T) (p q s d a : ptr).

  Lemma swap_step m p q u w :
    cell m p = Some u -> cell m q = Some w ->
    exists m', (tmp <- load m p ;; x <- load m q ;; m1 <- store m p x ;; store m1 q tmp) = Ok m' /\
      cell m' p = Some w /\ cell m' q = Some u /\ (forall r, r <> p -> r <> q -> cell m' r = cell m r).
  Proof.
    intros Hp Hq. rewrite (load_ok _ _ _ Hp). cbn. rewrite (load_ok _ _ _ Hq). cbn.
    destruct (store_spec m p w) as (m1 & E1 & A1 & B1); [congruence|]. rewrite E1. cbn.
    destruct (store_spec m1 q u) as (m2 & E2 & A2 & B2).
    { destruct (ptr_dec q p) as [->|N]; [congruence|]. rewrite B1; auto. congruence. }
    exists m2. split; auto. split; [|split; auto].
    - destruct (ptr_dec p q) as [->|N]; [congruence|]. rewrite B2; auto.
    - intros r H1 H2. rewrite B2, B1; auto.
  Qed.

  Lemma zRawMatSwapRow_ok m a cap (rs cs r1 r2 : nat) x :
    (Z.of_nat cs <= cap)%Z -> matat m a cap rs cs x -> r1 < rs -> r2 < rs ->
    exists m', zRawMatSwapRow m a cap (Z.of_nat rs) (Z.of_nat cs) (Z.of_nat r1) (Z.of_nat r2) = Ok m' /\
      matat m' a cap rs cs (fun i j => if i =? r1 then x r2 j else if i =? r2 then x r1 j else x i j) /\
      mframe m m' a cap rs cs.
  Proof.
    intros Hc Hx H1 H2. unfold zRawMatSwapRow.
    destruct (forZ_cells2 cs 2 (fun j k => match k with O => at2 a cap r1 j | _ => at2 a cap r2 j end)
       (fun j k => match k with O => x r2 j | _ => x r1 j end)
       (fun j m => tmp <- load m (padd (padd a (Z.of_nat r1 * cap)) j) ;;
                   x <- load m (padd (padd a (Z.of_nat r2 * cap)) j) ;;
                   m' <- store m (padd (padd a (Z.of_nat r1 * cap)) j) x ;;
                   store m' (padd (padd a (Z.of_nat r2 * cap)) j) tmp) m) as (m' & E & A & B).
    - intros i j k l Hij _ _. destruct k, l; intros E; apply (at2_inj a cap cs) in E; lia.
    - intros j m1 Hj HF. fold (row a cap (Z.of_nat r1)). fold (row a cap (Z.of_nat r2)). rewrite !row_at2.
      assert (Q1 : cell m1 (at2 a cap r1 j) = Some (x r1 j)).
      { rewrite HF; auto. intros j' k Hj' _. destruct k; intros E; apply (at2_inj a cap cs) in E; lia. }
      assert (Q2 : cell m1 (at2 a cap r2 j) = Some (x r2 j)).
      { rewrite HF; auto. intros j' k Hj' _. destruct k; intros E; apply (at2_inj a cap cs) in E; lia. }
      destruct (swap_step m1 _ _ _ _ Q1 Q2) as (m2 & E2 & A1 & A2 & B2).
      exists m2. split; auto. split.
      + intros [|[|k]] Hk; auto; lia.
      + intros q Hq. apply B2; [apply (Hq 0)|apply (Hq 1)]; lia.
    - exists m'. split; auto. split.
      + intros i j Hi Hj. destruct (Nat.eqb_spec i r1) as [->|N1].
        { apply (A j 0); auto. }
        destruct (Nat.eqb_spec i r2) as [->|N2].
        { apply (A j 1); auto. }
        rewrite B; auto. intros j' k Hj' _. destruct k; intros E'; apply (at2_inj a cap cs) in E'; auto; lia.
      + intros q Hq. apply B. intros j k Hj _. destruct k; intros ->; apply Hq.
        * exists r1, j; auto.
        * exists r2, j; auto.
  Qed.

  Lemma zRawMatSwapCol_ok m a cap (rs cs c1 c2 : nat) x :
    (Z.of_nat cs <= cap)%Z -> matat m a cap rs cs x -> c1 < cs -> c2 < cs ->
    exists m', zRawMatSwapCol m a cap (Z.of_nat rs) (Z.of_nat cs) (Z.of_nat c1) (Z.of_nat c2) = Ok m' /\
      matat m' a cap rs cs (fun i j => if j =? c1 then x i c2 else if j =? c2 then x i c1 else x i j) /\
      mframe m m' a cap rs cs.
  Proof.
    intros Hc Hx H1 H2. unfold zRawMatSwapCol.
    destruct (forZ_cells2 rs 2 (fun i k => match k with O => at2 a cap i c1 | _ => at2 a cap i c2 end)
       (fun i k => match k with O => x i c2 | _ => x i c1 end)
       (fun i m => tmp <- load m (padd (padd a (i * cap)) (Z.of_nat c1)) ;;
                   x <- load m (padd (padd a (i * cap)) (Z.of_nat c2)) ;;
                   m' <- store m (padd (padd a (i * cap)) (Z.of_nat c1)) x ;;
                   store m' (padd (padd a (i * cap)) (Z.of_nat c2)) tmp) m) as (m' & E & A & B).
    - intros i j k l Hij _ _. destruct k, l; intros E; apply (at2_inj a cap cs) in E; lia.
    - intros i m1 Hi HF. fold (row a cap (Z.of_nat i)). rewrite !row_at2.
      assert (Q1 : cell m1 (at2 a cap i c1) = Some (x i c1)).
      { rewrite HF; auto. intros j' k Hj' _. destruct k; intros E; apply (at2_inj a cap cs) in E; lia. }
      assert (Q2 : cell m1 (at2 a cap i c2) = Some (x i c2)).
      { rewrite HF; auto. intros j' k Hj' _. destruct k; intros E; apply (at2_inj a cap cs) in E; lia. }
      destruct (swap_step m1 _ _ _ _ Q1 Q2) as (m2 & E2 & A1 & A2 & B2).
      exists m2. split; auto. split.
      + intros [|[|k]] Hk; auto; lia.
      + intros q Hq. apply B2; [apply (Hq 0)|apply (Hq 1)]; lia.
    - exists m'. split; auto. split.
      + intros i j Hi Hj. destruct (Nat.eqb_spec j c1) as [->|N1].
        { apply (A i 0); auto. }
        destruct (Nat.eqb_spec j c2) as [->|N2].
        { apply (A i 1); auto. }
        rewrite B; auto. intros j' k Hj' _. destruct k; intros E'; apply (at2_inj a cap cs) in E'; auto; lia.
      + intros q Hq. apply B. intros i k Hi _. destruct k; intros ->; apply Hq.
        * exists i, c1; auto.
        * exists i, c2; auto.
  Qed.

  Lemma clamp_min (k n lim : nat) : k <= lim ->
    clamp (Z.of_nat k) (Z.of_nat n) (Z.of_nat lim) = Z.of_nat (Nat.min n (lim - k)).
  Proof. intros H. unfold clamp. destruct (Z.gtb_spec (Z.of_nat k + Z.of_nat n) (Z.of_nat lim)); lia. Qed.

  Lemma zRawMatCopy_ok :
    forall m s scap d dcap rs cs x,
      matat m s scap rs cs x -> mallocated m d dcap rs cs ->
      (Z.of_nat cs <= dcap)%Z -> mapart s scap rs cs d dcap rs cs ->
      exists m', zRawMatCopy m s scap d dcap (Z.of_nat rs) (Z.of_nat cs) = Ok m' /\
        matat m' d dcap rs cs x /\ mframe m m' d dcap rs cs.
  Proof.
    intros m s scap d dcap rs cs x Hx Ha Hc Ho. unfold zRawMatCopy, rows.
    apply rows_ok; auto. intros i m' Hi Hf.
    apply (zRawVecCopy_ok m' _ _ cs (x i)).
    - eapply src_row; eauto. now right.
    - eapply alloc_row; eauto.
    - eapply rows_apart; eauto.
  Qed.

  Lemma zRawMatZero_ok m d dcap rs cs : mallocated m d dcap rs cs -> (Z.of_nat cs <= dcap)%Z ->
    exists m', zRawMatZero m d dcap (Z.of_nat rs) (Z.of_nat cs) = Ok m' /\
      matat m' d dcap rs cs (fun _ _ => s0) /\ mframe m m' d dcap rs cs.
  Proof.
    intros Ha Hc. unfold zRawMatZero, rows. apply rows_ok; auto. intros i m' Hi Hf.
    apply zRawVecZero_ok. eapply alloc_row; eauto.
  Qed.
  Lemma zRawMatTouchup_ok m d dcap rs cs tol x : matat m d dcap rs cs x -> (Z.of_nat cs <= dcap)%Z ->
    exists m', zRawMatTouchup m d dcap (Z.of_nat rs) (Z.of_nat cs) tol = Ok m' /\
      matat m' d dcap rs cs (fun i j => if is_tol tol (x i j) then s0 else x i j) /\ mframe m m' d dcap rs cs.
  Proof.
    intros Ha Hc. unfold zRawMatTouchup, rows.
    apply (rows_ok rs cs d dcap (fun i j => if is_tol tol (x i j) then s0 else x i j)); auto. intros i m' Hi Hf.
    apply (zRawVecTouchup_ok m' _ cs tol (x i)). eapply src_row; eauto. apply same_self.
  Qed.

  (** The diagonal loop shared by zRawMatIdent and zRawMatDiag. *)
  Lemma diag_loop m a cap (rs cs : nat) x (e : Z -> mem T -> res T) g :
    (Z.of_nat cs <= cap)%Z -> matat m a cap rs cs x ->
    (forall i m', i < Nat.min rs cs -> mframe m m' a cap rs cs -> e (Z.of_nat i) m' = Ok (g i)) ->
    exists m', forZ (Z.min (Z.of_nat rs) (Z.of_nat cs))
                 (fun i m => v <- e i m ;; store m (padd a (i * (cap + 1))) v) m = Ok m' /\
      matat m' a cap rs cs (fun i j => if i =? j then g i else x i j) /\ mframe m m' a cap rs cs.
  Proof.
    intros Hc Hx He. replace (Z.min (Z.of_nat rs) (Z.of_nat cs)) with (Z.of_nat (Nat.min rs cs)) by lia.
    destruct (forZ_store (Nat.min rs cs) (fun i => at2 a cap i i) g e (fun i => padd a (i * (cap + 1))) m)
      as (m' & E & A & B).
    - intros i j Hij E. apply (at2_inj a cap cs) in E; lia.
    - intros i Hi. unfold at2. f_equal. lia.
    - intros i Hi. rewrite Hx by lia. congruence.
    - intros i m' Hi HF. apply He; auto. apply mframe_cells. intros q Hq. apply HF. intros; apply Hq; lia.
    - exists m'. split; auto. split.
      + intros i j Hi Hj. destruct (Nat.eqb_spec i j) as [->|N]; [apply A; lia|].
        rewrite B; auto. intros k Hk E'. apply (at2_inj a cap cs) in E'; lia.
      + apply mframe_cells. intros q Hq. apply B. intros; apply Hq; lia.
  Qed.
  Lemma zRawMatIdent_ok m d dcap rs cs : mallocated m d dcap rs cs -> (Z.of_nat cs <= dcap)%Z ->
    exists m', zRawMatIdent m d dcap (Z.of_nat rs) (Z.of_nat cs) = Ok m' /\
      matat m' d dcap rs cs (fun i j => if i =? j then s1 else s0) /\ mframe m m' d dcap rs cs.
  Proof.
    intros Ha Hc. unfold zRawMatIdent.
    destruct (zRawMatZero_ok m d dcap rs cs Ha Hc) as (m1 & E1 & A1 & F1). rewrite E1. cbn.
    destruct (diag_loop m1 d dcap rs cs (fun _ _ => s0) (fun _ _ => Ok s1) (fun _ => s1)) as (m2 & E2 & A2 & F2); auto.
    cbn in E2. exists m2. split; auto. split; auto. intros q Hq. rewrite F2, F1; auto.
  Qed.
  Lemma zRawMatDiag_ok m d dcap rs cs v y : mallocated m d dcap rs cs -> (Z.of_nat cs <= dcap)%Z ->
    vecat m v (Nat.min rs cs) y ->
    (forall q, inmat d dcap rs cs q -> ~ inrange v (Nat.min rs cs) q) ->
    exists m', zRawMatDiag m d dcap v (Z.of_nat rs) (Z.of_nat cs) = Ok m' /\
      matat m' d dcap rs cs (fun i j => if i =? j then y i else s0) /\ mframe m m' d dcap rs cs.
  Proof.
    intros Ha Hc Hy Hd. unfold zRawMatDiag.
    destruct (zRawMatZero_ok m d dcap rs cs Ha Hc) as (m1 & E1 & A1 & F1). rewrite E1. cbn.
    destruct (diag_loop m1 d dcap rs cs (fun _ _ => s0) (fun i m => load m (padd v i)) y) as (m2 & E2 & A2 & F2); auto.
    - intros i m' Hi HF. apply load_ok.
      assert (N : ~ inmat d dcap rs cs (padd v (Z.of_nat i))).
      { intros H. apply (Hd _ H). apply inrange_iff; eauto. }
      rewrite HF, F1; auto.
    - exists m2. split; auto. split; auto. intros q Hq. rewrite F2, F1; auto.
  Qed.

  (** Sub-blocks. *)
  Lemma row_in_block p cap (r c i : nat) :
    padd (padd p (Z.of_nat r * cap + Z.of_nat c)) (Z.of_nat i * cap) = row (at2 p cap r c) cap (Z.of_nat i).
  Proof. reflexivity. Qed.

  Lemma zRawMatGet_ok m s scap (srs scs r c : nat) d dcap (drs dcs : nat) x :
    r <= srs -> c <= scs ->
    let h := Nat.min drs (srs - r) in let w := Nat.min dcs (scs - c) in
    matat m s scap srs scs x -> mallocated m d dcap h w ->
    (Z.of_nat w <= dcap)%Z -> mapart s scap srs scs d dcap h w ->
    exists m', zRawMatGet m s scap (Z.of_nat srs) (Z.of_nat scs) (Z.of_nat r) (Z.of_nat c)
                 d dcap (Z.of_nat drs) (Z.of_nat dcs) = Ok m' /\
      matat m' d dcap h w (fun i j => x (r + i) (c + j)) /\ mframe m m' d dcap h w.
  Proof.
    intros Hr Hcc h w Hx Ha Hc Ho. unfold zRawMatGet. rewrite !clamp_min by auto. fold h w.
    destruct (zRawMatCopy_ok m (at2 s scap r c) scap d dcap h w (fun i j => x (r + i) (c + j))) as (m' & E & A & F); auto.
    - intros i j Hi Hj. rewrite at2_at2. apply Hx; lia.
    - intros q (i & j & Hi & Hj & ->) H2. apply (Ho (at2 s scap (r + i) (c + j))).
      + exists (r + i), (c + j). repeat split; auto; lia.
      + now rewrite <- at2_at2.
    - exists m'. split; auto. rewrite <- E. unfold zRawMatCopy, rows, forZ. apply for_ext. intros k m1 _.
      unfold zRawVecGet. rewrite padd_0. reflexivity.
  Qed.

  Lemma zRawMatPut_ok m d dcap (drs dcs r c : nat) s scap (srs scs : nat) x y :
    r <= drs -> c <= dcs ->
    let h := Nat.min srs (drs - r) in let w := Nat.min scs (dcs - c) in
    matat m d dcap drs dcs y -> matat m s scap h w x ->
    (Z.of_nat dcs <= dcap)%Z -> mapart s scap h w d dcap drs dcs ->
    exists m', zRawMatPut m d dcap (Z.of_nat drs) (Z.of_nat dcs) (Z.of_nat r) (Z.of_nat c)
                 s scap (Z.of_nat srs) (Z.of_nat scs) = Ok m' /\
      matat m' d dcap drs dcs (fun i j => if (r <=? i) && (i <? r + h) && (c <=? j) && (j <? c + w)
                                          then x (i - r) (j - c) else y i j) /\
      mframe m m' d dcap drs dcs.
  Proof.
    intros Hr Hcc h w Hy Hx Hc Ho. unfold zRawMatPut. rewrite !clamp_min by auto. fold h w.
    destruct (zRawMatCopy_ok m s scap (at2 d dcap r c) dcap h w x) as (m' & E & A & F); auto.
    - intros i j Hi Hj. rewrite at2_at2. rewrite Hy by lia. congruence.
    - lia.
    - intros q H1 (i & j & Hi & Hj & ->). apply (Ho _ H1). rewrite at2_at2.
      exists (r + i), (c + j). repeat split; auto; lia.
    - exists m'. split.
      + rewrite <- E. unfold zRawMatCopy, rows, forZ. apply for_ext. intros k m1 _.
        unfold zRawVecPut. rewrite padd_0. reflexivity.
      + split.
        * intros i j Hi Hj. destruct ((r <=? i) && (i <? r + h) && (c <=? j) && (j <? c + w)) eqn:B.
          -- rewrite <- A by lia. rewrite at2_at2. do 2 f_equal; lia.
          -- rewrite F; auto. intros (i' & j' & Hi' & Hj' & E'). rewrite at2_at2 in E'.
             apply (at2_inj d dcap dcs) in E'; auto; lia.
        * intros q Hq. apply F. intros (i & j & Hi & Hj & ->). apply Hq. rewrite at2_at2.
          exists (r + i), (c + j). repeat split; auto; lia.
  Qed.

  Lemma zRawMatTGet_ok m s scap (srs scs r c : nat) d dcap (drs dcs : nat) x :
    r <= srs -> c <= scs ->
    let h := Nat.min drs (scs - c) in let w := Nat.min dcs (srs - r) in
    matat m s scap srs scs x -> mallocated m d dcap h w ->
    (Z.of_nat w <= dcap)%Z -> mapart s scap srs scs d dcap h w ->
    exists m', zRawMatTGet m s scap (Z.of_nat srs) (Z.of_nat scs) (Z.of_nat r) (Z.of_nat c)
                 d dcap (Z.of_nat drs) (Z.of_nat dcs) = Ok m' /\
      matat m' d dcap h w (fun i j => x (r + j) (c + i)) /\ mframe m m' d dcap h w.
  Proof.
    intros Hr Hcc h w Hx Ha Hc Ho. unfold zRawMatTGet. rewrite !clamp_min by auto. fold h w.
    apply (rows_ok h w d dcap (fun i j => x (r + j) (c + i))); auto. intros i m' Hi Hf.
    assert (EQ : forall k, padd (padd (padd s (Z.of_nat r * scap + Z.of_nat c)) (Z.of_nat i)) (Z.of_nat k * scap)
                 = at2 s scap (r + k) (c + i)).
    { intros k. unfold at2. rewrite !padd_padd. f_equal. lia. }
    apply getcol_ok.
    - intros k Hk. rewrite EQ, Hf. { apply Hx; lia. }
      intros H. apply (Ho (at2 s scap (r + k) (c + i))).
      + exists (r + k), (c + i). repeat split; auto; lia.
      + eapply inmat_mono; [|exact H]. lia.
    - eapply alloc_row; eauto.
    - intros k Hk. rewrite EQ. intros H. apply (Ho (at2 s scap (r + k) (c + i))).
      + exists (r + k), (c + i). repeat split; auto; lia.
      + apply (inmat_row d dcap h w i); auto.
  Qed.

  Lemma zRawMatT_ok m a cap1 t cap2 (rs cs : nat) x :
    matat m a cap1 rs cs x -> mallocated m t cap2 cs rs ->
    (Z.of_nat rs <= cap2)%Z -> mapart a cap1 rs cs t cap2 cs rs ->
    exists m', zRawMatT m a cap1 t cap2 (Z.of_nat rs) (Z.of_nat cs) = Ok m' /\
      matat m' t cap2 cs rs (fun i j => x j i) /\ mframe m m' t cap2 cs rs.
  Proof.
    intros Hx Ha Hc Ho. unfold zRawMatT.
    apply (rows_ok cs rs t cap2 (fun i j => x j i)); auto. intros i m' Hi Hf.
    assert (EQ : forall k, padd (padd a (Z.of_nat i)) (Z.of_nat k * cap1) = at2 a cap1 k i).
    { intros k. unfold at2. rewrite !padd_padd. f_equal. lia. }
    apply getcol_ok.
    - intros k Hk. rewrite EQ, Hf. { apply Hx; lia. }
      intros H. apply (Ho (at2 a cap1 k i)).
      + exists k, i. repeat split; auto; lia.
      + eapply inmat_mono; [|exact H]. lia.
    - eapply alloc_row; eauto.
    - intros k Hk. rewrite EQ. intros H. apply (Ho (at2 a cap1 k i)).
      + exists k, i. repeat split; auto; lia.
      + apply (inmat_row t cap2 cs rs i); auto.
  Qed.

  (** Column writes. *)
  Lemma putcol_ok m a cap (n : nat) cs vec y :
    (0 < cap)%Z -> (forall i, i < n -> cell m (padd a (Z.of_nat i * cap)) <> None) -> vecat m vec n y ->
    (forall i, i < n -> ~ inrange vec n (padd a (Z.of_nat i * cap))) ->
    exists m', zRawMatPutCol m a cap (Z.of_nat n) cs 0 vec = Ok m' /\
      (forall i, i < n -> cell m' (padd a (Z.of_nat i * cap)) = Some (y i)) /\
      (forall q, (forall i, i < n -> q <> padd a (Z.of_nat i * cap)) -> cell m' q = cell m q).
  Proof.
    intros Hc Ha Hy Hd. unfold zRawMatPutCol.
    apply (forZ_store n (fun i => padd a (Z.of_nat i * cap)) y (fun i m => load m (padd vec i))
              (fun i => padd (padd a 0) (i * cap)) m); auto.
    - intros i j Hij E. apply padd_inj in E. nia.
    - intros i Hi. now rewrite padd_0.
    - intros i m' Hi HF. apply load_ok. rewrite HF; auto.
      intros k Hk E. apply (Hd k); [lia|]. rewrite <- E. apply inrange_iff; eauto.
  Qed.

  Lemma zRawMatTPut_ok m d dcap (drs dcs r c : nat) s scap (srs scs : nat) x y :
    r <= drs -> c <= dcs ->
    let h := Nat.min scs (drs - r) in let w := Nat.min srs (dcs - c) in
    matat m d dcap drs dcs y -> matat m s scap w h x ->
    (Z.of_nat dcs <= dcap)%Z -> mapart s scap w h d dcap drs dcs ->
    exists m', zRawMatTPut m d dcap (Z.of_nat drs) (Z.of_nat dcs) (Z.of_nat r) (Z.of_nat c)
                 s scap (Z.of_nat srs) (Z.of_nat scs) = Ok m' /\
      matat m' d dcap drs dcs (fun i j => if (r <=? i) && (i <? r + h) && (c <=? j) && (j <? c + w)
                                          then x (j - c) (i - r) else y i j) /\
      mframe m m' d dcap drs dcs.
  Proof.
    intros Hr Hcc h w Hy Hx Hc Ho. unfold zRawMatTPut. rewrite !clamp_min by auto. fold h w.
    destruct (forZ_cells2 w h (fun i k => at2 d dcap (r + k) (c + i)) x
      (fun i m => zRawMatPutCol m (padd (padd d (Z.of_nat r * dcap + Z.of_nat c)) i) dcap (Z.of_nat h) (Z.of_nat dcs) 0 (padd s (i * scap))) m)
      as (m' & E & A & B).
    - intros i j k l Hij Hk Hl E. apply (at2_inj d dcap dcs) in E; lia.
    - intros i m1 Hi HF.
      assert (EQ : forall k, padd (padd (padd d (Z.of_nat r * dcap + Z.of_nat c)) (Z.of_nat i)) (Z.of_nat k * dcap)
                 = at2 d dcap (r + k) (c + i)).
      { intros k. unfold at2. rewrite !padd_padd. f_equal. lia. }
      assert (ND : forall k l, k < h -> l < h -> at2 d dcap (r + k) (c + i) <> at2 s scap i l).
      { intros k l Hk Hl E. apply (Ho (at2 s scap i l)).
        - exists i, l; auto.
        - rewrite <- E. exists (r + k), (c + i). repeat split; auto; lia. }
      destruct (putcol_ok m1 (padd (padd d (Z.of_nat r * dcap + Z.of_nat c)) (Z.of_nat i)) dcap h (Z.of_nat dcs)
                  (padd s (Z.of_nat i * scap)) (x i)) as (m2 & E2 & A2 & B2).
      + lia.
      + intros k Hk. rewrite EQ, HF; [rewrite Hy by lia; congruence|].
        intros j l Hj Hl E. apply (at2_inj d dcap dcs) in E; lia.
      + intros k Hk. fold (row s scap (Z.of_nat i)). rewrite row_at2, HF; auto.
        intros j l Hj Hl E. apply (Ho (at2 s scap i k)).
        * exists i, k; auto.
        * rewrite E. exists (r + l), (c + j). repeat split; auto; lia.
      + intros k Hk H. rewrite EQ in H. apply inrange_iff in H. destruct H as (l & Hl & E).
        fold (row s scap (Z.of_nat i)) in E. rewrite row_at2 in E. now apply (ND k l).
      + exists m2. split; auto. split.
        * intros k Hk. rewrite <- EQ. auto.
        * intros q Hq. apply B2. intros k Hk. rewrite EQ. auto.
    - exists m'. split; auto. split.
      + intros i j Hi Hj. destruct ((r <=? i) && (i <? r + h) && (c <=? j) && (j <? c + w)) eqn:Bq.
        * rewrite <- A by lia. do 2 f_equal; lia.
        * rewrite B; auto. intros i' j' Hi' Hj' E'. apply (at2_inj d dcap dcs) in E'; auto; lia.
      + intros q Hq. apply B. intros i k Hi Hk ->. apply Hq.
        exists (r + k), (c + i). repeat split; auto; lia.
  Qed.

  Lemma zRawMatGetRow_ok m a cap (rs cs r : nat) v x :
    matat m a cap rs cs x -> r < rs -> allocated m v cs ->
    (forall q, inmat a cap rs cs q -> ~ inrange v cs q) ->
    exists m', zRawMatGetRow m a cap (Z.of_nat rs) (Z.of_nat cs) (Z.of_nat r) v = Ok m' /\
      vecat m' v cs (x r) /\ frame m m' v cs.
  Proof.
    intros Hx Hr Ha Hd. unfold zRawMatGetRow, zRawVecGet. rewrite padd_0. apply zRawVecCopy_ok; auto.
    - apply (matat_row m a cap rs cs x r); auto.
    - intros q H1 H2. apply (Hd q); auto. apply (inmat_row a cap rs cs r); auto.
  Qed.
  Lemma zRawMatPutRow_ok m a cap (rs cs r : nat) v x y :
    (Z.of_nat cs <= cap)%Z ->
    matat m a cap rs cs x -> r < rs -> vecat m v cs y ->
    (forall q, inmat a cap rs cs q -> ~ inrange v cs q) ->
    exists m', zRawMatPutRow m a cap (Z.of_nat rs) (Z.of_nat cs) (Z.of_nat r) v = Ok m' /\
      matat m' a cap rs cs (fun i j => if i =? r then y j else x i j) /\ mframe m m' a cap rs cs.
  Proof.
    intros Hc Hx Hr Hy Hd. unfold zRawMatPutRow, zRawVecPut. rewrite padd_0.
    destruct (zRawVecCopy_ok m v (padd a (Z.of_nat r * cap)) cs y) as (m' & E & A & F); auto.
    - intros j Hj. fold (row a cap (Z.of_nat r)). rewrite row_at2, Hx; auto. congruence.
    - intros q H1 H2. apply (Hd q); auto. apply (inmat_row a cap rs cs r); auto.
    - exists m'. split; auto. split.
      + intros i j Hi Hj. destruct (Nat.eqb_spec i r) as [->|N].
        * rewrite <- row_at2. apply A; auto.
        * rewrite F; auto. intros H. apply inrange_iff in H. destruct H as (k & Hk & E').
          fold (row a cap (Z.of_nat r)) in E'. rewrite row_at2 in E'. apply (at2_inj a cap cs) in E'; auto; lia.
      + intros q Hq. apply F. intros H. apply Hq. apply (inmat_row a cap rs cs r); auto.
  Qed.
  Lemma zRawMatGetCol_ok m a cap (rs cs c : nat) v x :
    matat m a cap rs cs x -> c < cs -> allocated m v rs ->
    (forall q, inmat a cap rs cs q -> ~ inrange v rs q) ->
    exists m', zRawMatGetCol m a cap (Z.of_nat rs) (Z.of_nat cs) (Z.of_nat c) v = Ok m' /\
      vecat m' v rs (fun i => x i c) /\ frame m m' v rs.
  Proof.
    intros Hx Hr Ha Hd.
    assert (EQ : forall k, padd (padd a (Z.of_nat c)) (Z.of_nat k * cap) = at2 a cap k c).
    { intros k. unfold at2. rewrite !padd_padd. f_equal. lia. }
    destruct (getcol_ok m (padd a (Z.of_nat c)) cap rs (Z.of_nat cs) v (fun i => x i c)) as (m' & E & A & F); auto.
    - intros i Hi. rewrite EQ. auto.
    - intros i Hi. rewrite EQ. apply Hd. exists i, c; auto.
    - exists m'. split; auto. unfold zRawMatGetCol in *. now rewrite padd_0 in E.
  Qed.

  (** Updates of one column. *)
  Lemma col_update m a cap (rs cs c : nat) x (e : Z -> mem T -> res T) g :
    (Z.of_nat cs <= cap)%Z -> matat m a cap rs cs x -> c < cs ->
    (forall i m', i < rs -> (forall q, (forall k, k < i -> q <> at2 a cap k c) -> cell m' q = cell m q) ->
        e (Z.of_nat i) m' = Ok (g i)) ->
    exists m', forZ (Z.of_nat rs) (fun i m => v <- e i m ;; store m (padd (padd a (Z.of_nat c)) (i * cap)) v) m = Ok m' /\
      matat m' a cap rs cs (fun i j => if j =? c then g i else x i j) /\ mframe m m' a cap rs cs.
  Proof.
    intros Hc Hx Hcs He.
    destruct (forZ_store rs (fun i => at2 a cap i c) g e (fun i => padd (padd a (Z.of_nat c)) (i * cap)) m)
      as (m' & E & A & B); auto.
    - intros i j Hij E. apply (at2_inj a cap cs) in E; lia.
    - intros i Hi. unfold at2. rewrite padd_padd. f_equal. lia.
    - intros i Hi. rewrite Hx; auto. congruence.
    - exists m'. split; auto. split.
      + intros i j Hi Hj. destruct (Nat.eqb_spec j c) as [->|N]; auto.
        rewrite B; auto. intros k Hk E'. apply (at2_inj a cap cs) in E'; auto; lia.
      + apply mframe_cells. intros q Hq. apply B. auto.
  Qed.
  Lemma zRawMatPutCol_ok m a cap (rs cs c : nat) v x y :
    (Z.of_nat cs <= cap)%Z ->
    matat m a cap rs cs x -> c < cs -> vecat m v rs y ->
    (forall q, inmat a cap rs cs q -> ~ inrange v rs q) ->
    exists m', zRawMatPutCol m a cap (Z.of_nat rs) (Z.of_nat cs) (Z.of_nat c) v = Ok m' /\
      matat m' a cap rs cs (fun i j => if j =? c then y i else x i j) /\ mframe m m' a cap rs cs.
  Proof.
    intros Hc Hx Hcs Hy Hd. apply (col_update m a cap rs cs c x (fun i m => load m (padd v i)) y); auto.
    intros i m' Hi HF. apply load_ok. rewrite HF; auto. intros k Hk E.
    apply (Hd (at2 a cap k c)). { exists k, c; repeat split; auto; lia. }
    rewrite <- E. apply inrange_iff; eauto.
  Qed.

  Lemma for_ext_bind {St} n (f g : Z -> St -> res St) st :
    (forall i (st : St), f i st = g i st) -> forZ n f st = forZ n g st.
  Proof. intros H. apply for_ext. intros; apply H. Qed.

  Lemma bind_assoc {A B C} (x : res A) (f : A -> res B) (g : B -> res C) :
    bind (bind x f) g = bind x (fun y : A => bind (f y) g).
  Proof. destruct x; auto. Qed.

  Lemma colpass_ok m a cap (rs cs c : nat) x e g :
    (Z.of_nat cs <= cap)%Z -> matat m a cap rs cs x -> c < cs ->
    (forall i m', i < rs -> mframe m m' a cap rs cs -> e (Z.of_nat i) m' (x i c) = Ok (g i)) ->
    exists m', colpass m a cap (Z.of_nat rs) (Z.of_nat c) e = Ok m' /\
      matat m' a cap rs cs (fun i j => if j =? c then g i else x i j) /\ mframe m m' a cap rs cs.
  Proof.
    intros Hc Hx Hcs He. unfold colpass.
    rewrite (for_ext_bind _ _ (fun i m => v <- (x <- load m (padd (padd a (Z.of_nat c)) (i * cap)) ;; e i m x) ;;
                store m (padd (padd a (Z.of_nat c)) (i * cap)) v)).
    2: { intros i s. cbn. now rewrite bind_assoc. }
    apply col_update; auto. intros i m' Hi HF.
    assert (E : cell m' (padd (padd a (Z.of_nat c)) (Z.of_nat i * cap)) = Some (x i c)).
    { replace (padd (padd a (Z.of_nat c)) (Z.of_nat i * cap)) with (at2 a cap i c).
      - rewrite HF; auto. intros k Hk E. apply (at2_inj a cap cs) in E; auto; lia.
      - unfold at2. rewrite padd_padd. f_equal. lia. }
    rewrite (load_ok _ _ _ E). cbn. apply He; auto.
    apply mframe_cells. intros q Hq. apply HF. intros k Hk. apply Hq; auto. lia.
  Qed.
  Lemma colpass_vec m a cap (rs cs c : nat) x f v y :
    (Z.of_nat cs <= cap)%Z -> matat m a cap rs cs x -> c < cs -> vecat m v rs y ->
    (forall q, inmat a cap rs cs q -> ~ inrange v rs q) ->
    exists m', colpass m a cap (Z.of_nat rs) (Z.of_nat c)
                 (fun i m x => y <- load m (padd v i) ;; Ok (f x y)) = Ok m' /\
      matat m' a cap rs cs (fun i j => if j =? c then f (x i j) (y i) else x i j) /\ mframe m m' a cap rs cs.
  Proof.
    intros Hc Hx Hcs Hy Hd.
    destruct (colpass_ok m a cap rs cs c x (fun i m x => y <- load m (padd v i) ;; Ok (f x y))
                (fun i => f (x i c) (y i))) as (m' & E & A & F); auto.
    - intros i m' Hi HF. rewrite (load_ok m' _ (y i)); auto. rewrite HF; auto.
      intros H. apply (Hd _ H). apply inrange_iff; eauto.
    - exists m'. split; auto. split; auto. intros i j Hi Hj. rewrite A by auto.
      destruct (Nat.eqb_spec j c) as [->|]; auto.
  Qed.

  Lemma zRawMatEqual_ok eq m a cap1 b cap2 (rs cs : nat) x y :
    matat m a cap1 rs cs x -> matat m b cap2 rs cs y ->
    exists t, zRawMatEqual eq m a cap1 b cap2 (Z.of_nat rs) (Z.of_nat cs) = Ok t /\
      (t = true <-> forall i j, i < rs -> j < cs -> eq (x i j) (y i j) = true).
  Proof.
    intros Hx Hy. unfold zRawMatEqual.
    destruct (allZ_spec rs (fun i => zRawVecEqual eq m (row a cap1 i) (row b cap2 i) (Z.of_nat cs))
       (fun i => forallb (fun j => eq (x i j) (y i j)) (List.seq 0 cs))) as (t & E & Ht).
    - intros i Hi. 
      destruct (zRawVecEqual_ok eq m (row a cap1 (Z.of_nat i)) (row b cap2 (Z.of_nat i)) cs (x i) (y i)) as (t & E & Ht).
      + eapply matat_row; eauto.
      + eapply matat_row; eauto.
      + rewrite E. f_equal. apply eq_true_iff_eq. rewrite Ht, forallb_forall. split.
        * intros H k Hk. apply in_seq in Hk. apply H; lia.
        * intros H k Hk. apply H. apply in_seq. lia.
    - exists t. split; auto. rewrite Ht. split.
      + intros H i j Hi Hj. specialize (H i Hi). rewrite forallb_forall in H. apply H. apply in_seq; lia.
      + intros H i Hi. apply forallb_forall. intros j Hj. apply in_seq in Hj. apply H; lia.
  Qed.
  Lemma zRawMatIsTol_ok m a cap (rs cs : nat) tol x :
    matat m a cap rs cs x ->
    exists t, zRawMatIsTol m a cap (Z.of_nat rs) (Z.of_nat cs) tol = Ok t /\
      (t = true <-> forall i j, i < rs -> j < cs -> is_tol tol (x i j) = true).
  Proof.
    intros Hx. unfold zRawMatIsTol.
    destruct (allZ_spec rs (fun i => zRawVecIsTol m (row a cap i) (Z.of_nat cs) tol)
       (fun i => forallb (fun j => is_tol tol (x i j)) (List.seq 0 cs))) as (t & E & Ht).
    - intros i Hi. 
      destruct (zRawVecIsTol_ok m (row a cap (Z.of_nat i)) cs tol (x i)) as (t & E & Ht).
      + eapply matat_row; eauto.
      + rewrite E. f_equal. apply eq_true_iff_eq. rewrite Ht, forallb_forall. split.
        * intros H k Hk. apply in_seq in Hk. apply H; lia.
        * intros H k Hk. apply H. apply in_seq. lia.
    - exists t. split; auto. rewrite Ht. split.
      + intros H i j Hi Hj. specialize (H i Hi). rewrite forallb_forall in H. apply H. apply in_seq; lia.
      + intros H i Hi. apply forallb_forall. intros j Hj. apply in_seq in Hj. apply H; lia.
  Qed.
End Blocks.
