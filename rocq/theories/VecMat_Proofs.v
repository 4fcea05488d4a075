(** Proofs about zVec / zMat objects. *)
From Verif Require Import Prelude Prelude_Proofs Scalar RealLib Raw_Model Raw_Spec Raw_Proofs
  RawMat_Proofs RawReal_Proofs VecMat_Model VecMat_Spec.

Lemma zn z : (0 <= z)%Z -> z = Z.of_nat (Z.to_nat z). Proof. lia. Qed.

Section Gen.
  Context {T : Type} {ST : Scalar T}.
  Implicit Types (m : mem T) (v w d : zVec) (A B D : zMat).

  Lemma chk_true b (f : res (mem T)) : b = true -> chk b f = rmap Some f.
  Proof. now intros ->. Qed.
  Lemma chk_false b (f : res (mem T)) : b = false -> chk b f = Ok None.
  Proof. now intros ->. Qed.
  Lemma chk_ok b (f : res (mem T)) m' : b = true -> f = Ok m' -> chk b f = Ok (Some m').
  Proof. now intros -> ->. Qed.
  Lemma mcell_at2 A i j : mcell A (Z.of_nat i) (Z.of_nat j) = at2 (mbuf A) (mccap A) i j.
  Proof. reflexivity. Qed.
  Lemma mload m A x (i j : nat) : mholds m A x -> i < mrows A -> j < mcols A ->
    load m (mcell A (Z.of_nat i) (Z.of_nat j)) = Ok (x i j).
  Proof. intros (H1 & H2 & H3) Hi Hj. apply load_ok. rewrite mcell_at2. auto. Qed.
  Lemma vload m v x (i : nat) : vholds m v x -> i < vlen v ->
    load m (padd (vbuf v) (Z.of_nat i)) = Ok (x i).
  Proof. intros (H1 & H2) Hi. apply load_ok. auto. Qed.

  Lemma zVecElem_ok m v x n : vholds m v x ->
    zVecElem m v n = Ok (if (0 <=? n)%Z && (n <? vsize v)%Z then x (Z.to_nat n) else s0).
  Proof.
    intros Hx. unfold zVecElem. destruct ((0 <=? n)%Z && (n <? vsize v)%Z) eqn:E; auto.
    rewrite (zn n) at 1 by lia. apply vload; auto. unfold vlen. lia.
  Qed.
  Lemma zMatElem_ok m A x r c : mholds m A x ->
    zMatElem m A r c = Ok (if (0 <=? r)%Z && (r <? mrow A)%Z && (0 <=? c)%Z && (c <? mcol A)%Z
                           then x (Z.to_nat r) (Z.to_nat c) else s0).
  Proof.
    intros Hx. unfold zMatElem, mvalid. destruct ((0 <=? r)%Z && _ && _ && _) eqn:E; auto.
    rewrite (zn r), (zn c) at 1 by lia. apply mload; auto; unfold mrows, mcols; lia.
  Qed.
  Lemma zVecSetElem_ok m v x n e : vholds m v x ->
    exists m', zVecSetElem m v n e = Ok m' /\
      vholds m' v (fun i => if (Z.of_nat i =? n)%Z then e else x i) /\ vframe m m' v.
  Proof.
    intros (H0 & Hx). unfold zVecSetElem. destruct ((0 <=? n)%Z && (n <? vsize v)%Z) eqn:E.
    - destruct (store_spec m (padd (vbuf v) n) e) as (m' & E1 & A1 & B1).
      { rewrite (zn n) by lia. rewrite Hx; [congruence|]. unfold vlen; lia. }
      exists m'. split; auto. split; [split; auto|].
      + intros i Hi. destruct (Z.eqb_spec (Z.of_nat i) n) as [->|N]; auto.
        rewrite B1, Hx; auto. intros C. apply N. apply (f_equal snd) in C. cbn in C. lia.
      + intros q Hq. apply B1. intros ->. apply Hq. split; cbn; auto. unfold vlen. lia.
    - exists m. split; auto. split; [split; auto|intros ? ?; auto].
      intros i Hi. rewrite Hx by auto. destruct (Z.eqb_spec (Z.of_nat i) n); auto. unfold vlen in Hi; lia.
  Qed.
  Lemma mstore m A x (i j : nat) e : mholds m A x -> i < mrows A -> j < mcols A ->
    exists m', store m (mcell A (Z.of_nat i) (Z.of_nat j)) e = Ok m' /\
      mholds m' A (fun a b => if (a =? i) && (b =? j) then e else x a b) /\ Mframe m m' A.
  Proof.
    intros (H1 & H2 & H3) Hi Hj. rewrite mcell_at2.
    destruct (store_spec m (at2 (mbuf A) (mccap A) i j) e) as (m' & E1 & A1 & B1).
    { rewrite H3; auto; congruence. }
    exists m'. split; auto. split; [split; [|split]; auto|].
    - intros a b Ha Hb. destruct (Nat.eqb_spec a i) as [->|N]; [destruct (Nat.eqb_spec b j) as [->|N]|]; auto; cbn.
      + rewrite B1; auto. intros C. apply N. apply (at2_inj _ _ (mcols A)) in C; auto; [apply C|unfold mcols; lia].
      + rewrite B1; auto. intros C. apply N. apply (at2_inj _ _ (mcols A)) in C; auto; [apply C|unfold mcols; lia].
    - intros q Hq. apply B1. intros ->. apply Hq. exists i, j; auto.
  Qed.
  Lemma zMatSetElem_ok m A x r c e : mholds m A x ->
    exists m', zMatSetElem m A r c e = Ok m' /\
      mholds m' A (fun i j => if (Z.of_nat i =? r)%Z && (Z.of_nat j =? c)%Z then e else x i j) /\ Mframe m m' A.
  Proof.
    intros Hx. unfold zMatSetElem, mvalid. destruct ((0 <=? r)%Z && _ && _ && _) eqn:E.
    - destruct (mstore m A x (Z.to_nat r) (Z.to_nat c) e) as (m' & E1 & A1 & F1); auto; try (unfold mrows, mcols; lia).
      rewrite <- !zn in E1 by lia. exists m'. split; auto. split; auto.
      destruct A1 as (Q1 & Q2 & Q3). split; auto. split; auto. intros i j Hi Hj. rewrite Q3; auto. f_equal.
      destruct (Nat.eqb_spec i (Z.to_nat r)), (Nat.eqb_spec j (Z.to_nat c)), (Z.eqb_spec (Z.of_nat i) r), (Z.eqb_spec (Z.of_nat j) c); cbn; auto; lia.
    - exists m. split; auto. split; [|intros ? ?; auto]. destruct Hx as (Q1 & Q2 & Q3). split; auto. split; auto.
      intros i j Hi Hj. rewrite Q3; auto. f_equal. unfold mrows, mcols in *.
      destruct (Z.eqb_spec (Z.of_nat i) r), (Z.eqb_spec (Z.of_nat j) c); cbn; auto; lia.
  Qed.

  (** ** C10: checked index arguments *)
  Lemma zVecSwap_ok m v x i1 i2 : vholds m v x -> (0 <= i1)%Z -> (0 <= i2)%Z -> i1 <> vsize v -> i2 <> vsize v ->
    if (i1 <? vsize v)%Z && (i2 <? vsize v)%Z then
      exists m', zVecSwap m v i1 i2 = Ok (Some m') /\
        vholds m' v (fun i => if i =? Z.to_nat i1 then x (Z.to_nat i2) else if i =? Z.to_nat i2 then x (Z.to_nat i1) else x i) /\
        vframe m m' v
    else zVecSwap m v i1 i2 = Ok None.
  Proof.
    intros (H0 & Hx) H1 H2 N1 N2. unfold zVecSwap. destruct ((i1 <? vsize v)%Z && (i2 <? vsize v)%Z) eqn:E.
    - destruct (zRawVecSwap_ok m (vbuf v) (vlen v) x (Z.to_nat i1) (Z.to_nat i2)) as (m' & E1 & A1 & F1); auto;
        try (unfold vlen; lia).
      rewrite <- !zn in E1 by lia. exists m'. split; [apply chk_ok; auto; lia|]. split; [split|]; auto.
    - apply chk_false. lia.
  Qed.
  Lemma zVecGet_ok m v d x pos : vholds m v x -> valloc m d -> (0 <= pos)%Z ->
    disj (vcells v) (vcells d) ->
    if (pos + vsize d <=? vsize v)%Z then
      exists m', zVecGet m v pos d = Ok (Some m') /\ vholds m' d (fun i => x (Z.to_nat pos + i)) /\ vframe m m' d
    else zVecGet m v pos d = Ok None.
  Proof.
    intros (H0 & Hx) (H1 & Ha) Hp Hd. unfold zVecGet. destruct (Z.leb_spec (pos + vsize d) (vsize v)).
    - unfold zRawVecGet. destruct (zRawVecCopy_ok m (padd (vbuf v) pos) (vbuf d) (vlen d) (fun i => x (Z.to_nat pos + i)))
        as (m' & E1 & A1 & F1); auto.
      + intros i Hi. rewrite padd_padd. replace (pos + Z.of_nat i)%Z with (Z.of_nat (Z.to_nat pos + i)) by lia.
        apply Hx. unfold vlen in *; lia.
      + intros q (Q1 & Q2) Q3. apply (Hd q); auto. unfold vlen in *. cbn in Q1, Q2. split; auto. unfold vlen; lia.
      + unfold vlen in E1. rewrite <- zn in E1 by lia. exists m'. split; [apply chk_ok; auto; lia|]. split; [split|]; auto.
    - apply chk_false. lia.
  Qed.
  Lemma zVecPut_ok m d v x y pos : vholds m v x -> vholds m d y -> (0 <= pos)%Z ->
    disj (vcells v) (vcells d) ->
    if (pos + vsize v <=? vsize d)%Z then
      exists m', zVecPut m d pos v = Ok (Some m') /\
        vholds m' d (fun i => if (Z.to_nat pos <=? i) && (i <? Z.to_nat pos + vlen v) then x (i - Z.to_nat pos) else y i) /\
        vframe m m' d
    else zVecPut m d pos v = Ok None.
  Proof.
    intros (H0 & Hx) (H1 & Hy) Hp Hd. unfold zVecPut. destruct (Z.leb_spec (pos + vsize v) (vsize d)).
    - unfold zRawVecPut. destruct (zRawVecCopy_ok m (vbuf v) (padd (vbuf d) pos) (vlen v) x) as (m' & E1 & A1 & F1); auto.
      + intros i Hi. rewrite padd_padd. replace (pos + Z.of_nat i)%Z with (Z.of_nat (Z.to_nat pos + i)) by lia.
        rewrite Hy; [congruence|]. unfold vlen in *; lia.
      + intros q Q3 (Q1 & Q2). apply (Hd q); auto. unfold vlen in *. cbn in Q1, Q2. split; auto. unfold vlen; lia.
      + unfold vlen in E1. rewrite <- zn in E1 by lia. exists m'. split; [apply chk_ok; auto; lia|]. split; [split; auto|].
        * intros i Hi. destruct ((Z.to_nat pos <=? i) && (i <? Z.to_nat pos + vlen v)) eqn:E.
          -- rewrite <- A1 by lia. rewrite padd_padd. do 2 f_equal. lia.
          -- rewrite F1; [auto|]. intros (Q1 & Q2). cbn in Q2. unfold vlen in *. lia.
        * intros q Hq. apply F1. intros (Q1 & Q2). apply Hq. cbn in *. split; auto. unfold vlen in *; lia.
    - apply chk_false. lia.
  Qed.
  Lemma zMatSwapRow_ok m A x r1 r2 : mholds m A x -> (0 <= r1)%Z -> (0 <= r2)%Z ->
    if (r1 <? mrow A)%Z && (r2 <? mrow A)%Z then
      exists m', zMatSwapRow m A r1 r2 = Ok (Some m') /\
        mholds m' A (fun i j => if i =? Z.to_nat r1 then x (Z.to_nat r2) j else if i =? Z.to_nat r2 then x (Z.to_nat r1) j else x i j) /\
        Mframe m m' A
    else zMatSwapRow m A r1 r2 = Ok None.
  Proof.
    intros (H0 & Hc & Hx) H1 H2. unfold zMatSwapRow. destruct ((r1 <? mrow A)%Z && (r2 <? mrow A)%Z) eqn:E.
    - destruct (zRawMatSwapRow_ok m (mbuf A) (mccap A) (mrows A) (mcols A) (Z.to_nat r1) (Z.to_nat r2) x)
        as (m' & E1 & A1 & F1); auto; try (unfold mrows, mcols; lia).
      unfold mrows, mcols in E1. rewrite <- !zn in E1 by lia. exists m'. split; [apply chk_ok; auto; lia|]. split; [split|]; auto.
    - apply chk_false. lia.
  Qed.
  Lemma zMatSwapCol_ok m A x c1 c2 : mholds m A x -> (0 <= c1)%Z -> (0 <= c2)%Z ->
    if (c1 <? mcol A)%Z && (c2 <? mcol A)%Z then
      exists m', zMatSwapCol m A c1 c2 = Ok (Some m') /\
        mholds m' A (fun i j => if j =? Z.to_nat c1 then x i (Z.to_nat c2) else if j =? Z.to_nat c2 then x i (Z.to_nat c1) else x i j) /\
        Mframe m m' A
    else zMatSwapCol m A c1 c2 = Ok None.
  Proof.
    intros (H0 & Hc & Hx) H1 H2. unfold zMatSwapCol. destruct ((c1 <? mcol A)%Z && (c2 <? mcol A)%Z) eqn:E.
    - destruct (zRawMatSwapCol_ok m (mbuf A) (mccap A) (mrows A) (mcols A) (Z.to_nat c1) (Z.to_nat c2) x)
        as (m' & E1 & A1 & F1); auto; try (unfold mrows, mcols; lia).
      unfold mrows, mcols in E1. rewrite <- !zn in E1 by lia. exists m'. split; [apply chk_ok; auto; lia|]. split; [split|]; auto.
    - apply chk_false. lia.
  Qed.
  Lemma zMatGetRow_ok m A x r v : mholds m A x -> valloc m v -> (0 <= r)%Z -> disj (mcells A) (vcells v) ->
    if (mcol A =? vsize v)%Z && (r <? mrow A)%Z then
      exists m', zMatGetRow m A r v = Ok (Some m') /\ vholds m' v (x (Z.to_nat r)) /\ vframe m m' v
    else zMatGetRow m A r v = Ok None.
  Proof.
    intros (H0 & Hc & Hx) (H1 & Ha) Hr Hd. unfold zMatGetRow. destruct ((mcol A =? vsize v)%Z && (r <? mrow A)%Z) eqn:E.
    - assert (mcols A = vlen v) as EL by (unfold mcols, vlen; lia).
      destruct (zRawMatGetRow_ok m (mbuf A) (mccap A) (mrows A) (mcols A) (Z.to_nat r) (vbuf v) x)
        as (m' & E1 & A1 & F1); auto; try (unfold mrows; lia).
      { rewrite EL; auto. } { intros q Q1 Q2; rewrite EL in Q2; apply (Hd q); auto. }
      unfold mrows, mcols in E1. rewrite <- !zn in E1 by lia. exists m'. split; [apply chk_ok; auto; lia|].
      rewrite EL in A1, F1. split; [split|]; auto.
    - apply chk_false. lia.
  Qed.
  Lemma zMatGetCol_ok m A x c v : mholds m A x -> valloc m v -> (0 <= c)%Z -> disj (mcells A) (vcells v) ->
    if (mrow A =? vsize v)%Z && (c <? mcol A)%Z then
      exists m', zMatGetCol m A c v = Ok (Some m') /\ vholds m' v (fun i => x i (Z.to_nat c)) /\ vframe m m' v
    else zMatGetCol m A c v = Ok None.
  Proof.
    intros (H0 & Hc & Hx) (H1 & Ha) Hr Hd. unfold zMatGetCol. destruct ((mrow A =? vsize v)%Z && (c <? mcol A)%Z) eqn:E.
    - assert (mrows A = vlen v) as EL by (unfold mrows, vlen; lia).
      destruct (zRawMatGetCol_ok m (mbuf A) (mccap A) (mrows A) (mcols A) (Z.to_nat c) (vbuf v) x)
        as (m' & E1 & A1 & F1); auto; try (unfold mcols; lia).
      { rewrite EL; auto. } { intros q Q1 Q2; rewrite EL in Q2; apply (Hd q); auto. }
      unfold mrows, mcols in E1. rewrite <- !zn in E1 by lia. exists m'. split; [apply chk_ok; auto; lia|].
      rewrite EL in A1, F1. split; [split|]; auto.
    - apply chk_false. lia.
  Qed.
  Lemma zMatPutRow_ok m A x r v y : mholds m A x -> vholds m v y -> (0 <= r)%Z -> disj (mcells A) (vcells v) ->
    if (mcol A =? vsize v)%Z && (r <? mrow A)%Z then
      exists m', zMatPutRow m A r v = Ok (Some m') /\
        mholds m' A (fun i j => if i =? Z.to_nat r then y j else x i j) /\ Mframe m m' A
    else zMatPutRow m A r v = Ok None.
  Proof.
    intros (H0 & Hc & Hx) (H1 & Ha) Hr Hd. unfold zMatPutRow. destruct ((mcol A =? vsize v)%Z && (r <? mrow A)%Z) eqn:E.
    - assert (mcols A = vlen v) as EL by (unfold mcols, vlen; lia).
      destruct (zRawMatPutRow_ok m (mbuf A) (mccap A) (mrows A) (mcols A) (Z.to_nat r) (vbuf v) x y)
        as (m' & E1 & A1 & F1); auto; try (unfold mrows, mcols; lia).
      { rewrite EL; auto. } { intros q Q1 Q2; rewrite EL in Q2; apply (Hd q); auto. }
      unfold mrows, mcols in E1. rewrite <- !zn in E1 by lia. exists m'. split; [apply chk_ok; auto; lia|].
      split; [split|]; auto.
    - apply chk_false. lia.
  Qed.
  Lemma zMatPutCol_ok m A x c v y : mholds m A x -> vholds m v y -> (0 <= c)%Z -> disj (mcells A) (vcells v) ->
    if (mrow A =? vsize v)%Z && (c <? mcol A)%Z then
      exists m', zMatPutCol m A c v = Ok (Some m') /\
        mholds m' A (fun i j => if j =? Z.to_nat c then y i else x i j) /\ Mframe m m' A
    else zMatPutCol m A c v = Ok None.
  Proof.
    intros (H0 & Hc & Hx) (H1 & Ha) Hr Hd. unfold zMatPutCol. destruct ((mrow A =? vsize v)%Z && (c <? mcol A)%Z) eqn:E.
    - assert (mrows A = vlen v) as EL by (unfold mrows, vlen; lia).
      destruct (zRawMatPutCol_ok m (mbuf A) (mccap A) (mrows A) (mcols A) (Z.to_nat c) (vbuf v) x y)
        as (m' & E1 & A1 & F1); auto; try (unfold mrows, mcols; lia).
      { rewrite EL; auto. } { intros q Q1 Q2; rewrite EL in Q2; apply (Hd q); auto. }
      unfold mrows, mcols in E1. rewrite <- !zn in E1 by lia. exists m'. split; [apply chk_ok; auto; lia|].
      split; [split|]; auto.
    - apply chk_false. lia.
  Qed.
  Lemma zMatGet_ok m A x r c D : mholds m A x -> malloc m D -> (0 <= r)%Z -> (0 <= c)%Z -> disj (mcells A) (mcells D) ->
    if (r + mrow D <=? mrow A)%Z && (c + mcol D <=? mcol A)%Z then
      exists m', zMatGet m A r c D = Ok (Some m') /\
        mholds m' D (fun i j => x (Z.to_nat r + i) (Z.to_nat c + j)) /\ Mframe m m' D
    else zMatGet m A r c D = Ok None.
  Proof.
    intros (H0 & Hc & Hx) (H1 & Hd & Ha) Hr Hc' Hdis. unfold zMatGet.
    destruct ((r + mrow D <=? mrow A)%Z && (c + mcol D <=? mcol A)%Z) eqn:E.
    - assert (Nat.min (mrows D) (mrows A - Z.to_nat r) = mrows D) as EL by (unfold mrows; lia).
      assert (Nat.min (mcols D) (mcols A - Z.to_nat c) = mcols D) as EC by (unfold mcols; lia).
      destruct (zRawMatGet_ok m (mbuf A) (mccap A) (mrows A) (mcols A) (Z.to_nat r) (Z.to_nat c)
                  (mbuf D) (mccap D) (mrows D) (mcols D) x) as (m' & E1 & A1 & F1);
        rewrite ?EL, ?EC in *; auto; try (unfold mrows, mcols; lia).
      unfold mrows, mcols in E1. rewrite <- !zn in E1 by lia. exists m'. split; [apply chk_ok; auto; lia|].
      split; [split|]; auto.
    - apply chk_false. lia.
  Qed.
  Lemma zMatPut_ok m D x y r c A : mholds m A x -> mholds m D y -> (0 <= r)%Z -> (0 <= c)%Z -> disj (mcells A) (mcells D) ->
    if (r + mrow A <=? mrow D)%Z && (c + mcol A <=? mcol D)%Z then
      exists m', zMatPut m D r c A = Ok (Some m') /\
        mholds m' D (fun i j => if (Z.to_nat r <=? i) && (i <? Z.to_nat r + mrows A) && (Z.to_nat c <=? j) && (j <? Z.to_nat c + mcols A)
                                then x (i - Z.to_nat r) (j - Z.to_nat c) else y i j) /\ Mframe m m' D
    else zMatPut m D r c A = Ok None.
  Proof.
    intros (H0 & Hc & Hx) (H1 & Hd & Ha) Hr Hc' Hdis. unfold zMatPut.
    destruct ((r + mrow A <=? mrow D)%Z && (c + mcol A <=? mcol D)%Z) eqn:E.
    - assert (Nat.min (mrows A) (mrows D - Z.to_nat r) = mrows A) as EL by (unfold mrows; lia).
      assert (Nat.min (mcols A) (mcols D - Z.to_nat c) = mcols A) as EC by (unfold mcols; lia).
      destruct (zRawMatPut_ok m (mbuf D) (mccap D) (mrows D) (mcols D) (Z.to_nat r) (Z.to_nat c)
                  (mbuf A) (mccap A) (mrows A) (mcols A) x y) as (m' & E1 & A1 & F1);
        rewrite ?EL, ?EC in *; auto; try (unfold mrows, mcols; lia).
      unfold mrows, mcols in E1. rewrite <- !zn in E1 by lia. exists m'. split; [apply chk_ok; auto; lia|].
      split; [split|]; auto.
    - apply chk_false. lia.
  Qed.
  Lemma zMatTGet_ok m A x r c D : mholds m A x -> malloc m D -> (0 <= r)%Z -> (0 <= c)%Z -> disj (mcells A) (mcells D) ->
    if (r + mcol D <=? mrow A)%Z && (c + mrow D <=? mcol A)%Z then
      exists m', zMatTGet m A r c D = Ok (Some m') /\
        mholds m' D (fun i j => x (Z.to_nat r + j) (Z.to_nat c + i)) /\ Mframe m m' D
    else zMatTGet m A r c D = Ok None.
  Proof.
    intros (H0 & Hc & Hx) (H1 & Hd & Ha) Hr Hc' Hdis. unfold zMatTGet.
    destruct ((r + mcol D <=? mrow A)%Z && (c + mrow D <=? mcol A)%Z) eqn:E.
    - assert (Nat.min (mrows D) (mcols A - Z.to_nat c) = mrows D) as EL by (unfold mrows, mcols; lia).
      assert (Nat.min (mcols D) (mrows A - Z.to_nat r) = mcols D) as EC by (unfold mrows, mcols; lia).
      destruct (zRawMatTGet_ok m (mbuf A) (mccap A) (mrows A) (mcols A) (Z.to_nat r) (Z.to_nat c)
                  (mbuf D) (mccap D) (mrows D) (mcols D) x) as (m' & E1 & A1 & F1);
        rewrite ?EL, ?EC in *; auto; try (unfold mrows, mcols; lia).
      unfold mrows, mcols in E1. rewrite <- !zn in E1 by lia. exists m'. split; [apply chk_ok; auto; lia|].
      split; [split|]; auto.
    - apply chk_false. lia.
  Qed.
  Lemma zMatTPut_ok m D x y r c A : mholds m A x -> mholds m D y -> (0 <= r)%Z -> (0 <= c)%Z -> disj (mcells A) (mcells D) ->
    if (r + mcol A <=? mrow D)%Z && (c + mrow A <=? mcol D)%Z then
      exists m', zMatTPut m D r c A = Ok (Some m') /\
        mholds m' D (fun i j => if (Z.to_nat r <=? i) && (i <? Z.to_nat r + mcols A) && (Z.to_nat c <=? j) && (j <? Z.to_nat c + mrows A)
                                then x (j - Z.to_nat c) (i - Z.to_nat r) else y i j) /\ Mframe m m' D
    else zMatTPut m D r c A = Ok None.
  Proof.
    intros (H0 & Hc & Hx) (H1 & Hd & Ha) Hr Hc' Hdis. unfold zMatTPut.
    destruct ((r + mcol A <=? mrow D)%Z && (c + mrow A <=? mcol D)%Z) eqn:E.
    - assert (Nat.min (mcols A) (mrows D - Z.to_nat r) = mcols A) as EL by (unfold mrows, mcols; lia).
      assert (Nat.min (mrows A) (mcols D - Z.to_nat c) = mrows A) as EC by (unfold mrows, mcols; lia).
      destruct (zRawMatTPut_ok m (mbuf D) (mccap D) (mrows D) (mcols D) (Z.to_nat r) (Z.to_nat c)
                  (mbuf A) (mccap A) (mrows A) (mcols A) x y) as (m' & E1 & A1 & F1);
        rewrite ?EL, ?EC in *; auto; try (unfold mrows, mcols; lia).
      unfold mrows, mcols in E1. rewrite <- !zn in E1 by lia. exists m'. split; [apply chk_ok; auto; lia|].
      split; [split|]; auto.
    - apply chk_false. lia.
  Qed.
End Gen.
