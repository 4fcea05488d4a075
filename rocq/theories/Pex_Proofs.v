(** Polynomials: proofs. *)
From Coq Require Import Reals Lra.
From Verif Require Import Prelude Prelude_Proofs Scalar RealLib Misc_Model Misc_Proofs Pex_Model Pex_Spec.
Local Open Scope R_scope.

Lemma coef_out p i : (length p <= i)%nat -> coef p i = 0.
Proof. intros H. unfold coef. now apply nth_overflow. Qed.
Lemma getc p i : (i < length p)%nat -> get p i = Ok (coef p i).
Proof. intros H. unfold coef. now apply get_ok. Qed.
Lemma coef_upd p i j x : (i < length p)%nat -> coef (upd p i x) j = if (j =? i)%nat then x else coef p j.
Proof. intros H. unfold coef. now apply nth_upd. Qed.
Lemma setc (p : list R) i x : (i < length p)%nat -> set p i x = Ok (upd p i x).
Proof. apply set_ok. Qed.
Lemma coef_repeat n i : coef (repeat 0 n) i = 0.
Proof. unfold coef. destruct (Nat.lt_ge_cases i n); [apply nth_repeat|apply nth_overflow; rewrite repeat_length; lia]. Qed.
Lemma coef_firstn k p i : coef (firstn k p) i = if (i <? k)%nat then coef p i else 0.
Proof.
  unfold coef. destruct (Nat.ltb_spec i k) as [H|H].
  - revert p i H; induction k as [|k IH]; intros p i H; [lia|]. destruct p as [|a p]; cbn; [now destruct i|].
    destruct i; auto. apply IH. lia.
  - apply nth_overflow. rewrite firstn_length. lia.
Qed.

(** evaluation *)
Lemma rsum_extend n N f : (n <= N)%nat -> (forall i, (n <= i)%nat -> f i = 0) -> rsum N f = rsum n f.
Proof.
  intros H Hf. replace N with (n + (N - n))%nat by lia. rewrite rsum_app, (rsum_0 (N - n)); [lra|].
  intros; apply Hf; lia.
Qed.
Lemma peval_ge p x N : (length p <= N)%nat -> peval p x = rsum N (fun i => coef p i * x ^ i).
Proof.
  intros H. unfold peval. symmetry. apply rsum_extend; auto. intros i Hi. rewrite coef_out by auto. ring.
Qed.
Lemma peval_coef p q x : (forall i, coef p i = coef q i) -> peval p x = peval q x.
Proof.
  intros H. rewrite (peval_ge p x (length p + length q)), (peval_ge q x (length p + length q)) by lia.
  apply rsum_ext. intros. now rewrite H.
Qed.
Lemma coef_ext p q : length p = length q -> (forall i, coef p i = coef q i) -> p = q.
Proof. intros L H. apply (nth_ext p q 0 0); auto. intros; apply H. Qed.
Lemma peval_cons a p x : peval (a :: p) x = a + x * peval p x.
Proof.
  unfold peval. cbn [length]. rewrite rsum_S_l. cbn [coef nth pow]. rewrite Rmult_1_r. f_equal.
  rewrite <- rsum_scal. apply rsum_ext. intros i Hi. unfold coef. cbn [nth pow]. ring.
Qed.

(** zPexRgl *)
Lemma rgl_loop_ok k p : (k <= length p)%nat ->
  (exists j, rgl_loop k p = Ok j /\ (1 <= j <= k)%nat /\ coef p (j - 1) <> 0 /\
             (forall i, (j <= i < k)%nat -> coef p i = 0)) \/
  (rgl_loop k p = UB /\ forall i, (i < k)%nat -> coef p i = 0).
Proof.
  induction k as [|k IH]; intros H; cbn [rgl_loop].
  - right. split; auto. lia.
  - rewrite getc by lia. cbn [bind]. rs. destruct (Reqb_spec (coef p k) 0) as [E|N].
    + destruct (IH ltac:(lia)) as [(j & E1 & E2 & E3 & E4)|(E1 & E2)].
      * left. exists j. split; auto. split; [lia|]. split; auto. intros i Hi.
        destruct (Nat.eq_dec i k); [subst; auto|apply E4; lia].
      * right. split; auto. intros i Hi. destruct (Nat.eq_dec i k); [subst; auto|apply E2; lia].
    + left. exists (S k). split; auto. split; [lia|]. split; [now replace (S k - 1)%nat with k by lia|lia].
Qed.
Lemma zPexRgl_ok p :
  (zero_poly p -> zPexRgl p = UB) /\
  (~ zero_poly p -> exists p', zPexRgl p = Ok p' /\ (forall i, coef p' i = coef p i) /\ regular p' /\
     p' = firstn (length p') p).
Proof.
  unfold zPexRgl. destruct (rgl_loop_ok (length p) p ltac:(lia)) as [(j & E1 & E2 & E3 & E4)|(E1 & E2)]; rewrite E1; cbn.
  - split; [intros Z; exfalso; apply E3, Z|]. intros _. exists (firstn j p). split; auto.
    assert (forall i, coef (firstn j p) i = coef p i) as C.
    { intros i. rewrite coef_firstn. destruct (Nat.ltb_spec i j); auto.
      destruct (Nat.lt_ge_cases i (length p)); [symmetry; apply E4; lia|]. now rewrite coef_out. }
    assert (length (firstn j p) = j) as L by (rewrite firstn_length; lia).
    split; auto. split.
    + split; [intros C0; rewrite C0 in L; cbn in L; lia|]. rewrite C, L. auto.
    + now rewrite L.
  - split; auto. intros N. exfalso. apply N. intros i. destruct (Nat.lt_ge_cases i (length p)); [auto|now apply coef_out].
Qed.
Lemma zero_poly_dec p : zero_poly p \/ ~ zero_poly p.
Proof.
  destruct (rgl_loop_ok (length p) p ltac:(lia)) as [(j & E1 & E2 & E3 & E4)|(E1 & E2)].
  - right. intros Z. apply E3, Z.
  - left. intros i. destruct (Nat.lt_ge_cases i (length p)); [auto|now apply coef_out].
Qed.
(** the leading index *)
Lemma lead p : ~ zero_poly p -> exists d, (d < length p)%nat /\ coef p d <> 0 /\ forall i, (d < i)%nat -> coef p i = 0.
Proof.
  intros N. destruct (rgl_loop_ok (length p) p ltac:(lia)) as [(j & E1 & E2 & E3 & E4)|(E1 & E2)].
  - exists (j - 1)%nat. split; [lia|]. split; auto. intros i Hi.
    destruct (Nat.lt_ge_cases i (length p)); [apply E4; lia|now apply coef_out].
  - exfalso. apply N. intros i. destruct (Nat.lt_ge_cases i (length p)); [auto|now apply coef_out].
Qed.

(** add / sub *)
Lemma drc_ok op p1 p2 : p2 <> [] -> (length p2 <= length p1)%nat ->
  exists p, drc op p1 p2 = Ok (Some p) /\ length p = length p1 /\
    (forall i, coef p i = if (i <? length p2)%nat then op (coef p1 i) (coef p2 i) else coef p1 i).
Proof.
  intros N L. unfold drc. destruct (Nat.eqb_spec (length p2) 0) as [E|_]; [destruct p2; [congruence|discriminate]|].
  destruct (Nat.ltb_spec (length p1) (length p2)); [lia|].
  destruct (for_inv (fun k p => length p = length p1 /\
      forall i, coef p i = if (i <? k)%nat then op (coef p1 i) (coef p2 i) else coef p1 i) 0 (length p2)
    (fun i p => x <- get p i ;; y <- get p2 i ;; set p i (op x y)) p1) as (p & E & P1 & P2).
  - lia.
  - split; auto.
  - intros k p Hk (P1 & P2). rewrite getc by lia. cbn [bind]. rewrite getc by lia. cbn [bind]. rewrite setc by lia.
    eexists; split; [reflexivity|]. rewrite upd_length. split; auto. intros i. rewrite coef_upd by lia.
    destruct (Nat.eqb_spec i k) as [->|Ni].
    + rewrite P2, Nat.ltb_irrefl. now replace (k <? S k)%nat with true by lia.
    + rewrite P2. destruct (Nat.ltb_spec i k), (Nat.ltb_spec i (S k)); auto; lia.
  - exists p. rewrite E. cbn. auto.
Qed.
Lemma addsub_ok op p1 p2 : (forall x, op x 0 = x) -> p1 <> [] -> p2 <> [] ->
  let zero := forall i, op (coef p1 i) (coef p2 i) = 0 in
  (zero -> addsub op p1 p2 = UB) /\
  (~ zero -> exists p, addsub op p1 p2 = Ok (Some p) /\ (forall i, coef p i = op (coef p1 i) (coef p2 i)) /\ regular p /\
     (length p <= Nat.max (length p1) (length p2))%nat).
Proof.
  intros Hop N1 N2 zero. unfold addsub.
  assert (0 < Nat.max (length p1) (length p2))%nat as HM by (assert (length p1 <> O) by (destruct p1; cbn; congruence); lia).
  assert (pexalloc (Nat.max (length p1) (length p2)) = Some (repeat 0 (Nat.max (length p1) (length p2)))) as EA.
  { destruct (Nat.max (length p1) (length p2)); [lia|reflexivity]. }
  rewrite EA. clear EA. set (N := Nat.max (length p1) (length p2)) in *.
  destruct (drc_ok sadd (repeat 0 N) p1 N1) as (q & E1 & L1 & C1); [rewrite repeat_length; lia|].
  unfold zPexAddDRC. rewrite E1. cbn [bind keep]. rewrite repeat_length in L1.
  destruct (drc_ok op q p2 N2) as (q' & E2 & L2 & C2); [lia|]. rewrite E2. cbn [bind keep].
  assert (forall i, coef q' i = op (coef p1 i) (coef p2 i)) as C.
  { intros i. rewrite C2, C1, coef_repeat.
    assert ((if (i <? length p1)%nat then sadd 0 (coef p1 i) else 0) = coef p1 i) as E.
    { destruct (Nat.ltb_spec i (length p1)); [rs; ring|now rewrite coef_out]. }
    rewrite E. destruct (Nat.ltb_spec i (length p2)); auto. now rewrite (coef_out p2), Hop. }
  destruct (zPexRgl_ok q') as (Z1 & Z2). split.
  - intros Z. rewrite Z1; auto. intros i. rewrite C. auto.
  - intros Z. destruct Z2 as (p & E & P1 & P2 & P3).
    { intros C0. apply Z. intros i. rewrite <- C. auto. }
    rewrite E. cbn. exists p. split; auto. split; [intros; rewrite P1; auto|]. split; auto.
    rewrite P3, firstn_length. lia.
Qed.
Lemma peval_add p p1 p2 x : (forall i, coef p i = coef p1 i + coef p2 i) -> peval p x = peval p1 x + peval p2 x.
Proof.
  intros H. set (N := (length p + length p1 + length p2)%nat).
  rewrite (peval_ge p x N), (peval_ge p1 x N), (peval_ge p2 x N) by (unfold N; lia).
  rewrite <- rsum_add. apply rsum_ext. intros. rewrite H. ring.
Qed.
Lemma peval_sub p p1 p2 x : (forall i, coef p i = coef p1 i - coef p2 i) -> peval p x = peval p1 x - peval p2 x.
Proof.
  intros H. set (N := (length p + length p1 + length p2)%nat).
  rewrite (peval_ge p x N), (peval_ge p1 x N), (peval_ge p2 x N) by (unfold N; lia).
  rewrite <- rsum_sub. apply rsum_ext. intros. rewrite H. ring.
Qed.

(** multiplication *)
Definition conv (p1 p2 : list R) (n k : nat) : R :=
  rsum n (fun a => coef p2 a * (if (a <=? k)%nat then coef p1 (k - a) else 0)).
Lemma mul_loops p1 p2 p0 : p1 <> [] -> p2 <> [] -> p0 = repeat 0 (length p1 + length p2 - 1) ->
  exists p, for_ 0 (length p2) (fun i p => for_ 0 (length p1) (fun j p =>
                z <- get p (i + j) ;; y <- get p2 i ;; x <- get p1 j ;; set p (i + j) (sadd z (smul y x))) p) p0 = Ok p /\
    length p = (length p1 + length p2 - 1)%nat /\ forall k, coef p k = conv p1 p2 (length p2) k.
Proof.
  intros N1 N2 ->. assert (1 <= length p1)%nat by (destruct p1; cbn; [congruence|lia]).
  assert (1 <= length p2)%nat by (destruct p2; cbn; [congruence|lia]). set (N := (length p1 + length p2 - 1)%nat).
  match goal with |- context [for_ 0 (length p2) ?f _] =>
    destruct (for_inv (fun i p => length p = N /\ forall k, coef p k = conv p1 p2 i k) 0 (length p2) f (repeat 0 N)) as (p & E & P1 & P2) end.
  - lia.
  - split; [apply repeat_length|]. intros k. rewrite coef_repeat. reflexivity.
  - intros i p Hi (P1 & P2).
    match goal with |- context [for_ 0 (length p1) ?f _] =>
      destruct (for_inv (fun j q => length q = N /\ forall k, coef q k = conv p1 p2 i k +
         (if (i <=? k)%nat && (k <? i + j)%nat then coef p2 i * coef p1 (k - i) else 0)) 0 (length p1) f p) as (q & E & Q1 & Q2) end.
    + lia.
    + split; auto. intros k. rewrite P2. destruct (Nat.leb_spec i k), (Nat.ltb_spec k (i + 0)); cbn [andb]; try lra; lia.
    + intros j q Hj (Q1 & Q2). rewrite getc by lia. cbn [bind]. rewrite getc by lia. cbn [bind]. rewrite getc by lia. cbn [bind].
      rewrite setc by lia. eexists; split; [reflexivity|]. rewrite upd_length. split; auto. intros k. rewrite coef_upd by lia.
      destruct (Nat.eqb_spec k (i + j)) as [->|Nk].
      * rewrite Q2. replace (i <=? i + j)%nat with true by lia. replace (i + j <? i + j)%nat with false by lia.
        replace (i + j <? i + S j)%nat with true by lia. cbn [andb]. replace (i + j - i)%nat with j by lia. rs. ring.
      * rewrite Q2. f_equal. destruct (Nat.leb_spec i k); cbn [andb]; auto.
        destruct (Nat.ltb_spec k (i + j)), (Nat.ltb_spec k (i + S j)); auto; lia.
    + exists q. split; [exact E|]. split; auto. intros k. rewrite Q2. unfold conv. cbn [rsum]. f_equal.
      destruct (Nat.leb_spec i k); cbn [andb]; [|lra]. destruct (Nat.ltb_spec k (i + length p1)); auto.
      rewrite (coef_out p1) by lia. ring.
  - exists p. auto.
Qed.
Lemma conv_lead p1 p2 d1 d2 : (d2 < length p2)%nat ->
  (forall i, (d1 < i)%nat -> coef p1 i = 0) -> (forall i, (d2 < i)%nat -> coef p2 i = 0) ->
  conv p1 p2 (length p2) (d1 + d2) = coef p2 d2 * coef p1 d1.
Proof.
  intros L H1 H2. unfold conv. rewrite (rsum_delta _ d2); auto.
  - replace (d2 <=? d1 + d2)%nat with true by lia. now replace (d1 + d2 - d2)%nat with d1 by lia.
  - intros i Hi Ni. destruct (Nat.lt_ge_cases d2 i).
    + rewrite H2 by auto. ring.
    + replace (i <=? d1 + d2)%nat with true by lia. rewrite H1 by lia. ring.
Qed.
Lemma peval_conv p p1 p2 x : (forall k, coef p k = conv p1 p2 (length p2) k) -> peval p x = peval p1 x * peval p2 x.
Proof.
  intros H. set (N := (length p + length p1 + length p2)%nat).
  rewrite (peval_ge p x N) by (unfold N; lia).
  rewrite (rsum_ext _ _ (fun k => rsum (length p2) (fun a => coef p2 a * (if (a <=? k)%nat then coef p1 (k - a) else 0) * x ^ k))).
  2:{ intros k _. rewrite H. unfold conv. now rewrite rsum_scal_r. }
  rewrite rsum_swap. unfold peval at 2. rewrite <- rsum_scal. apply rsum_ext. intros a Ha.
  replace N with (a + (N - a))%nat by (unfold N; lia). rewrite rsum_app, (rsum_0 a).
  2:{ intros i Hi. replace (a <=? i)%nat with false by lia. ring. }
  rewrite (peval_ge p1 x (N - a)) by (unfold N; lia). rewrite Rplus_0_l, <- rsum_scal_r. apply rsum_ext. intros i Hi.
  replace (a <=? a + i)%nat with true by lia. replace (a + i - a)%nat with i by lia. rewrite pow_add. ring.
Qed.
Lemma zPexMul_ok p1 p2 : p1 <> [] -> p2 <> [] ->
  (zero_poly p1 \/ zero_poly p2 -> zPexMul p1 p2 = UB) /\
  (~ zero_poly p1 -> ~ zero_poly p2 -> exists p, zPexMul p1 p2 = Ok (Some p) /\
     (forall k, coef p k = conv p1 p2 (length p2) k) /\ regular p /\ (length p <= length p1 + length p2 - 1)%nat).
Proof.
  intros N1 N2. unfold zPexMul.
  assert (1 <= length p1)%nat by (destruct p1; cbn; [congruence|lia]).
  assert (1 <= length p2)%nat by (destruct p2; cbn; [congruence|lia]).
  assert (pexalloc (length p1 + length p2 - 1) = Some (repeat 0 (length p1 + length p2 - 1))) as EA.
  { destruct (length p1 + length p2 - 1)%nat eqn:E; [lia|reflexivity]. }
  rewrite EA. destruct (mul_loops p1 p2 _ N1 N2 eq_refl) as (p & E & L & C).
  match type of E with ?l = _ => match goal with |- context [bind ?l' _] => change l' with l end end. rewrite E. cbn [bind].
  destruct (zPexRgl_ok p) as (Z1 & Z2). split.
  - intros Z. rewrite Z1; auto. intros k. rewrite C. unfold conv. apply rsum_0. intros a Ha.
    destruct Z as [Z|Z]; rewrite Z; [destruct (a <=? k)%nat|]; ring.
  - intros M1 M2. destruct (lead p1 M1) as (d1 & A1 & A2 & A3). destruct (lead p2 M2) as (d2 & B1 & B2 & B3).
    destruct Z2 as (p' & E' & P1 & P2 & P3).
    { intros Z. specialize (Z (d1 + d2)%nat). rewrite C, conv_lead in Z; auto.
      apply Rmult_integral in Z. tauto. }
    rewrite E'. cbn. exists p'. split; auto. split; [intros; now rewrite P1|]. split; auto. rewrite P3, firstn_length. lia.
Qed.

(** division *)
Definition pe (n : nat) (p : list R) (x : R) : R := rsum n (fun i => coef p i * x ^ i).
Lemma pe_peval p x : pe (length p) p x = peval p x. Proof. reflexivity. Qed.
Lemma divDRC_ok f : (2 <= length f)%nat -> coef f (length f - 1) <> 0 -> forall np p q,
  (np <= length p)%nat -> (np - (length f - 1) <= length q)%nat ->
  exists q' r, divDRC np p f q = Ok (q', r) /\ length q' = length q /\ (length r <= length f - 1)%nat /\
    (length f - 1 <= np -> length r = length f - 1)%nat /\
    (forall i, (np - (length f - 1) <= i)%nat -> coef q' i = coef q i) /\
    (forall x, pe np p x = peval r x + pe (np - (length f - 1)) q' x * peval f x).
Proof.
  intros Hf Hm. set (m := (length f - 1)%nat) in *.
  induction np as [|n IH]; intros p q Hp Hq; cbn [divDRC]; fold m.
  - exists q, (firstn 0 p). split; auto. split; auto. cbn. split; [lia|]. split; [lia|]. split; auto.
    intros x. unfold pe, peval; cbn. lra.
  - destruct (Nat.ltb_spec n m) as [H|H].
    + exists q, (firstn (S n) p). split; auto. split; auto. rewrite firstn_length. split; [lia|]. split; [lia|]. split; auto.
      intros x. rewrite (peval_ge _ x (S n)) by (rewrite firstn_length; lia).
      replace (S n - m)%nat with 0%nat by lia. change (pe 0 q x) with 0. rewrite Rmult_0_l, Rplus_0_r.
      unfold pe. apply rsum_ext. intros i Hi. rewrite coef_firstn. now replace (i <? S n)%nat with true by lia.
    + rewrite getc by lia. cbn [bind]. rewrite getc by lia. cbn [bind].
      set (a := coef p n / coef f m). rewrite setc by lia. cbn [bind].
      match goal with |- context [for_ 1 (S m) ?g _] =>
        destruct (for_inv (fun i p' => length p' = length p /\ forall j, coef p' j =
          if ((n <? j + i) && (j <? n))%nat then coef p j - a * coef f (j - (n - m)) else coef p j) 1 (S m) g p)
        as (p' & E & P1 & P2) end.
      * lia.
      * split; auto. intros j. destruct (Nat.ltb_spec n (j + 1)), (Nat.ltb_spec j n); cbn [andb]; auto; lia.
      * intros i p' Hi (P1 & P2). rewrite getc by lia. cbn [bind]. rewrite getc by lia. cbn [bind]. rewrite setc by lia.
        eexists; split; [reflexivity|]. rewrite upd_length. split; auto. intros j. rewrite coef_upd by lia.
        destruct (Nat.eqb_spec j (n - i)) as [->|Nj].
        { rewrite P2. replace (n <? n - i + i)%nat with false by lia. cbn [andb].
          replace (n <? n - i + S i)%nat with true by lia. replace (n - i <? n)%nat with true by lia. cbn [andb].
          now replace (n - i - (n - m))%nat with (m - i)%nat by lia. }
        { rewrite P2. destruct (Nat.ltb_spec j n); [|now rewrite !andb_false_r]. rewrite !andb_true_r.
          destruct (Nat.ltb_spec n (j + i)), (Nat.ltb_spec n (j + S i)); auto; lia. }
      * match type of E with ?l = _ => match goal with |- context [bind ?l' _] => change l' with l end end.
        rewrite E. cbn [bind].
        destruct (IH p' (upd q (n - m) a)) as (q' & r & E1 & Q1 & Q2 & Q3 & Q4 & Q5); [lia|rewrite upd_length; lia|].
        rewrite upd_length in *.
        exists q', r. split; [exact E1|]. split; auto. split; auto.
        assert (coef q' (n - m) = a) as Ea.
        { rewrite Q4 by lia. rewrite coef_upd by lia. now rewrite Nat.eqb_refl. }
        assert (forall i, (S n - m <= i)%nat -> coef q' i = coef q i) as Qi.
        { intros i Hi. rewrite Q4 by lia. rewrite coef_upd by lia. now replace (i =? n - m)%nat with false by lia. }
        split; [|split; auto].
        { intros Hn. destruct (Nat.eq_dec n (m - 1)); [lia|]. apply Q3. lia. }
        intros x. replace (S n - m)%nat with (S (n - m)) by lia. unfold pe at 2. cbn [rsum]. fold (pe (n - m) q' x).
        rewrite Rmult_plus_distr_r, <- Rplus_assoc, <- Q5, Ea.
        unfold pe. cbn [rsum]. replace (coef p n) with (a * coef f m) by (unfold a; now field).
        replace (length f) with (S m) by lia. unfold peval. replace (length f) with (S m) by lia. cbn [rsum].
        replace n with ((n - m) + m)%nat at 1 2 3 by lia. rewrite !rsum_app, pow_add.
        rewrite (rsum_ext (n - m) (fun i => coef p' i * x ^ i) (fun i => coef p i * x ^ i)).
        2:{ intros i Hi. rewrite P2. destruct (Nat.ltb_spec n (i + S m)); cbn [andb]; auto; lia. }
        rewrite (rsum_ext m (fun i => coef p' (n - m + i) * x ^ (n - m + i))
           (fun i => coef p (n - m + i)%nat * x ^ (n - m + i) - a * x ^ (n - m) * (coef f i * x ^ i))).
        2:{ intros i Hi. rewrite P2. replace (n - m + i <? n)%nat with true by lia.
            replace (n - m + i - (n - m))%nat with i by lia. rewrite pow_add.
            destruct (Nat.ltb_spec n (n - m + i + S m)); cbn [andb]; [ring|]. lia. }
        rewrite rsum_sub, rsum_scal. ring.
Qed.
Lemma zPexDiv_ok p f : (2 <= length f <= length p)%nat -> coef f (length f - 1) <> 0 ->
  exists q r, length q = (length p - length f + 1)%nat /\ length r = (length f - 1)%nat /\
    (forall x, peval p x = peval q x * peval f x + peval r x) /\
    (~ zero_poly r -> exists r', zPexDiv p f = Ok (Some (q, r')) /\ (forall i, coef r' i = coef r i) /\ regular r' /\
       (length r' < length f)%nat) /\
    (zero_poly r -> zPexDiv p f = UB).
Proof.
  intros Hl Hm. unfold zPexDiv. replace (length p =? 0)%nat with false by lia.
  assert (pexalloc (length p + 1 - length f) = Some (repeat 0 (length p + 1 - length f))) as ->.
  { destruct (length p + 1 - length f)%nat eqn:E; [lia|reflexivity]. }
  assert (pexalloc (length f - 1) = Some (repeat 0 (length f - 1))) as ->.
  { destruct (length f - 1)%nat eqn:E; [lia|reflexivity]. }
  destruct (divDRC_ok f ltac:(lia) Hm (length p) p (repeat 0 (length p + 1 - length f))) as (q & r & E & Q1 & Q2 & Q3 & Q4 & Q5);
    [lia|rewrite repeat_length; lia|].
  rewrite repeat_length in Q1. exists q, r. split; [lia|]. split; [apply Q3; lia|]. split.
  { intros x. rewrite <- pe_peval, Q5. replace (length p - (length f - 1))%nat with (length q) by lia.
    rewrite pe_peval. ring. }
  destruct (zPexRgl_ok r) as (Z1 & Z2). split.
  - intros Nz. destruct (Z2 Nz) as (r' & E' & R1 & R2 & R3). exists r'.
    rewrite E. cbn [bind]. rewrite E'. cbn. split; auto. split; auto. split; auto.
    rewrite R3, firstn_length. lia.
  - intros Z. rewrite E. cbn [bind]. now rewrite Z1.
Qed.
Lemma zPexDiv_none {T} {ST : Scalar T} (p f : list T) : p <> [] -> f <> [] -> (length f = 1 \/ length p < length f)%nat -> zPexDiv p f = Ok None.
Proof.
  intros Np Nf H. unfold zPexDiv. destruct p; [congruence|]. cbn [length Nat.eqb].
  destruct (pexalloc (S (length p) + 1 - length f)) eqn:E; auto.
  destruct H as [H|H].
  - rewrite H. reflexivity.
  - replace (S (length p) + 1 - length f)%nat with 0%nat in E by (cbn [length] in H; lia). discriminate.
Qed.

(** evaluation *)
Lemma zPexVal_ok p x : p <> [] -> zPexVal p x = Ok (peval p x).
Proof.
  intros N. assert (0 < length p)%nat by (destruct p; cbn; [congruence|lia]).
  unfold zPexVal. rs. destruct (Reqb_spec x 0) as [->|Nx].
  - rewrite getc by auto. f_equal. unfold peval. rewrite (rsum_delta _ 0); auto; [cbn; ring|].
    intros i Hi Ni. rewrite pow_i by lia. ring.
  - unfold getZ. replace (Z.of_nat (length p) - 1 <? 0)%Z with false by lia.
    replace (Z.to_nat (Z.of_nat (length p) - 1)) with (length p - 1)%nat by lia.
    rewrite getc by lia. cbn [bind].
    match goal with |- for_down ?n ?f ?s = _ =>
      destruct (for_down_inv (fun k v => v = rsum (length p - k) (fun i => coef p (k + i) * x ^ i)) n f s) as (v & E & V) end.
    + replace (length p - (length p - 1))%nat with 1%nat by lia. cbn. rewrite Nat.add_0_r. ring.
    + intros k v Hk ->. rewrite getc by lia. cbn [bind]. eexists; split; [reflexivity|].
      replace (length p - k)%nat with (S (length p - S k)) by lia. rewrite rsum_S_l. cbn [pow]. rewrite Nat.add_0_r.
      rs. rewrite Rplus_comm. f_equal; [ring|]. rewrite <- rsum_scal_r. apply rsum_ext. intros i Hi.
      replace (k + S i)%nat with (S k + i)%nat by lia. ring.
    + rewrite E, V, Nat.sub_0_r. reflexivity.
Qed.

(** calculus *)
Definition ndif (p : list R) : list R := map (fun i => INR (i + 1) * coef p (i + 1)) (List.seq 0 (length p - 1)).
Lemma nth_map_seq (f : nat -> R) n i : nth i (map f (List.seq 0 n)) 0 = if (i <? n)%nat then f i else 0.
Proof.
  destruct (Nat.ltb_spec i n).
  - rewrite nth_indep with (d' := f 0%nat) by (now rewrite map_length, seq_length).
    rewrite map_nth, seq_nth by auto. reflexivity.
  - apply nth_overflow. now rewrite map_length, seq_length.
Qed.
Lemma coef_ndif p i : coef (ndif p) i = INR (i + 1) * coef p (i + 1).
Proof.
  unfold coef, ndif. rewrite nth_map_seq. destruct (Nat.ltb_spec i (length p - 1)); auto.
  fold (coef p (i + 1)). rewrite coef_out by lia. ring.
Qed.
Lemma zPexDif_ok p : (2 <= length p)%nat -> zPexDif p = Ok (Some (ndif p)).
Proof.
  intros H. unfold zPexDif.
  assert (pexalloc (length p - 1) = Some (repeat 0 (length p - 1))) as ->.
  { destruct (length p - 1)%nat eqn:E; [lia|reflexivity]. }
  match goal with |- rmap Some (for_ ?a ?b ?f ?s) = _ =>
    destruct (for_inv (fun k q => length q = (length p - 1)%nat /\ forall i, (i < k)%nat -> coef q i = INR (i + 1) * coef p (i + 1)) a b f s)
      as (q & E & Q1 & Q2) end.
  - lia.
  - split; [apply repeat_length|lia].
  - intros k q Hk (Q1 & Q2). rewrite getc by lia. cbn [bind]. rewrite setc by lia. eexists; split; [reflexivity|].
    rewrite upd_length. split; auto. intros i Hi. rewrite coef_upd by lia. destruct (Nat.eqb_spec i k) as [->|]; [|apply Q2; lia].
    rs. rewrite <- INR_IZR_INZ. ring.
  - rewrite E. cbn. do 2 f_equal. apply coef_ext; [unfold ndif; now rewrite map_length, seq_length|].
    intros i. rewrite coef_ndif. destruct (Nat.lt_ge_cases i (length p - 1)); [apply Q2; lia|].
    rewrite !coef_out by lia. ring.
Qed.
Lemma zPexDif_const (c : R) : zPexDif [c] = Ok None. Proof. reflexivity. Qed.
Definition nintg (p : list R) : list R := map (fun i => match i with O => 0 | S j => coef p j / INR (j + 1) end) (List.seq 0 (length p + 1)).
Lemma coef_nintg p i : coef (nintg p) i = match i with O => 0 | S j => coef p j / INR (j + 1) end.
Proof.
  unfold coef at 1, nintg. rewrite nth_map_seq. destruct (Nat.ltb_spec i (length p + 1)); auto.
  destruct i; auto. rewrite coef_out by lia. unfold Rdiv. ring.
Qed.
Lemma zPexIntg_ok p : zPexIntg p = Ok (Some (nintg p)).
Proof.
  unfold zPexIntg.
  assert (pexalloc (length p + 1) = Some (repeat 0 (length p + 1))) as ->.
  { destruct (length p + 1)%nat eqn:E; [lia|reflexivity]. }
  match goal with |- rmap Some (for_ ?a ?b ?f ?s) = _ =>
    destruct (for_inv (fun k q => length q = (length p + 1)%nat /\ forall i, (i <= k)%nat -> coef q i = match i with O => 0 | S j => coef p j / INR (j + 1) end) a b f s)
      as (q & E & Q1 & Q2) end.
  - lia.
  - split; [apply repeat_length|]. intros i Hi. replace i with 0%nat by lia. apply coef_repeat.
  - intros k q Hk (Q1 & Q2). rewrite getc by lia. cbn [bind]. rewrite setc by lia. eexists; split; [reflexivity|].
    rewrite upd_length. split; auto. intros i Hi. rewrite coef_upd by lia. destruct (Nat.eqb_spec i (k + 1)) as [->|]; [|apply Q2; lia].
    rs. replace (k + 1)%nat with (S k) by lia. rewrite <- INR_IZR_INZ. now replace (k + 1)%nat with (S k) by lia.
  - rewrite E. cbn. do 2 f_equal. apply coef_ext; [unfold nintg; now rewrite map_length, seq_length|].
    intros i. rewrite coef_nintg. destruct (Nat.lt_ge_cases i (length p + 1)); [apply Q2; lia|].
    destruct i; [lia|]. rewrite !coef_out by lia. unfold Rdiv. ring.
Qed.
Lemma ndif_nintg p : ndif (nintg p) = p.
Proof.
  apply coef_ext.
  - unfold ndif, nintg. rewrite !map_length, !seq_length. lia.
  - intros i. rewrite coef_ndif, coef_nintg. replace (i + 1)%nat with (S i) by lia. replace (i + 1)%nat with (S i) by lia.
    field. apply not_0_INR. lia.
Qed.

From Coquelicot Require Import Coquelicot.
Lemma is_derive_rsum n (f : nat -> R -> R) (f' : nat -> R) x :
  (forall i, (i < n)%nat -> is_derive (f i) x (f' i)) ->
  is_derive (fun x => rsum n (fun i => f i x)) x (rsum n f').
Proof.
  induction n as [|n IH]; intros H; cbn.
  - apply (is_derive_const 0).
  - apply (is_derive_plus (fun x => rsum n (fun i => f i x)) (f n)); auto.
Qed.
Lemma is_derive_peval p (x : R) : is_derive (peval p) x (peval (ndif p) x).
Proof.
  assert (peval (ndif p) x = rsum (length p) (fun i => coef p i * (INR i * x ^ pred i))) as ->.
  { rewrite (peval_ge (ndif p) x (length p - 1)) by (unfold ndif; now rewrite map_length, seq_length).
    destruct (length p) as [|n] eqn:E.
    - reflexivity.
    - rewrite rsum_S_l. change (INR 0) with 0. replace (S n - 1)%nat with n by lia. rewrite Rmult_0_l, Rmult_0_r, Rplus_0_l.
      apply rsum_ext. intros i Hi. rewrite coef_ndif. replace (i + 1)%nat with (S i) by lia. cbn [pred]. ring. }
  apply (is_derive_rsum (length p) (fun i x => coef p i * x ^ i)). intros i Hi. auto_derive; auto. rs.
  destruct i; cbn; ring.
Qed.
Fixpoint ndifs (d : nat) (p : list R) : list R := match d with O => p | S d => ndif (ndifs d p) end.
Lemma Derive_n_peval d : forall p x, Derive_n (peval p) d x = peval (ndifs d p) x.
Proof.
  induction d as [|d IH]; intros p x; cbn; auto.
  rewrite (Derive_ext _ (peval (ndifs d p))) by (intros; apply IH). apply is_derive_unique, is_derive_peval.
Qed.
Lemma coef_ndifs d p i : coef (ndifs d p) i = INR (fact (i + d)) / INR (fact i) * coef p (i + d).
Proof.
  revert i; induction d as [|d IH]; intros i; cbn [ndifs].
  - rewrite Nat.add_0_r. field. apply INR_fact_neq_0.
  - rewrite coef_ndif, IH. replace (i + 1 + d)%nat with (i + S d)%nat by lia.
    replace (i + 1)%nat with (S i) by lia. rewrite (fact_simpl i), mult_INR. field. split; [apply INR_fact_neq_0|apply not_0_INR; lia].
Qed.
Lemma length_ndifs d p : length (ndifs d p) = (length p - d)%nat.
Proof. induction d as [|d IH]; cbn; [lia|]. unfold ndif. rewrite map_length, seq_length. lia. Qed.
Lemma zPexDifVal_ok p d x : p <> [] -> zPexDifVal p d x = Ok (Derive_n (peval p) d x).
Proof.
  intros N. assert (0 < length p)%nat by (destruct p; cbn; [congruence|lia]).
  rewrite Derive_n_peval. unfold zPexDifVal, getZ. replace (Z.of_nat (length p) - 1 <? 0)%Z with false by lia.
  replace (Z.to_nat (Z.of_nat (length p) - 1)) with (length p - 1)%nat by lia. rewrite getc by lia. cbn [bind].
  set (n := (length p - 1)%nat). destruct (Nat.lt_ge_cases n d) as [Hd|Hd].
  - replace (n - d)%nat with 0%nat by lia. cbn [for_down bind]. rewrite zPermutation_out by lia.
    unfold peval. rewrite length_ndifs. replace (length p - d)%nat with 0%nat by lia. cbn. rs. now rewrite Rmult_0_l.
  - rewrite zPermutation_in by auto.
    match goal with |- (bind (for_down ?m ?f ?s) _) = _ =>
      destruct (for_down_inv (fun k cr => fst cr = INR (fact (k + d)) / INR (fact k) /\
          snd cr = rsum (length p - d - k) (fun i => coef (ndifs d p) (k + i) * x ^ i)) m f s) as ((c & r) & E & _ & V) end.
    + cbn [fst snd]. replace (n - d + d)%nat with n by lia. split; auto. replace (length p - d - (n - d))%nat with 1%nat by lia.
      cbn [rsum]. rewrite Nat.add_0_r, coef_ndifs. replace (n - d + d)%nat with n by lia. rs. cbn. ring.
    + intros k (c & r) Hk (C & V). cbn [fst snd] in *. rewrite getc by lia. cbn [bind]. eexists; split; [reflexivity|]. cbn [fst snd].
      rs. rewrite <- !INR_IZR_INZ.
      assert (c * (INR (d + k + 1 - d) / INR (d + k + 1)) = INR (fact (k + d)) / INR (fact k)) as Ec.
      { rewrite C. replace (d + k + 1 - d)%nat with (S k) by lia. replace (d + k + 1)%nat with (S (k + d)) by lia.
        replace (S k + d)%nat with (S (k + d)) by lia. rewrite (fact_simpl (k + d)), (fact_simpl k), !mult_INR.
        field. repeat split; try apply INR_fact_neq_0; apply not_0_INR; lia. }
      split; auto. rewrite Ec, V. replace (length p - d - k)%nat with (S (length p - d - S k)) by lia.
      rewrite rsum_S_l, Nat.add_0_r, coef_ndifs. replace (d + k + 1 - 1)%nat with (k + d)%nat by lia. cbn [pow].
      rewrite <- rsum_scal_r. f_equal; [ring|]. apply rsum_ext. intros i Hi. replace (k + S i)%nat with (S k + i)%nat by lia. ring.
    + rewrite E. cbn. f_equal. cbn [snd] in V. rewrite V. unfold peval. rewrite length_ndifs, Nat.sub_0_r. reflexivity.
Qed.

(** zPexModulo: rearrangement in powers of x + a *)
Lemma zPexModulo_ok p a p2 : length p2 = length p -> p <> [] ->
  exists b, zPexModulo p a p2 = Ok (Some b) /\ length b = length p /\ forall x, peval b (x + a) = peval p x.
Proof.
  intros L2 N. assert (0 < length p)%nat by (destruct p; cbn; [congruence|lia]).
  unfold zPexModulo. rewrite L2, Nat.eqb_refl. cbn [negb]. set (n := (length p - 1)%nat).
  match goal with |- context [for_down ?m ?f ?s] =>
    destruct (for_down_inv (fun i b => length b = length p /\ (forall j, (j < i)%nat -> coef b j = coef p j) /\
       forall x, rsum (length p - i) (fun k => coef b (i + k) * (x + a) ^ k) = rsum (length p - i) (fun k => coef p (i + k) * x ^ k)) m f s)
    as (b & E & B1 & _ & B3) end.
  - split; auto. split; auto. intros x. replace (length p - n)%nat with 1%nat by lia. cbn. ring.
  - intros i b Hi (B1 & B2 & B3).
    match goal with |- context [for_ ?lo ?hi ?f _] =>
      destruct (for_inv (fun j q => length q = length p /\ forall k, coef q k =
        if ((i <=? k) && (k <? j))%nat then coef b k - a * coef b (k + 1) else coef b k) lo hi f b) as (q & E & Q1 & Q2) end.
    + lia.
    + split; auto. intros k. destruct (Nat.leb_spec i k), (Nat.ltb_spec k i); cbn [andb]; auto; lia.
    + intros j q Hj (Q1 & Q2). rewrite getc by lia. cbn [bind]. rewrite getc by lia. cbn [bind]. rewrite setc by lia.
      eexists; split; [reflexivity|]. rewrite upd_length. split; auto. intros k. rewrite coef_upd by lia.
      destruct (Nat.eqb_spec k j) as [->|Nk].
      * rewrite !Q2. replace (j <? j)%nat with false by lia. replace (j + 1 <? j)%nat with false by lia. rewrite !andb_false_r.
        replace (i <=? j)%nat with true by lia. now replace (j <? S j)%nat with true by lia.
      * rewrite Q2. destruct (Nat.leb_spec i k); cbn [andb]; auto. destruct (Nat.ltb_spec k j), (Nat.ltb_spec k (S j)); auto; lia.
    + exists q. split; [exact E|]. split; auto. split.
      * intros j Hj. rewrite Q2. replace (i <=? j)%nat with false by lia. cbn [andb]. apply B2. lia.
      * intros x. set (M := (length p - S i)%nat) in *. replace (length p - i)%nat with (S M) by lia.
        rewrite (rsum_S_l M (fun k => coef p (i + k) * x ^ k)).
        rewrite (rsum_ext M (fun k => coef p (i + S k) * x ^ S k) (fun k => x * (coef p (S i + k) * x ^ k))).
        2:{ intros k Hk. replace (i + S k)%nat with (S i + k)%nat by lia. cbn [pow]. ring. }
        rewrite rsum_scal, <- B3.
        assert (rsum (S M) (fun k => coef q (i + k) * (x + a) ^ k)
          = rsum (S M) (fun k => coef b (i + k) * (x + a) ^ k) - a * rsum M (fun k => coef b (S i + k) * (x + a) ^ k)) as ->.
        { cbn [rsum]. rewrite (Q2 (i + M)%nat). replace (i + M <? n)%nat with false by lia. rewrite andb_false_r.
          rewrite <- rsum_scal.
          rewrite (rsum_ext M (fun k => coef q (i + k) * (x + a) ^ k)
             (fun k => coef b (i + k) * (x + a) ^ k - a * (coef b (S i + k) * (x + a) ^ k))).
          2:{ intros k Hk. rewrite Q2. replace (i <=? i + k)%nat with true by lia. replace (i + k <? n)%nat with true by lia.
              cbn [andb]. replace (i + k + 1)%nat with (S i + k)%nat by lia. ring. }
          rewrite rsum_sub. ring. }
        rewrite rsum_S_l.
        rewrite (rsum_ext M (fun k => coef b (i + S k) * (x + a) ^ S k) (fun k => (x + a) * (coef b (S i + k) * (x + a) ^ k))).
        2:{ intros k Hk. replace (i + S k)%nat with (S i + k)%nat by lia. cbn [pow]. ring. }
        rewrite rsum_scal, Nat.add_0_r, B2 by lia. cbn [pow]. ring.
  - exists b. unfold n in *. rewrite E. split; auto. split; auto. intros x. unfold peval. rewrite B1.
    specialize (B3 x). rewrite Nat.sub_0_r in B3. exact B3.
Qed.
Lemma zPexModulo_mismatch {T} `{Scalar T} (p p2 : list T) a : length p2 <> length p -> zPexModulo p a p2 = Ok None.
Proof. intros N. unfold zPexModulo. destruct (Nat.eqb_spec (length p) (length p2)); [congruence|reflexivity]. Qed.

(** zPexExp *)
Definition pow2 (n : nat) : Prop := exists k, n = (2 ^ k)%nat.
Lemma roots_prod_app l1 l2 x : roots_prod (l1 ++ l2) x = roots_prod l1 x * roots_prod l2 x.
Proof. unfold roots_prod. induction l1 as [|r l1 IH]; cbn [app fold_right]; [ring|]. rewrite IH. ring. Qed.
Definition monic (n : nat) (p : list R) : Prop := length p = S n /\ coef p n = 1.
Lemma monic_mul p1 p2 n1 n2 : monic n1 p1 -> monic n2 p2 ->
  exists p, zPexMul p1 p2 = Ok (Some p) /\ monic (n1 + n2) p /\ forall x, peval p x = peval p1 x * peval p2 x.
Proof.
  intros (L1 & C1) (L2 & C2).
  assert (p1 <> []) as N1 by (intros ->; discriminate). assert (p2 <> []) as N2 by (intros ->; discriminate).
  destruct (zPexMul_ok p1 p2 N1 N2) as (_ & H). destruct H as (p & E & P1 & P2 & P3).
  { intros Z. rewrite Z in C1. lra. } { intros Z. rewrite Z in C2. lra. }
  exists p. split; auto.
  assert (coef p (n1 + n2) = 1) as C.
  { rewrite P1, (conv_lead p1 p2 n1 n2); [rewrite C1, C2; ring|lia| |]; intros i Hi; apply coef_out; lia. }
  split; [split; auto|now intros; apply peval_conv].
  destruct (Nat.lt_ge_cases (n1 + n2) (length p)); [lia|]. rewrite coef_out in C by auto. lra.
Qed.
Lemma skipn_skipn {A} a b (l : list A) : skipn a (skipn b l) = skipn (a + b) l.
Proof.
  revert l; induction b as [|b IH]; intros l; [now rewrite Nat.add_0_r|]. rewrite Nat.add_succ_r.
  destruct l; cbn [skipn]; [now rewrite skipn_nil|apply IH].
Qed.
Lemma pow2_half n : pow2 n -> n <> 1%nat -> pow2 (n / 2) /\ (n - n / 2 = n / 2)%nat.
Proof.
  intros (k & ->) H. destruct k as [|k]; [cbn in H; lia|].
  assert (2 ^ S k / 2 = 2 ^ k)%nat as E by (rewrite Nat.pow_succ_r', Nat.mul_comm; apply Nat.div_mul; lia).
  rewrite E. split; [now exists k|]. rewrite Nat.pow_succ_r'. lia.
Qed.
Lemma pexexp_ok strict : forall fuel size b, (1 <= size <= fuel)%nat -> (size <= length b)%nat -> (strict = false \/ pow2 size) ->
  exists p b', pexexp fuel strict size b = Ok (Some p, b') /\ length b' = length b /\ skipn size b' = skipn size b /\
    monic size p /\ forall x, peval p x = roots_prod (firstn size b) x.
Proof.
  induction fuel as [|fuel IH]; intros size b Hs Hb HS; [lia|]. cbn [pexexp].
  destruct (Nat.eqb_spec size 1) as [->|N1].
  - destruct b as [|x b]; [cbn in Hb; lia|]. cbn. rs. exists [- x; 1], (x :: b). split; auto. split; auto. split; auto.
    split; [split; auto|]. intros y. rewrite !peval_cons. cbn. unfold peval. cbn. ring.
  - set (h := (size / 2)%nat).
    assert (1 <= h)%nat by (apply Nat.div_le_lower_bound; lia).
    assert (h < size)%nat by (apply Nat.div_lt; lia).
    assert (2 * h <= size)%nat by (apply Nat.mul_div_le; lia).
    assert (strict = false \/ pow2 h) as S1 by (destruct HS; auto; right; now apply pow2_half).
    destruct (IH h b ltac:(lia) ltac:(lia) S1) as (p1 & b1 & E1 & L1 & K1 & M1 & V1). rewrite E1. cbn [bind].
    unfold memcpy_down.
    assert ((strict && (h <? size - h)%nat) = false) as ->.
    { destruct HS as [->|HS]; auto. destruct (pow2_half size HS N1) as (_ & E). fold h in E. rewrite E.
      rewrite Nat.ltb_irrefl. apply andb_false_r. }
    replace (length b1 <? h + (size - h))%nat with false by lia. cbn [bind].
    set (b2 := firstn (size - h) (skipn h b1) ++ skipn (size - h) b1).
    assert (length b2 = length b) as L2 by (unfold b2; rewrite app_length, firstn_length, !skipn_length; lia).
    assert (strict = false \/ pow2 (size - h)) as S2.
    { destruct HS as [->|HS]; auto. right. destruct (pow2_half size HS N1) as (P & E). fold h in E, P. now rewrite E. }
    destruct (IH (size - h)%nat b2 ltac:(lia) ltac:(lia) S2) as (p2 & b3 & E2 & L3 & K3 & M2 & V2). rewrite E2. cbn [bind].
    destruct (monic_mul p1 p2 h (size - h) M1 M2) as (p & E & M & V). rewrite E. cbn [bind].
    exists p, b3. split; auto. split; [lia|].
    assert (length (firstn (size - h) (skipn h b1)) = (size - h)%nat) as LF by (rewrite firstn_length, skipn_length; lia).
    split; [|split].
    + assert (forall (l l' : list R) a c, (a <= c)%nat -> skipn a l = skipn a l' -> skipn c l = skipn c l') as SK.
      { intros l l' a c Hac Hl. replace c with ((c - a) + a)%nat by lia. now rewrite <- !skipn_skipn, Hl. }
      rewrite (SK b3 b2 (size - h)%nat size) by (auto; lia). unfold b2.
      rewrite skipn_app, LF. rewrite skipn_all2 by (rewrite LF; lia). cbn [app].
      rewrite skipn_skipn. replace (size - (size - h) + (size - h))%nat with size by lia.
      apply (SK b1 b h size); auto. lia.
    + replace size with (h + (size - h))%nat by lia. auto.
    + intros x. rewrite V, V1, V2. replace (firstn size b) with (firstn h b ++ firstn (size - h) (skipn h b)).
      2:{ rewrite <- (firstn_skipn h (firstn size b)). rewrite firstn_firstn, skipn_firstn_comm. f_equal. f_equal. lia. }
      rewrite roots_prod_app. f_equal. f_equal. unfold b2. rewrite firstn_app, LF, Nat.sub_diag. cbn [firstn]. rewrite app_nil_r.
      rewrite firstn_all2 by (rewrite LF; lia). now rewrite K1.
Qed.
Lemma zPexExp_ok strict rs : rs <> [] -> strict = false \/ pow2 (length rs) ->
  exists p, zPexExp strict rs = Ok (Some p) /\ monic (length rs) p /\ forall x, peval p x = roots_prod rs x.
Proof.
  intros N HS. unfold zPexExp. assert (1 <= length rs)%nat by (destruct rs; cbn; [congruence|lia]).
  destruct (pexexp_ok strict (length rs) (length rs) rs ltac:(lia) ltac:(lia) HS) as (p & b & E & _ & _ & M & V).
  destruct rs as [|r rs]; [congruence|]. rewrite E. cbn [bind]. exists p. split; auto. split; auto.
  intros x. rewrite V. now rewrite firstn_all.
Qed.
