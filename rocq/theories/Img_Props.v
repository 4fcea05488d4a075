(** C128: extreme elements and the picture of a matrix. *)
From Coq Require Import Reals Lra Lia Ascii.
From Verif Require Import Prelude Prelude_Proofs Scalar RealLib Fmat Fmat_Proofs Stat_Model Stat_Proofs Stat3_Proofs Stat_Props Img_Model.
Local Open Scope R_scope.

(** ** extreme elements *)
(** x is the first best element in the order of the rows, at (i, j) *)
Definition first_best_mat (key : R -> R) (le lt : R -> R -> Prop) (m : fmat R) (x : R) (i j : nat) : Prop :=
  (i < nr m)%nat /\ (j < nc m)%nat /\ x = key (el m i j) /\
  (forall p q, (p < nr m)%nat -> (q < nc m)%nat -> le x (key (el m p q))) /\
  (forall p q, (p < nr m)%nat -> (q < nc m)%nat -> (p < i)%nat \/ (p = i /\ (q < j)%nat) -> lt x (key (el m p q))).
Lemma rowlist_nth (m : fmat R) i j : (j < nc m)%nat -> nth j (rowlist m i) 0 = el m i j.
Proof.
  intros H. unfold rowlist. rewrite (nth_indep _ 0 (el m i 0)) by (now rewrite map_length, seq_length).
  rewrite (map_nth (el m i)), seq_nth by auto. reflexivity.
Qed.
Lemma mat_search_ok key le lt data isb (m : fmat R) :
  (0 < nr m)%nat -> (0 < nc m)%nat ->
  (forall l n, (0 < n <= length l)%nat -> exists x i, data l n = Ok (x, i) /\ first_best key le lt l n x i) ->
  (forall a b, isb (key a) (key b) = true <-> lt (key a) (key b)) ->
  (forall x y, ~ lt x y -> le y x) -> (forall x y, lt x y -> le x y) ->
  (forall x y z, le x y -> le y z -> le x z) -> (forall x y z, lt x y -> le y z -> lt x z) -> (forall x y z, le x y -> lt y z -> lt x z) ->
  exists x i j, mat_search data isb m = Ok (Some (x, i, j)) /\ first_best_mat key le lt m x i j.
Proof.
  intros Hr Hc HD HB H1 H2 T1 T2 T3. unfold mat_search.
  match goal with |- context [for_ 0 (nr m) ?f ?s] =>
    destruct (for_inv (fun k (r : option (R * nat * nat)) => match r with
      | None => k = O
      | Some (x, i, j) => (i < k)%nat /\ (j < nc m)%nat /\ x = key (el m i j) /\
         (forall p q, (p < k)%nat -> (q < nc m)%nat -> le x (key (el m p q))) /\
         (forall p q, (p < k)%nat -> (q < nc m)%nat -> (p < i)%nat \/ (p = i /\ (q < j)%nat) -> lt x (key (el m p q)))
      end) 0 (nr m) f s) as (r & E & I) end.
  - lia.
  - reflexivity.
  - intros k r Hk I.
    destruct (HD (rowlist m k) (nc m)) as (y & c & E & B1 & B2 & B3 & B4); [unfold rowlist; rewrite map_length, seq_length; lia|].
    rewrite E. cbn [bind]. rewrite rowlist_nth in B2 by auto.
    assert (B3' : forall q, (q < nc m)%nat -> le y (key (el m k q))) by (intros q Hq; rewrite <- (rowlist_nth m k q) by auto; auto).
    assert (B4' : forall q, (q < c)%nat -> lt y (key (el m k q))) by (intros q Hq; rewrite <- (rowlist_nth m k q) by lia; auto).
    replace (nan_ y) with false by (unfold nan_; cbn [seq RealS]; destruct (Reqb_spec y y); cbn; congruence).
    eexists. split; [reflexivity|]. destruct r as [((x & i) & j)|].
    + destruct I as (I1 & I2 & I3 & I4 & I5).
      assert (HI : isb y x = true <-> lt y x) by (rewrite B2, I3; apply HB).
      destruct (isb y x).
      * assert (L : lt y x) by now apply HI. split; [lia|]. split; [auto|]. split; [auto|]. split.
        -- intros p q Hp Hq. destruct (Nat.eq_dec p k) as [->|]; [auto|]. eapply T1; [apply H2, L|]. apply I4; lia.
        -- intros p q Hp Hq [A|(-> & A)]; [|auto]. eapply T2; [exact L|]. apply I4; lia.
      * assert (L : ~ lt y x) by (intros A; apply HI in A; discriminate). split; [lia|]. split; [auto|]. split; [auto|]. split.
        -- intros p q Hp Hq. destruct (Nat.eq_dec p k) as [->|]; [eapply T1; [apply H1, L|auto]|]. apply I4; lia.
        -- intros p q Hp Hq A. apply I5; auto; lia.
    + subst k. split; [lia|]. split; [auto|]. split; [auto|]. split.
      * intros p q Hp Hq. replace p with 0%nat by lia. auto.
      * intros p q Hp Hq [A|(-> & A)]; [lia|auto].
  - rewrite E. destruct r as [((x & i) & j)|]; [|lia]. exists x, i, j. split; auto.
Qed.
Theorem C128_extrema (m : fmat R) : (0 < nr m)%nat -> (0 < nc m)%nat ->
  (exists x i j, zMatElemMax m = Ok (Some (x, i, j)) /\ first_best_mat (fun x => x) Rge Rgt m x i j) /\
  (exists x i j, zMatElemMin m = Ok (Some (x, i, j)) /\ first_best_mat (fun x => x) Rle Rlt m x i j) /\
  (exists x i j, zMatElemAbsMax m = Ok (Some (x, i, j)) /\ first_best_mat Rabs Rge Rgt m x i j) /\
  (exists x i j, zMatElemAbsMin m = Ok (Some (x, i, j)) /\ first_best_mat Rabs Rle Rlt m x i j).
Proof.
  intros Hr Hc. repeat split; apply mat_search_ok; auto; try (intros; lra);
    try (intros l n H; destruct (C53_extrema l n H) as (A & B & C & D); assumption);
    intros a b; cbn [slt sabs RealS]; rewrite ?Rabs_Rabsolu, Rltb_iff; lra.
Qed.

(** ** the picture *)
(** the shade of an element: 0 to 3 for the nearest quarter of the greatest magnitude mx *)
Definition level (mx x : R) (k : nat) : Prop :=
  (k = 0%nat /\ Rabs x < mx / 8) \/ (k = 1%nat /\ mx / 8 <= Rabs x < 3 * mx / 8) \/
  (k = 2%nat /\ 3 * mx / 8 <= Rabs x < 5 * mx / 8) \/ (k = 3%nat /\ 5 * mx / 8 <= Rabs x).
(** the character: a blank for a tiny element, else its shade; the dot for small negative elements is
    never used, they have the comma of the positive ones *)
Definition shows (tol mx x : R) (ch : ascii) : Prop :=
  if Rleb (Rabs x) tol then ch = " "%char else
  exists k, level mx x k /\
    ch = if Rltb x 0 then nth k [","; "o"; "O"; "@"]%char " "%char else nth k [","; "x"; "*"; "M"]%char " "%char.

Lemma toint_small x : -6 < x < 6 -> exists z, toint_R x = Some z /\ (0 <= x -> IZR z <= x < IZR z + 1) /\ (x < 0 -> IZR z - 1 < x <= IZR z) /\ (-6 <= z <= 6)%Z.
Proof.
  intros H. unfold toint_R. set (z := if Rltb x 0 then (- Int_part (- x))%Z else Int_part x).
  assert (A : (0 <= x -> IZR z <= x < IZR z + 1) /\ (x < 0 -> IZR z - 1 < x <= IZR z)).
  { unfold z. destruct (Rltb_spec x 0).
    - destruct (Int_part_bounds (- x)). rewrite opp_IZR. split; intros; lra.
    - destruct (Int_part_bounds x). split; intros; lra. }
  assert (B : (-6 <= z <= 6)%Z).
  { destruct A as (A1 & A2). destruct (Rlt_le_dec x 0) as [N|N].
    - specialize (A2 N). assert (C : (-7 < z)%Z) by (apply lt_IZR; lra). assert (D : (z < 1)%Z) by (apply lt_IZR; lra). lia.
    - specialize (A1 N). assert (C : (-1 < z)%Z) by (apply lt_IZR; lra). assert (D : (z < 6)%Z) by (apply lt_IZR; lra). lia. }
  exists z. destruct (Z.leb_spec (-2147483648) z); [|lia]. destruct (Z.leb_spec z 2147483647); [|lia]. cbn [andb]. destruct A; auto.
Qed.
Lemma img_char_ok tol mx x : 0 <= tol -> Rabs x <= mx -> exists ch, img_char toint_R tol (1 / 4 * mx) x = Ok ch /\ shows tol mx x ch.
Proof.
  intros Ht Hx. unfold img_char, shows, is_tol. cbn [sle sabs RealS]. destruct (Rleb_spec (Rabs x) tol) as [|N]; [eexists; split; reflexivity|].
  assert (P : 0 < mx) by lra. unfold zRound. cbn [sle sdiv s0 s1 sadd ssub sofZ RealS].
  set (y := x / (1 / 4 * mx)). assert (Y : x = y * mx / 4) by (unfold y; field; lra).
  assert (YB : -4 <= y <= 4). { revert Hx. unfold Rabs. destruct Rcase_abs; intros; split; nra. }
  destruct (Rleb_spec 0 y) as [S|S].
  - assert (X0 : 0 <= x) by nra. destruct (Rltb_spec x 0); [lra|].
    destruct (toint_small (y + 1 / 2)) as (z & -> & Z1 & _ & Z3); [lra|]. cbn [bind]. specialize (Z1 ltac:(lra)).
    assert (A : (0 <= z)%Z). { assert ((-1 < z)%Z) by (apply lt_IZR; lra). lia. }
    destruct (Z.ltb_spec z (-3)); [lia|].
    assert (Q : (z = 0 \/ z = 1 \/ z = 2 \/ 3 <= z)%Z) by lia.
    destruct Q as [->|[->|[->|Q]]].
    + cbn. eexists; split; [reflexivity|]. exists 0%nat. split; [|reflexivity]. left. split; auto. rewrite Rabs_right by lra. nra.
    + cbn. eexists; split; [reflexivity|]. exists 1%nat. split; [|reflexivity]. right; left. split; auto. rewrite Rabs_right by lra. split; nra.
    + cbn. eexists; split; [reflexivity|]. exists 2%nat. split; [|reflexivity]. right; right; left. split; auto. rewrite Rabs_right by lra. split; nra.
    + assert (IZR z >= 3) by (apply Rle_ge, IZR_le; auto).
      replace (if (3 <? z)%Z then 3%Z else z) with 3%Z by (destruct (Z.ltb_spec 3 z); lia). cbn.
      eexists; split; [reflexivity|]. exists 3%nat. split; [|reflexivity]. right; right; right. split; auto. rewrite Rabs_right by lra. nra.
  - assert (X0 : x < 0) by nra. destruct (Rltb_spec x 0); [|lra].
    destruct (toint_small (y - 1 / 2)) as (z & -> & _ & Z2 & Z3); [lra|]. cbn [bind]. specialize (Z2 ltac:(lra)).
    assert (A : (z <= 0)%Z). { assert ((z < 1)%Z) by (apply lt_IZR; lra). lia. }
    assert (Q : (z = 0 \/ z = -1 \/ z = -2 \/ z <= -3)%Z) by lia.
    destruct Q as [->|[->|[->|Q]]].
    + cbn. eexists; split; [reflexivity|]. exists 0%nat. split; [|reflexivity]. left. split; auto. rewrite Rabs_left by lra. nra.
    + cbn. eexists; split; [reflexivity|]. exists 1%nat. split; [|reflexivity]. right; left. split; auto. rewrite Rabs_left by lra. split; nra.
    + cbn. eexists; split; [reflexivity|]. exists 2%nat. split; [|reflexivity]. right; right; left. split; auto. rewrite Rabs_left by lra. split; nra.
    + assert (IZR z <= -3) by (apply IZR_le; auto).
      replace (if (z <? -3)%Z then (-3)%Z else if (3 <? z)%Z then 3%Z else z) with (-3)%Z by (destruct (Z.ltb_spec z (-3)); [|destruct (Z.ltb_spec 3 z)]; lia). cbn.
      eexists; split; [reflexivity|]. exists 3%nat. split; [|reflexivity]. right; right; right. split; auto. rewrite Rabs_left by lra. nra.
Qed.
Lemma loop_list {A} (f : nat -> res A) (P : nat -> A -> Prop) n (d : A) : (forall i, (i < n)%nat -> exists a, f i = Ok a /\ P i a) ->
  exists l, for_ 0 n (fun i l => a <- f i ;; Ok (l ++ [a])) [] = Ok l /\ length l = n /\ forall i, (i < n)%nat -> P i (nth i l d).
Proof.
  intros H. destruct (for_inv (fun k l => length l = k /\ forall i, (i < k)%nat -> P i (nth i l d)) 0 n (fun i l => a <- f i ;; Ok (l ++ [a])) []) as (l & E & A1 & A2).
  - lia.
  - split; [reflexivity|intros; lia].
  - intros k l Hk (A1 & A2). destruct (H k) as (a & E & Pa); [lia|]. rewrite E. cbn [bind]. eexists. split; [reflexivity|]. split.
    + rewrite app_length. cbn. lia.
    + intros i Hi. destruct (Nat.eq_dec i k) as [->|].
      * rewrite app_nth2 by lia. rewrite A1, Nat.sub_diag. exact Pa.
      * rewrite app_nth1 by lia. apply A2. lia.
  - exists l. auto.
Qed.
(** The picture of every matrix is drawn without reading outside the patterns and without an overflow of the
    conversion to int, and every character is the one of its element. *)
Theorem C128_image tol (m : fmat R) : 0 <= tol -> (0 < nr m)%nat -> (0 < nc m)%nat -> exists mx img,
  (exists i j, (i < nr m)%nat /\ (j < nc m)%nat /\ mx = Rabs (el m i j)) /\ (forall i j, (i < nr m)%nat -> (j < nc m)%nat -> Rabs (el m i j) <= mx) /\
  zMatImg toint_R tol m = Ok img /\ length img = nr m /\
  forall i, (i < nr m)%nat -> length (nth i img []) = nc m /\ forall j, (j < nc m)%nat -> shows tol mx (el m i j) (nth j (nth i img []) "000"%char).
Proof.
  intros Ht Hr Hc. destruct (C128_extrema m Hr Hc) as (_ & _ & (mx & i0 & j0 & E & B1 & B2 & B3 & B4 & _) & _).
  assert (B : forall i j, (i < nr m)%nat -> (j < nc m)%nat -> Rabs (el m i j) <= mx) by (intros; apply Rge_le; auto).
  unfold zMatImg. rewrite E. cbn [bind sofZ smul sdiv RealS].
  destruct (loop_list (fun i => for_ 0 (nc m) (fun j l => ch <- img_char toint_R tol (1 / 4 * mx) (el m i j) ;; Ok (l ++ [ch])) [])
    (fun i l => length l = nc m /\ forall j, (j < nc m)%nat -> shows tol mx (el m i j) (nth j l "000"%char)) (nr m) []) as (img & E2 & L & G).
  - intros i Hi. apply (loop_list (fun j => img_char toint_R tol (1 / 4 * mx) (el m i j)) (fun j ch => shows tol mx (el m i j) ch) (nc m)).
    intros j Hj. apply img_char_ok; auto.
  - exists mx, img. split; [eauto|]. split; [auto|]. split; [exact E2|]. split; auto.
Qed.
(** Refuted: the sign of an element that is not tiny can be seen.  In the picture of (8, -0.5, 0.5) the last two are alike. *)
Theorem C128_sign_refuted : exists (m : fmat R) img, zMatImg toint_R (1 / 1000) m = Ok img /\ el m 0 1 < 0 < el m 0 2 /\ 1 / 1000 < Rabs (el m 0 1) /\
  nth 1 (nth 0 img []) " "%char = nth 2 (nth 0 img []) " "%char.
Proof.
  set (m := FM 1 3 (fun _ j => nth j [8; -1 / 2; 1 / 2] 0)). destruct (C128_image (1 / 1000) m) as (mx & img & (i & j & Hi & Hj & M) & B & E & L & G); [lra|cbn; lia|cbn; lia|].
  assert (MX : mx = 8).
  { apply Rle_antisym.
    - rewrite M. cbn in Hi, Hj. replace i with 0%nat by lia. destruct j as [|[|[|j]]]; [| | |lia]; cbn; unfold Rabs; destruct Rcase_abs; lra.
    - generalize (B 0%nat 0%nat ltac:(cbn; lia) ltac:(cbn; lia)). cbn. unfold Rabs. destruct Rcase_abs; lra. }
  exists m, img. split; [exact E|]. split; [cbn; lra|]. split; [cbn; unfold Rabs; destruct Rcase_abs; lra|].
  destruct (G 0%nat ltac:(cbn; lia)) as (LR & G').
  assert (A : forall q, (q = 1 \/ q = 2)%nat -> nth q (nth 0 img []) " "%char = ","%char).
  { intros q Hq. assert (Hq' : (q < nc m)%nat) by (cbn; lia). specialize (G' q Hq'). rewrite (nth_indep _ _ "000"%char) by lia.
    assert (X : Rabs (el m 0 q) = 1 / 2) by (destruct Hq as [->| ->]; cbn; unfold Rabs; destruct Rcase_abs; lra).
    unfold shows in G'. rewrite X in G'. destruct (Rleb_spec (1 / 2) (1 / 1000)); [lra|]. destruct G' as (k & K & ->).
    unfold level in K. rewrite X, MX in K.
    destruct K as [(-> & _)|[(_ & K)|[(_ & K)|(_ & K)]]]; [|lra|lra|lra]. destruct (Rltb (el m 0 q) 0); reflexivity. }
  rewrite !A by auto. reflexivity.
Qed.
Print Assumptions C128_extrema. Print Assumptions C128_image. Print Assumptions C128_sign_refuted.
