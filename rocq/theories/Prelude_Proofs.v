(** Facts about the vocabulary of [Prelude]. *)
From Verif Require Export Prelude.

Lemma upd_length {A} (l : list A) i x : length (upd l i x) = length l.
Proof. revert i; induction l as [|y l IH]; intros [|i]; cbn; auto. Qed.

Lemma nth_error_upd_eq {A} (l : list A) i x :
  i < length l -> nth_error (upd l i x) i = Some x.
Proof.
  revert i; induction l as [|y l IH]; intros [|i] H; cbn in *; try lia; auto.
  apply IH; lia.
Qed.

Lemma nth_error_upd_neq {A} (l : list A) i j x :
  i <> j -> nth_error (upd l i x) j = nth_error l j.
Proof.
  revert i j; induction l as [|y l IH]; intros [|i] [|j] H; cbn in *; auto; try lia.
Qed.

Lemma nth_upd_eq {A} (l : list A) i x d : i < length l -> nth i (upd l i x) d = x.
Proof.
  revert i; induction l as [|y l IH]; intros [|i] H; cbn in *; try lia; auto.
  apply IH; lia.
Qed.

Lemma nth_upd_neq {A} (l : list A) i j x d : i <> j -> nth j (upd l i x) d = nth j l d.
Proof.
  revert i j; induction l as [|y l IH]; intros [|i] [|j] H; cbn in *; auto; try lia.
Qed.

Lemma nth_upd {A} (l : list A) i j x d :
  i < length l -> nth j (upd l i x) d = if j =? i then x else nth j l d.
Proof.
  intros H. destruct (Nat.eqb_spec j i) as [->|N].
  - now apply nth_upd_eq.
  - apply nth_upd_neq; auto.
Qed.

Lemma upd_same {A} (l : list A) i x d : nth i l d = x -> upd l i x = l.
Proof.
  revert i; induction l as [|y l IH]; intros [|i] H; cbn in *; subst; auto.
  f_equal; eauto.
Qed.

Lemma get_ok {A} (l : list A) i d : i < length l -> get l i = Ok (nth i l d).
Proof.
  intros H. unfold get. now rewrite (nth_error_nth' l d H).
Qed.

Lemma get_oob {A} (l : list A) i : length l <= i -> get l i = UB.
Proof. intros H. unfold get. now rewrite (proj2 (nth_error_None l i) H). Qed.

Lemma get_inv {A} (l : list A) i x : get l i = Ok x -> i < length l /\ nth_error l i = Some x.
Proof.
  unfold get. destruct (nth_error l i) eqn:E; intros H; inversion H; subst.
  split; auto. apply nth_error_Some. congruence.
Qed.

Lemma set_ok {A} (l : list A) i x : i < length l -> set l i x = Ok (upd l i x).
Proof. intros H. unfold set. now rewrite (proj2 (Nat.ltb_lt _ _) H). Qed.

Lemma set_oob {A} (l : list A) i x : length l <= i -> set l i x = UB.
Proof. intros H. unfold set. now rewrite (proj2 (Nat.ltb_ge _ _) H). Qed.

Lemma set_inv {A} (l : list A) i x l' : set l i x = Ok l' -> i < length l /\ l' = upd l i x.
Proof.
  unfold set. destruct (Nat.ltb_spec i (length l)); intros H'; inversion H'; auto.
Qed.

Lemma bind_ok {A B} (m : res A) (k : A -> res B) b :
  bind m k = Ok b <-> exists a, m = Ok a /\ k a = Ok b.
Proof.
  destruct m; cbn; split.
  - intros H; eauto.
  - intros (a' & E & H); inversion E; now subst.
  - discriminate.
  - intros (a' & E & H); discriminate.
Qed.

(** Loop rules: [P k s] holds before iteration [k]. *)
Lemma loop_inv {St} (P : nat -> St -> Prop) n i f (s : St) :
  P i s ->
  (forall k s, i <= k < i + n -> P k s -> exists s', f k s = Ok s' /\ P (S k) s') ->
  exists s', loop n i f s = Ok s' /\ P (i + n) s'.
Proof.
  revert i s; induction n as [|n IH]; intros i s H0 Hs; cbn.
  - exists s. now rewrite Nat.add_0_r.
  - destruct (Hs i s) as (s1 & E1 & H1); [lia|auto|]. rewrite E1; cbn.
    destruct (IH (S i) s1) as (s2 & E2 & H2); auto.
    + intros k s' Hk; apply Hs; lia.
    + exists s2; split; auto. now replace (i + S n) with (S i + n) by lia.
Qed.

Lemma for_inv {St} (P : nat -> St -> Prop) lo hi f (s : St) :
  lo <= hi -> P lo s ->
  (forall k s, lo <= k < hi -> P k s -> exists s', f k s = Ok s' /\ P (S k) s') ->
  exists s', for_ lo hi f s = Ok s' /\ P hi s'.
Proof.
  intros L H0 Hs. unfold for_.
  destruct (loop_inv P (hi - lo) lo f s H0) as (s' & E & H).
  - intros k s' Hk; apply Hs; lia.
  - exists s'; split; auto. now replace hi with (lo + (hi - lo)) by lia.
Qed.

Lemma for_empty {St} lo hi f (s : St) : hi <= lo -> for_ lo hi f s = Ok s.
Proof. intros H. unfold for_. now replace (hi - lo) with 0 by lia. Qed.

Lemma for_S {St} lo hi f (s : St) : lo < hi ->
  for_ lo hi f s = bind (f lo s) (fun s' => for_ (S lo) hi f s').
Proof.
  intros H. unfold for_. replace (hi - lo) with (S (hi - S lo)) by lia. reflexivity.
Qed.

Lemma for_down_inv {St} (P : nat -> St -> Prop) n f (s : St) :
  P n s ->
  (forall k s, k < n -> P (S k) s -> exists s', f k s = Ok s' /\ P k s') ->
  exists s', for_down n f s = Ok s' /\ P 0 s'.
Proof.
  revert s; induction n as [|n IH]; intros s H0 Hs; cbn.
  - eauto.
  - destruct (Hs n s) as (s1 & E1 & H1); [lia|auto|]. rewrite E1; cbn.
    apply IH; auto.
Qed.

(** Congruence of loops. *)
Lemma loop_ext {St} n i (f g : nat -> St -> res St) s :
  (forall k s, i <= k < i + n -> f k s = g k s) -> loop n i f s = loop n i g s.
Proof.
  revert i s; induction n as [|n IH]; intros i s H; cbn; auto.
  rewrite H by lia. destruct (g i s); cbn; auto. apply IH. intros; apply H; lia.
Qed.
Lemma for_ext {St} lo hi (f g : nat -> St -> res St) s :
  (forall k s, lo <= k < hi -> f k s = g k s) -> for_ lo hi f s = for_ lo hi g s.
Proof. intros H. apply loop_ext. intros; apply H; lia. Qed.

(** List extensionality through [nth]. *)
Lemma nth_ext_len {A} (l l' : list A) d n :
  length l = n -> length l' = n -> (forall i, i < n -> nth i l d = nth i l' d) -> l = l'.
Proof. intros H1 H2 H. apply (nth_ext l l' d d); [lia|]. intros i Hi; apply H; lia. Qed.
