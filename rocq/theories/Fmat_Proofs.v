(** Proof principles for loops over value-level vectors and matrices. *)
From Verif Require Import Prelude Prelude_Proofs Fmat.
Local Open Scope nat_scope.

Ltac nbt := repeat match goal with
  | |- context [Nat.eqb ?a ?b] => destruct (Nat.eqb_spec a b)
  | |- context [Nat.ltb ?a ?b] => destruct (Nat.ltb_spec a b)
  | |- context [Nat.leb ?a ?b] => destruct (Nat.leb_spec a b)
  end.
Ltac conjs := repeat match goal with |- _ /\ _ => split end.
Ltac nbts := nbt; cbn [andb orb negb]; subst; try lia; auto.

(** the same, pruning impossible cases at once *)
Ltac nbp := repeat (match goal with
  | |- context [Nat.eqb ?a ?b] => destruct (Nat.eqb_spec a b)
  | |- context [Nat.ltb ?a ?b] => destruct (Nat.ltb_spec a b)
  | |- context [Nat.leb ?a ?b] => destruct (Nat.leb_spec a b)
  end; try (exfalso; lia); cbn [andb orb negb]); subst; auto; try lia.

Section Lem.
Context {T : Type}.
Implicit Types (m : fmat T) (v : fvec T).

Lemma vget_ok v i : i < vlen v -> vget v i = Ok (vel v i).
Proof. intros. unfold vget. now rewrite (proj2 (Nat.ltb_lt _ _)). Qed.
Lemma vset_ok v i x : i < vlen v -> vset v i x = Ok (FV (vlen v) (fun k => if k =? i then x else vel v k)).
Proof. intros. unfold vset. now rewrite (proj2 (Nat.ltb_lt _ _)). Qed.
Lemma mget_ok m i j : i < nr m -> j < nc m -> mget m i j = Ok (el m i j).
Proof. intros. unfold mget. now rewrite !(proj2 (Nat.ltb_lt _ _)). Qed.
Lemma mset_ok m i j x : i < nr m -> j < nc m ->
  mset m i j x = Ok (FM (nr m) (nc m) (fun r c => if (r =? i) && (c =? j) then x else el m r c)).
Proof. intros. unfold mset. now rewrite !(proj2 (Nat.ltb_lt _ _)). Qed.
Lemma vmod_ok v i f : i < vlen v -> vmod v i f = vset v i (f (vel v i)).
Proof. intros. unfold vmod. now rewrite vget_ok. Qed.
Lemma mmod_ok m i j f : i < nr m -> j < nc m -> mmod m i j f = mset m i j (f (el m i j)).
Proof. intros. unfold mmod. now rewrite mget_ok. Qed.
Lemma vget_inv v i x : vget v i = Ok x -> i < vlen v /\ x = vel v i.
Proof. unfold vget. destruct (Nat.ltb_spec i (vlen v)); intros E; inversion E; auto. Qed.
Lemma mget_inv m i j x : mget m i j = Ok x -> i < nr m /\ j < nc m /\ x = el m i j.
Proof. unfold mget. destruct (Nat.ltb_spec i (nr m)), (Nat.ltb_spec j (nc m)); intros E; inversion E; auto. Qed.
Lemma mset_inv m i j x m' : mset m i j x = Ok m' -> i < nr m /\ j < nc m /\
  m' = FM (nr m) (nc m) (fun r c => if (r =? i) && (c =? j) then x else el m r c).
Proof. unfold mset. destruct (Nat.ltb_spec i (nr m)), (Nat.ltb_spec j (nc m)); intros E; inversion E; auto. Qed.

(** a loop that overwrites the columns [lo, hi) of the row [q], each with a value
    that depends only on the matrix before the loop *)
Lemma row_loop m q lo hi f F : lo <= hi -> hi <= nc m -> q < nr m ->
  (forall j m', lo <= j < hi -> nr m' = nr m -> nc m' = nc m ->
     (forall r c, r <> q \/ j <= c \/ c < lo -> el m' r c = el m r c) -> f j m' = mset m' q j (F j)) ->
  exists m', for_ lo hi f m = Ok m' /\ nr m' = nr m /\ nc m' = nc m /\
    forall r c, el m' r c = if (r =? q) && (lo <=? c) && (c <? hi) then F c else el m r c.
Proof.
  intros L H Q Hf.
  destruct (for_inv (fun k m' => nr m' = nr m /\ nc m' = nc m /\
    forall r c, el m' r c = if (r =? q) && (lo <=? c) && (c <? k) then F c else el m r c) lo hi f m)
    as (m' & E & P); eauto.
  - repeat split; auto. intros. nbts.
  - intros k s Hk (A & B & C). rewrite Hf; auto.
    + rewrite mset_ok by lia. eexists; repeat split; cbn; auto. intros r c. rewrite C. nbts.
    + intros r c Hrc. rewrite C. nbts.
Qed.
(** the same for a column *)
Lemma col_loop m q lo hi f F : lo <= hi -> hi <= nr m -> q < nc m ->
  (forall j m', lo <= j < hi -> nr m' = nr m -> nc m' = nc m ->
     (forall r c, c <> q \/ j <= r \/ r < lo -> el m' r c = el m r c) -> f j m' = mset m' j q (F j)) ->
  exists m', for_ lo hi f m = Ok m' /\ nr m' = nr m /\ nc m' = nc m /\
    forall r c, el m' r c = if (c =? q) && (lo <=? r) && (r <? hi) then F r else el m r c.
Proof.
  intros L H Q Hf.
  destruct (for_inv (fun k m' => nr m' = nr m /\ nc m' = nc m /\
    forall r c, el m' r c = if (c =? q) && (lo <=? r) && (r <? k) then F r else el m r c) lo hi f m)
    as (m' & E & P); eauto.
  - repeat split; auto. intros. nbts.
  - intros k s Hk (A & B & C). rewrite Hf; auto.
    + rewrite mset_ok by lia. eexists; repeat split; cbn; auto. intros r c. rewrite C. nbts.
    + intros r c Hrc. rewrite C. nbts.
Qed.
(** the same for a vector *)
Lemma vec_loop v lo hi f F : lo <= hi -> hi <= vlen v ->
  (forall j v', lo <= j < hi -> vlen v' = vlen v ->
     (forall c, j <= c \/ c < lo -> vel v' c = vel v c) -> f j v' = vset v' j (F j)) ->
  exists v', for_ lo hi f v = Ok v' /\ vlen v' = vlen v /\
    forall c, vel v' c = if (lo <=? c) && (c <? hi) then F c else vel v c.
Proof.
  intros L H Hf.
  destruct (for_inv (fun k v' => vlen v' = vlen v /\
    forall c, vel v' c = if (lo <=? c) && (c <? k) then F c else vel v c) lo hi f v)
    as (v' & E & P); eauto.
  - repeat split; auto. intros. nbts.
  - intros k s Hk (A & C). rewrite Hf; auto.
    + rewrite vset_ok by lia. eexists; repeat split; cbn; auto. intros c. rewrite C. nbts.
    + intros c Hrc. rewrite C. nbts.
Qed.
End Lem.

(** loops with early exit: the invariant holds on normal exit, [Q] on early exit *)
Lemma loopb_inv {St X} (P : nat -> St -> Prop) (Q : X -> Prop) n i f (s : St) : P i s ->
  (forall k s, i <= k < i + n -> P k s ->
     exists o, f k s = Ok o /\ match o with inl s' => P (S k) s' | inr x => Q x end) ->
  exists o, loopb n i f s = Ok o /\ match o with inl s' => P (i + n) s' | inr x => Q x end.
Proof.
  revert i s; induction n as [|n IH]; intros i s H Hf; cbn.
  - exists (inl s). now rewrite Nat.add_0_r.
  - destruct (Hf i s) as ([s'|x] & E & H'); [lia|auto| |]; rewrite E; cbn.
    + destruct (IH (S i) s') as (o & E' & H''); auto. { intros; apply Hf; auto; lia. }
      exists o. rewrite Nat.add_succ_r. auto.
    + exists (inr x). auto.
Qed.
Lemma forb_inv {St X} (P : nat -> St -> Prop) (Q : X -> Prop) lo hi f (s : St) : lo <= hi -> P lo s ->
  (forall k s, lo <= k < hi -> P k s ->
     exists o, f k s = Ok o /\ match o with inl s' => P (S k) s' | inr x => Q x end) ->
  exists o, forb lo hi f s = Ok o /\ match o with inl s' => P hi s' | inr x => Q x end.
Proof.
  intros L H Hf. destruct (loopb_inv P Q (hi - lo) lo f s) as (o & E & H'); auto.
  - intros; apply Hf; auto; lia.
  - exists o. split; auto. now replace (lo + (hi - lo)) with hi in H' by lia.
Qed.
Lemma for_downto_inv {St} (P : nat -> St -> Prop) lo hi f (s : St) : lo <= hi -> P hi s ->
  (forall k s, lo <= k < hi -> P (S k) s -> exists s', f k s = Ok s' /\ P k s') ->
  exists s', for_downto lo hi f s = Ok s' /\ P lo s'.
Proof.
  intros L H Hf. unfold for_downto.
  destruct (for_down_inv (fun t s => P (lo + t) s) (hi - lo) (fun t => f (lo + t)) s) as (s' & E & H').
  - now replace (lo + (hi - lo)) with hi by lia.
  - intros k s0 Hk HP. apply Hf; [lia|]. now rewrite <- Nat.add_succ_r.
  - exists s'. now rewrite Nat.add_0_r in H'.
Qed.

(** index arrays *)
Definition perm (n : nat) (idx : list nat) : Prop := length idx = n /\ NoDup idx /\ forall q, In q idx -> q < n.
Definition pos (idx : list nat) j := nth j idx 0.
Lemma perm_lt n idx j : perm n idx -> j < n -> pos idx j < n.
Proof. intros (L & _ & H) Hj. apply H. unfold pos. apply nth_In. lia. Qed.
Lemma perm_inj n idx i j : perm n idx -> i < n -> j < n -> pos idx i = pos idx j -> i = j.
Proof. intros (L & N & _) Hi Hj E. apply (proj1 (NoDup_nth idx 0) N i j); auto; lia. Qed.
Lemma perm_onto n idx q : perm n idx -> q < n -> exists j, j < n /\ pos idx j = q.
Proof.
  intros (L & N & H) Hq.
  assert (In q idx) as I.
  { assert (incl (List.seq 0 n) idx) as I; [|apply I, in_seq; lia].
    apply NoDup_length_incl; auto. { rewrite seq_length. lia. }
    intros x Hx. apply in_seq. specialize (H x Hx). lia. }
  destruct (In_nth idx q 0 I) as (j & Hj & E). exists j. split; auto. lia.
Qed.
Lemma perm_get n idx j : perm n idx -> j < n -> get idx j = Ok (pos idx j).
Proof. intros (L & _) Hj. apply get_ok. lia. Qed.
Lemma perm_seq n : perm n (List.seq 0 n).
Proof. split; [apply seq_length|]. split; [apply seq_NoDup|]. intros q Hq. apply in_seq in Hq. lia. Qed.
Lemma pos_seq n j : j < n -> pos (List.seq 0 n) j = j.
Proof. intros. unfold pos. rewrite seq_nth; lia. Qed.
