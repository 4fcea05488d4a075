(** Reasoning about "no access outside an object": a weakest-precondition style for
    the outcome monad, for any scalar type. *)
From Verif Require Import Prelude Prelude_Proofs Scalar Fmat Fmat_Proofs.

Definition safe {A} (Q : A -> Prop) (x : res A) : Prop := exists a, x = Ok a /\ Q a.
Lemma safe_ret {A} (Q : A -> Prop) a : Q a -> safe Q (Ok a).
Proof. intros. exists a. auto. Qed.
Lemma safe_bind {A B} (P : A -> Prop) (Q : B -> Prop) x f : safe P x -> (forall a, P a -> safe Q (f a)) -> safe Q (bind x f).
Proof. intros (a & -> & Ha) H. cbn [bind]. auto. Qed.
Lemma safe_rmap {A B} (P : A -> Prop) (Q : B -> Prop) x f : safe P x -> (forall a, P a -> Q (f a)) -> safe Q (rmap f x).
Proof. intros (a & -> & Ha) H. exists (f a). auto. Qed.
Lemma safe_weaken {A} (P Q : A -> Prop) x : safe P x -> (forall a, P a -> Q a) -> safe Q x.
Proof. intros (a & -> & Ha) H. exists a. auto. Qed.
Lemma safe_for {S} (P : S -> Prop) lo hi f (s : S) : P s -> (forall k s, lo <= k < hi -> P s -> safe P (f k s)) -> safe P (for_ lo hi f s).
Proof.
  intros H Hf. destruct (le_lt_dec lo hi).
  - destruct (for_inv (fun _ => P) lo hi f s) as (s' & E & H'); auto. exists s'. auto.
  - unfold for_. replace (hi - lo) with 0 by lia. exists s. auto.
Qed.
Lemma safe_for_down {S} (P : S -> Prop) n f (s : S) : P s -> (forall k s, k < n -> P s -> safe P (f k s)) -> safe P (for_down n f s).
Proof. intros H Hf. destruct (for_down_inv (fun _ => P) n f s) as (s' & E & H'); auto. exists s'. auto. Qed.
Lemma safe_for_downto {S} (P : S -> Prop) lo hi f (s : S) : P s -> (forall k s, lo <= k < hi -> P s -> safe P (f k s)) -> safe P (for_downto lo hi f s).
Proof. intros H Hf. apply safe_for_down; auto. intros. apply Hf; auto. lia. Qed.
Lemma safe_forb {S X} (P : S -> Prop) (Q : X -> Prop) lo hi f (s : S) : lo <= hi -> P s ->
  (forall k s, lo <= k < hi -> P s -> safe (fun o => match o with inl s' => P s' | inr x => Q x end) (f k s)) ->
  safe (fun o => match o with inl s' => P s' | inr x => Q x end) (forb lo hi f s).
Proof.
  intros L H Hf. destruct (forb_inv (fun _ => P) Q lo hi f s) as (s' & E & H'); auto.
  exists s'. auto.
Qed.

Section Mat.
Context {T : Type}.
Definition msz r c (m : fmat T) : Prop := nr m = r /\ nc m = c.
Definition vsz n (v : fvec T) : Prop := vlen v = n.
Lemma safe_mget r c m i j : msz r c m -> i < r -> j < c -> safe (fun _ => True) (mget m i j).
Proof. intros [<- <-] Hi Hj. rewrite mget_ok by auto. now apply safe_ret. Qed.
Lemma safe_mset r c m i j x : msz r c m -> i < r -> j < c -> safe (msz r c) (mset m i j x).
Proof. intros [<- <-] Hi Hj. rewrite mset_ok by auto. now apply safe_ret. Qed.
Lemma safe_mmod r c m i j f : msz r c m -> i < r -> j < c -> safe (msz r c) (mmod m i j f).
Proof. intros [<- <-] Hi Hj. rewrite mmod_ok, mset_ok by auto. now apply safe_ret. Qed.
Lemma safe_vget n v i : vsz n v -> i < n -> safe (fun _ => True) (vget v i).
Proof. intros <- Hi. rewrite vget_ok by auto. now apply safe_ret. Qed.
Lemma safe_vset n v i x : vsz n v -> i < n -> safe (vsz n) (vset v i x).
Proof. intros <- Hi. rewrite vset_ok by auto. now apply safe_ret. Qed.
Lemma safe_vmod n v i f : vsz n v -> i < n -> safe (vsz n) (vmod v i f).
Proof. intros <- Hi. rewrite vmod_ok, vset_ok by auto. now apply safe_ret. Qed.
End Mat.
Lemma safe_idx n idx i : perm n idx -> i < n -> safe (fun q => q < n) (get idx i).
Proof. intros P Hi. rewrite (perm_get n) by auto. apply safe_ret. eapply perm_lt; eauto. Qed.

(** one step; [P] instances of loops have to be given by hand *)
Ltac sstep := first
 [ assumption
 | apply safe_ret
 | eapply safe_mget; [eassumption|lia|lia]
 | eapply safe_mset; [eassumption|lia|lia]
 | eapply safe_mmod; [eassumption|lia|lia]
 | eapply safe_vget; [eassumption|lia]
 | eapply safe_vset; [eassumption|lia]
 | eapply safe_vmod; [eassumption|lia]
 | eapply safe_idx; [eassumption|lia]
 | match goal with |- safe _ (bind _ _) => eapply safe_bind; [| intros ? ?] end
 | match goal with |- safe _ (if ?b then _ else _) => destruct b end ].
