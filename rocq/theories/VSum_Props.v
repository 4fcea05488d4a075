(** C122: sums of several vectors, vector rings and arrays, reordering in place.

    [vlen (s v)] and [vel (s v) j] are the size and the j-th element of the vector named [v] in the
    store [s]. *)
From Coq Require Import Reals Lra Lia List QArith Permutation.
From Verif Require Import Prelude Prelude_Proofs Scalar RealLib Fmat VSum_Model.
Import ListNotations.
Local Open Scope R_scope.

(** everything except the vector [v] is as before, and [v] has its old size *)
Definition only {T} (s s' : store T) (v : nat) : Prop := vlen (s' v) = vlen (s v) /\ forall k, k <> v -> s' k = s k.
(** sum over the terms that have the size of [v] *)
Definition terms (s : store R) (v j : nat) (args : list (R * nat)) : R :=
  fold_right Rplus 0 (map (fun a => if (vlen (s (snd a)) =? vlen (s v))%nat then fst a * vel (s (snd a)) j else 0) args).

Ltac neq := match goal with |- context [Nat.eqb ?a ?b] => destruct (Nat.eqb_spec a b); try lia; try congruence end.
Lemma supd_same {T} (s : store T) v x : supd s v x v = x.
Proof. unfold supd. now rewrite Nat.eqb_refl. Qed.
Lemma supd_other {T} (s : store T) v x k : k <> v -> supd s v x k = s k.
Proof. intros H. unfold supd. neq; auto. Qed.
Lemma only_trans {T} (s1 s2 s3 : store T) v : only s1 s2 v -> only s2 s3 v -> only s1 s3 v.
Proof. intros [A1 A2] [B1 B2]. split; [congruence|]. intros k Hk. rewrite B2, A2; auto. Qed.
Lemma only_refl {T} (s : store T) v : only s s v.
Proof. split; auto. Qed.
Lemma terms_only s s' v j args : only s s' v -> Forall (fun a => snd a <> v) args -> terms s' v j args = terms s v j args.
Proof.
  intros [A B] F. unfold terms. induction F as [|a r Ha F IH]; auto. cbn [map fold_right]. rewrite IH, A, (B _ Ha). reflexivity.
Qed.

Lemma cats_val : forall args s v, Forall (fun a => snd a <> v) args ->
  exists s', _zVecCats s v args = Ok s' /\ only s s' v /\ forall j, vel (s' v) j = vel (s v) j + terms s v j args.
Proof.
  induction args as [|[k w] r IH]; intros s v F.
  - exists s. split; [reflexivity|]. split; [apply only_refl|]. intros j. unfold terms. cbn. lra.
  - inversion F as [|? ? Hw Fr]; subst. cbn [snd] in Hw. cbn [_zVecCats]. unfold zVecCatDRC.
    destruct (Nat.eqb_spec (vlen (s v)) (vlen (s w))) as [E|E].
    + unfold zVecCatNCDRC. replace (vlen (s v) <=? vlen (s w))%nat with true by (symmetry; apply Nat.leb_le; lia). cbn [bind].
      match goal with |- context [_zVecCats ?z v r] => set (s1 := z) end.
      assert (only s s1 v) as O1. { split; unfold s1; [rewrite supd_same; reflexivity|intros; now apply supd_other]. }
      destruct (IH s1 v Fr) as (s' & E' & O' & V'). exists s'. split; [exact E'|]. split; [eapply only_trans; eauto|].
      intros j. rewrite V', (terms_only _ _ _ _ _ O1 Fr). unfold terms. cbn [map fold_right fst snd]. rewrite <- E, Nat.eqb_refl.
      unfold s1 at 1. rewrite supd_same. cbn [vel]. rs. lra.
    + cbn [bind]. destruct (IH s v Fr) as (s' & E' & O' & V'). exists s'. split; [exact E'|]. split; [exact O'|].
      intros j. rewrite V'. unfold terms. cbn [map fold_right fst snd]. neq. lra.
Qed.

(** zVecCats adds the terms of the right size, zVecLinearSum is their sum; only the destination
    changes.  No term is the destination. *)
Theorem C122_cats (s : store R) v args : Forall (fun a => snd a <> v) args ->
  exists s', zVecCats s v args = Ok s' /\ only s s' v /\ forall j, vel (s' v) j = vel (s v) j + terms s v j args.
Proof. apply cats_val. Qed.
Lemma zero_only {T} `{Scalar T} (s : store T) v : only s (zVecZero s v) v.
Proof. split; unfold zVecZero; [rewrite supd_same; reflexivity|intros; now apply supd_other]. Qed.
Theorem C122_linear_sum_partial (s : store R) v args : Forall (fun a => snd a <> v) args ->
  exists s', zVecLinearSum s v args = Ok s' /\ only s s' v /\ forall j, vel (s' v) j = terms s v j args.
Proof.
  intros F. destruct (cats_val args (zVecZero s v) v F) as (s' & E & O & V). exists s'. split; [exact E|].
  split; [eapply only_trans; [apply zero_only|exact O]|]. intros j. rewrite V, (terms_only s _ _ _ _ (zero_only s v) F).
  unfold zVecZero. rewrite supd_same. cbn [vel]. rs. lra.
Qed.
(** with all sizes equal this is the linear combination *)
Theorem C122_linear_sum (s : store R) v args : Forall (fun a => snd a <> v /\ vlen (s (snd a)) = vlen (s v)) args ->
  exists s', zVecLinearSum s v args = Ok s' /\ only s s' v /\
    forall j, vel (s' v) j = fold_right Rplus 0 (map (fun a => fst a * vel (s (snd a)) j) args).
Proof.
  intros F. destruct (C122_linear_sum_partial s v args) as (s' & E & O & V).
  { eapply Forall_impl; [|exact F]. now intros a [? _]. }
  exists s'. split; auto. split; auto. intros j. rewrite V. unfold terms. clear - F. induction F as [|a r [_ Ha] F IH]; auto.
  cbn [map fold_right]. now rewrite IH, Ha, Nat.eqb_refl.
Qed.
(** zVecLinearSum( v, 2, 1.0, v, 1.0, w ) is not v + w: the destination is cleared before it is read *)
Theorem C122_alias_refuted : exists (s : store Q) (v w : nat) s',
  vlen (s w) = vlen (s v) /\ zVecLinearSum s v [(1%Q, v); (1%Q, w)] = Ok s' /\
  to_list (s v) = [1%Q] /\ to_list (s w) = [2%Q] /\ to_list (s' v) = [2%Q].
Proof.
  exists (fun k => match k with O => FV 1 (fun _ => 1%Q) | _ => FV 1 (fun _ => 2%Q) end), O, 1%nat. eexists.
  repeat split; vm_compute; reflexivity.
Qed.
(** a term of another size is left out of the sum, and the call succeeds *)
Theorem C122_skip_refuted : exists (s : store Q) (v : nat) s',
  vlen (s 1%nat) <> vlen (s v) /\ vlen (s 2%nat) = vlen (s v) /\
  zVecLinearSum s v [(3%Q, 1%nat); (2%Q, 2%nat)] = Ok s' /\
  to_list (s' v) = map (fun x => (2 * x)%Q) (to_list (s 2%nat)).
Proof.
  exists (fun k => match k with O => FV 1 (fun _ => 1%Q) | 1%nat => FV 2 (fun _ => 7%Q) | _ => FV 1 (fun _ => 2%Q) end), O. eexists.
  repeat split; vm_compute; try reflexivity. discriminate.
Qed.

(** ** rings *)
(** what zVecRingAlloc makes: at least one cell, all vectors of the same size *)
Definition ring_ok {T} (s : store T) (r : ring) (n : nat) : Prop :=
  rbuf r <> [] /\ Forall (fun k => vlen (s k) = n) (rbuf r).
(** the i-th vector from the head, going round *)
Definition cell {T} (s : store T) (r : ring) (i : nat) : fvec T := s (nth ((rhead r + i) mod length (rbuf r)) (rbuf r) O).

Lemma ring_elem r i : rbuf r <> [] -> let k := nth ((rhead r + i) mod length (rbuf r)) (rbuf r) O in
  zRingElem r i = Ok k /\ In k (rbuf r).
Proof.
  intros H k. assert (length (rbuf r) <> O) as L by (destruct (rbuf r); [congruence|discriminate]).
  pose proof (Nat.mod_upper_bound (rhead r + i) _ L). split; [|now apply nth_In].
  unfold zRingElem, zRingSize. rewrite (nth_error_nth' _ O) by auto. reflexivity.
Qed.

(** the null pointer exactly if the sizes differ, and then nothing is changed *)
Theorem C122_ring_error (s : store R) v c r n : ring_ok s r n -> vlen (s v) <> n -> zVecRingCat s v c r = Ok (false, s).
Proof.
  intros [H F] N. unfold zVecRingCat. destruct (ring_elem r 0 H) as [E I]. rewrite E. cbn [bind].
  rewrite Forall_forall in F. rewrite (F _ I). neq. reflexivity.
Qed.
(** the sum over as many vectors from the head as the coefficients, going round the ring *)
Theorem C122_ring_cat (s : store R) v c r n : ring_ok s r n -> vlen (s v) = n -> ~ In v (rbuf r) -> c <> v ->
  exists s', zVecRingCat s v c r = Ok (true, s') /\ only s s' v /\
    forall j, vel (s' v) j = vel (s v) j + rsum (vlen (s c)) (fun i => vel (s c) i * vel (cell s r i) j).
Proof.
  intros [H F] N Nv Nc. unfold zVecRingCat. destruct (ring_elem r 0 H) as [E I]. rewrite E. cbn [bind].
  rewrite Forall_forall in F. rewrite (F _ I), N, Nat.eqb_refl. cbn [negb].
  destruct (for_inv (fun k s' => only s s' v /\ forall j, vel (s' v) j = vel (s v) j + rsum k (fun i => vel (s c) i * vel (cell s r i) j))
    0 (vlen (s c)) (fun i s => e <- zRingElem r i ;; zVecCatNCDRC s v (vel (s c) i) e) s) as (s' & E' & O & V).
  - lia.
  - split; [apply only_refl|]. intros j. cbn. lra.
  - intros k s1 Hk [O V]. destruct (ring_elem r k H) as [E1 I1]. rewrite E1. cbn [bind].
    assert (s1 c = s c) as Ec by (apply O; auto).
    match goal with |- context [zVecCatNCDRC s1 v _ ?z] => set (e := z) in * end.
    assert (s1 e = s e) as Ee. { apply O. intros ->. now apply Nv. }
    unfold zVecCatNCDRC. rewrite Ee, (proj1 O), (F _ I1), N, Nat.leb_refl. eexists. split; [reflexivity|]. split.
    + eapply only_trans; [exact O|]. split; [rewrite supd_same; cbn [vlen]; rewrite (proj1 O); now rewrite N|].
      intros q Hq. now apply supd_other.
    + intros j. rewrite supd_same. cbn [vel]. rewrite V, Ec. cbn [rsum]. unfold cell. fold e. rs. lra.
  - exists s'. rewrite E'. cbn [bind]. auto.
Qed.
Theorem C122_ring_linear_sum (s : store R) v c r n : ring_ok s r n -> vlen (s v) = n -> ~ In v (rbuf r) -> c <> v ->
  exists s', zVecRingLinearSum s v c r = Ok (true, s') /\ only s s' v /\
    forall j, vel (s' v) j = rsum (vlen (s c)) (fun i => vel (s c) i * vel (cell s r i) j).
Proof.
  intros [H F] N Nv Nc. pose proof (zero_only s v) as Z. destruct (C122_ring_cat (zVecZero s v) v c r n) as (s' & E & O & V); auto.
  - split; auto. rewrite Forall_forall in *. intros k Hk. rewrite (proj2 Z); auto. intros ->. auto.
  - rewrite (proj1 Z). exact N.
  - exists s'. split; [exact E|]. split; [eapply only_trans; eauto|]. intros j. rewrite V.
    rewrite (proj2 Z c Nc). unfold zVecZero at 1. rewrite supd_same. cbn [vel]. rs. rewrite Rplus_0_l.
    apply rsum_ext. intros i _. f_equal. unfold cell. rewrite (proj2 Z); auto. intros Q. apply Nv.
    rewrite <- Q. now apply ring_elem.
Qed.
(** zVecRingLinearSum reports the wrong size after it has cleared the destination *)
Theorem C122_ring_error_refuted : exists (s : store Q) v c r s', ring_ok s r 2 /\
  zVecRingLinearSum s v c r = Ok (false, s') /\ to_list (s v) = [5%Q] /\ to_list (s' v) = [0%Q].
Proof.
  exists (fun k => match k with O => FV 1 (fun _ => 5%Q) | _ => FV 2 (fun _ => 1%Q) end), O, 3%nat, (Ring [1%nat; 2%nat] 0). eexists.
  repeat split; try (vm_compute; reflexivity); [discriminate|]. repeat constructor.
Qed.

(** filling: [a] lists the vectors to fill *)
Lemma fill_loop {T} (s : store T) (a : list nat) n v m (f : nat -> res nat) (g : nat -> nat) : vlen (s v) = n -> ~ In v a ->
  Forall (fun k => vlen (s k) = n) a -> (forall i, (i < m)%nat -> f i = Ok (g i) /\ In (g i) a) ->
  exists s', for_ 0 m (fun i s => e <- f i ;; zVecCopyNC s v e) s = Ok s' /\
    (forall k, vlen (s' k) = vlen (s k)) /\ (forall k, ~ In k a -> s' k = s k) /\
    (forall i j, (i < m)%nat -> vel (s' (g i)) j = vel (s v) j).
Proof.
  intros N Nv F G. rewrite Forall_forall in F.
  destruct (for_inv (fun m s' => (forall k, vlen (s' k) = vlen (s k)) /\ (forall k, ~ In k a -> s' k = s k) /\
      (forall i j, (i < m)%nat -> vel (s' (g i)) j = vel (s v) j)) 0 m (fun i s => e <- f i ;; zVecCopyNC s v e) s) as (s' & E & P).
  - lia.
  - repeat split; auto. intros; lia.
  - intros k s1 Hk (A & B & C). destruct (G k) as [Ek Ik]; [lia|]. rewrite Ek. cbn [bind]. unfold zVecCopyNC.
    assert (v <> g k) as D by (intros Q; rewrite Q in Nv; auto).
    replace (v =? g k)%nat with false by (symmetry; now apply Nat.eqb_neq). cbn [andb].
    rewrite !A, N, (F _ Ik), Nat.leb_refl. eexists. split; [reflexivity|]. split; [|split].
    + intros q. unfold supd. destruct (Nat.eqb_spec q (g k)) as [->|]; cbn [vlen]; auto. now rewrite (F _ Ik).
    + intros q Hq. rewrite supd_other; auto. intros ->. auto.
    + intros i j Hi. unfold supd. destruct (Nat.eqb_spec (g i) (g k)); cbn [vel]; [now rewrite B|].
      apply C. destruct (Nat.eq_dec i k); [subst; congruence|lia].
  - exists s'. auto.
Qed.
(** every vector of the ring becomes the given one; nothing else changes *)
Theorem C122_ring_fill {T} `{Scalar T} (s : store T) r n v : ring_ok s r n -> vlen (s v) = n -> ~ In v (rbuf r) ->
  exists s', zVecRingFill s r v = Ok (true, s') /\ (forall k, vlen (s' k) = vlen (s k)) /\
    (forall k, ~ In k (rbuf r) -> s' k = s k) /\ (forall k j, In k (rbuf r) -> vel (s' k) j = vel (s v) j).
Proof.
  intros [Hr F] N Nv. unfold zVecRingFill. destruct (ring_elem r 0 Hr) as [E I]. rewrite E. cbn [bind].
  pose proof F as F'. rewrite Forall_forall in F'. rewrite (F' _ I), N, Nat.eqb_refl. cbn [negb].
  destruct (fill_loop s (rbuf r) n v (zRingSize r) (zRingElem r) (fun i => nth ((rhead r + i) mod length (rbuf r)) (rbuf r) O)) as (s' & E' & A & B & C); auto.
  { intros i _. now apply ring_elem. }
  exists s'. rewrite E'. cbn [bind]. repeat split; auto. intros k j Hk.
  destruct (In_nth _ _ O Hk) as (p & Hp & Ep). unfold zRingSize in C. set (L := length (rbuf r)) in *.
  assert (L <> O) as L0 by lia.
  specialize (C ((p + (L - rhead r mod L)) mod L)%nat j (Nat.mod_upper_bound _ _ L0)). rewrite <- C. f_equal.
  cbv beta. rewrite <- Ep. f_equal. f_equal.
  rewrite Nat.add_mod_idemp_r by auto. rewrite <- Nat.add_mod_idemp_l by auto.
  pose proof (Nat.mod_upper_bound (rhead r) L L0).
  replace (rhead r mod L + (p + (L - rhead r mod L)))%nat with (p + 1 * L)%nat by lia.
  rewrite Nat.mod_add by auto. symmetry. now apply Nat.mod_small.
Qed.
(** filling with a vector of the ring copies it onto itself with memcpy *)
Theorem C122_ring_fill_refuted : exists (s : store Q) r v, ring_ok s r 1 /\ In v (rbuf r) /\ zVecRingFill s r v = UB.
Proof.
  exists (fun k => FV 1 (fun _ => 5%Q)), (Ring [0%nat; 1%nat] 0), 1%nat. split; [|split]; [|right; left; reflexivity|vm_compute; reflexivity].
  split; [discriminate|]. repeat constructor.
Qed.
Theorem C122_array_fill {T} `{Scalar T} (s : store T) a n v : a <> [] -> Forall (fun k => vlen (s k) = n) a -> ~ In v a ->
  (vlen (s v) <> n -> zVecArrayFill s a v = Ok (false, s)) /\
  (vlen (s v) = n -> exists s', zVecArrayFill s a v = Ok (true, s') /\ (forall k, vlen (s' k) = vlen (s k)) /\
    (forall k, ~ In k a -> s' k = s k) /\ (forall k j, In k a -> vel (s' k) j = vel (s v) j)).
Proof.
  intros Ha F Nv. pose proof F as F'. rewrite Forall_forall in F'. unfold zVecArrayFill.
  destruct (length a) as [|l] eqn:L; [destruct a; [congruence|discriminate]|].
  assert (forall i, (i < S l)%nat -> zArrayElem a i = Ok (nth i a O) /\ In (nth i a O) a) as G.
  { intros i Hi. unfold zArrayElem. rewrite (nth_error_nth' _ O) by lia. split; auto. apply nth_In. lia. }
  destruct (G l) as [E I]; [lia|]. rewrite E. cbn [bind]. rewrite (F' _ I). split; intros N.
  - neq. reflexivity.
  - rewrite N, Nat.eqb_refl. cbn [negb].
    destruct (fill_loop s a n v (S l) (zArrayElem a) (fun i => nth i a O)) as (s' & E' & A & B & C); auto.
    exists s'. rewrite E'. cbn [bind]. repeat split; auto. intros k j Hk. destruct (In_nth _ _ O Hk) as (p & Hp & Ep).
    rewrite <- (C p j) by lia. now rewrite Ep.
Qed.

(** ** reordering *)
(** for an index over the elements: the i-th element becomes the idx(i)-th; with a permutation the
    elements are permuted *)
Theorem C122_reorder_partial {T} `{Scalar T} (s : store T) v idx tmp : tmp <> v ->
  length idx = vlen (s v) -> Forall (fun k => (k < vlen (s v))%nat) idx ->
  exists s', zVecReorderDRC s v idx tmp = Ok (true, s') /\ vlen (s' v) = vlen (s v) /\
    (forall k, k <> v -> k <> tmp -> s' k = s k) /\
    to_list (s' v) = map (vel (s v)) idx /\
    (Permutation idx (List.seq 0 (vlen (s v))) -> Permutation (to_list (s' v)) (to_list (s v))).
Proof.
  intros Nt L F. unfold zVecReorderDRC, zVecReorder. rewrite supd_same, supd_other by auto.
  rewrite L, Nat.eqb_refl. cbn [negb orb].
  set (s0 := supd s tmp (s v)).
  assert (forall q, q <> tmp -> s0 q = s q) as S0 by (intros; now apply supd_other).
  destruct (for_inv (fun m s' => vlen (s' v) = vlen (s v) /\ s' tmp = s v /\ (forall k, k <> v -> k <> tmp -> s' k = s k) /\
     (forall i, (i < m)%nat -> vel (s' v) i = vel (s v) (nth i idx O))) 0 (vlen (s v))
     (fun i s => k <- zArrayElem idx i ;; x <- vget (s tmp) k ;; d <- vset (s v) i x ;; Ok (supd s v d)) s0) as (s' & E & A & B & C & D).
  - lia.
  - split; [rewrite S0; [reflexivity|congruence]|]. split; [unfold s0; apply supd_same|]. split; [auto|]. intros; lia.
  - intros k s1 Hk (A & B & C & D). unfold zArrayElem. rewrite (nth_error_nth' _ O) by lia. cbn [bind].
    rewrite Forall_forall in F. assert (nth k idx O < vlen (s v))%nat as W by (apply F, nth_In; lia).
    unfold vget. rewrite B. apply Nat.ltb_lt in W. rewrite W. cbn [bind]. unfold vset. rewrite A.
    replace (k <? vlen (s v))%nat with true by (symmetry; apply Nat.ltb_lt; lia). cbn [bind]. eexists. split; [reflexivity|].
    split; [rewrite supd_same; reflexivity|]. split; [rewrite supd_other; auto|]. split; [intros; rewrite supd_other; auto|].
    intros i Hi. rewrite supd_same. cbn [vel]. destruct (Nat.eqb_spec i k); [now subst|]. apply D. lia.
  - exists s'. rewrite E. cbn [bind].
    assert (to_list (s' v) = map (vel (s v)) idx) as TL.
    { unfold to_list. rewrite A, <- L. clear - D L. rewrite <- L in D. clear L. apply nth_ext with (d := vel (s' v) O) (d' := vel (s v) O).
      - now rewrite !map_length, seq_length.
      - intros n Hn. rewrite map_length, seq_length in Hn. rewrite !map_nth, seq_nth by auto. rewrite D by auto. reflexivity. }
    repeat split; auto. intros P. rewrite TL. unfold to_list. now apply Permutation_map.
Qed.
(** an index of the wrong size: nothing is reordered and the call succeeds *)
Theorem C122_reorder_refuted : exists (s : store Q) v idx tmp s',
  length idx <> vlen (s v) /\ zVecReorderDRC s v idx tmp = Ok (true, s') /\ to_list (s' v) = to_list (s v).
Proof.
  exists (fun k => FV 2 (fun i => inject_Z (Z.of_nat i))), O, [1%nat], 1%nat. eexists. repeat split; try (vm_compute; reflexivity). vm_compute. discriminate.
Qed.
(** zVecReorder with the same vector as source and destination reads elements already replaced *)
Theorem C122_reorder_alias_refuted : exists (s : store Q) v s',
  zVecReorder s v [1%nat; 0%nat] v = Ok (true, s') /\ to_list (s v) = [3%Q; 4%Q] /\ to_list (s' v) = [4%Q; 4%Q].
Proof.
  exists (fun k => FV 2 (fun i => match i with O => 3%Q | _ => 4%Q end)), O. eexists. repeat split; vm_compute; reflexivity.
Qed.

(** ** cases that meet the hypotheses *)
Definition s_ex : store R := fun k => match k with 7%nat => FV 2 (fun i => INR i) | 3%nat => FV 4 (fun _ => 1) | _ => FV 2 (fun i => INR (k + i)) end.
Example C122_sum_case : Forall (fun a : R * nat => snd a <> 0%nat /\ vlen (s_ex (snd a)) = vlen (s_ex 0%nat)) [(2, 1%nat); (-1, 2%nat); (3, 1%nat)].
Proof. repeat constructor; cbn; congruence. Qed.
(** a ring of two vectors and four coefficients: the sum goes round twice *)
Example C122_ring_case : ring_ok s_ex (Ring [1%nat; 2%nat] 1) 2 /\ vlen (s_ex 0%nat) = 2%nat /\ ~ In 0%nat [1%nat; 2%nat] /\ vlen (s_ex 3%nat) = 4%nat.
Proof. repeat split; cbn; try congruence; try tauto. repeat constructor. intros [|[|[]]]; discriminate. Qed.
Example C122_reorder_case : Forall (fun k => (k < vlen (s_ex 1%nat))%nat) [1%nat; 0%nat] /\ Permutation [1%nat; 0%nat] (List.seq 0 2).
Proof. split; [repeat constructor|]. cbn. apply perm_swap. Qed.

Print Assumptions C122_cats.
Print Assumptions C122_linear_sum_partial.
Print Assumptions C122_linear_sum.
Print Assumptions C122_alias_refuted.
Print Assumptions C122_skip_refuted.
Print Assumptions C122_ring_error.
Print Assumptions C122_ring_cat.
Print Assumptions C122_ring_linear_sum.
Print Assumptions C122_ring_error_refuted.
Print Assumptions C122_ring_fill.
Print Assumptions C122_ring_fill_refuted.
Print Assumptions C122_array_fill.
Print Assumptions C122_reorder_partial.
Print Assumptions C122_reorder_refuted.
Print Assumptions C122_reorder_alias_refuted.
