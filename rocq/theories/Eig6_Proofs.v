(** The Gram-Schmidt and Householder LQ decompositions. *)
From Coq Require Import Reals Lra Lia Psatz.
From Verif Require Import Prelude Prelude_Proofs Scalar RealLib Fmat Fmat_Proofs LE_Model IP_Model Vop Qp_Spec Qp_Proofs
  Stat_Model Stat_Proofs Eig_Model Eig_Spec Eig_Proofs Eig2_Proofs Eig3_Proofs Eig4_Proofs Eig5_Proofs.
Local Open Scope R_scope.

Section GS.
  Variables (n p : nat) (m0 : fmat R) (tol : R).
  Hypotheses (Rm : nr m0 = n) (Cm : nc m0 = p) (Ht : 0 <= tol).
  Variables (l0 q0 : fmat R).
  Hypotheses (Rl : nr l0 = n) (Cl : (Nat.min n p <= nc l0)%nat) (Rq : (Nat.min n p <= nr q0)%nat) (Cq : nc q0 = p).
  Definition ginv (i : nat) (m l q : fmat R) (rank : nat) : Prop :=
    nr m = n /\ nc m = p /\ nr l = n /\ nc l = nc l0 /\ nr q = nr q0 /\ nc q = p /\ (rank <= i)%nat /\
    orthonormal_rows p rank (el q) /\
    (forall a k, (i <= a < n)%nat -> (k < p)%nat -> el m a k = el m0 a k) /\
    (forall a j, (i <= a < n)%nat -> el l a j = 0) /\
    (forall a j, (a < i)%nat -> (rank <= j \/ a < j)%nat -> el l a j = 0) /\
    (forall a, (a < i)%nat -> rsum p (fun k => (el m0 a k - rsum rank (fun j => el l a j * el q j k)) ^ 2) <= tol ^ 2) /\
    (exists C, forall j k, (j < rank)%nat -> (k < p)%nat -> el q j k = rsum n (fun a => C j a * el m0 a k)).
  Lemma gs_step i m l q rank : (i < n)%nat -> ginv i m l q rank ->
    exists m' l', for_ 0 rank (fun j '(m, l) =>
         _ <- mget q j 0 ;;
         let r := ksum (nc m) (fun k => el m i k * el q j k)%S in
         let m := FM (nr m) (nc m) (fun a b => if (a =? i)%nat then (el m i b + (- r) * el q j b)%S else el m a b) in
         l <- mset l i j r ;;
         Ok (m, l)) (m, l) = Ok (m', l') /\
      nr m' = n /\ nc m' = p /\ nr l' = n /\ nc l' = nc l0 /\
      (forall a k, a <> i -> el m' a k = el m a k) /\ (forall a j, a <> i -> el l' a j = el l a j) /\
      (forall j, (rank <= j)%nat -> el l' i j = 0) /\
      (forall k, (k < p)%nat -> el m' i k = el m0 i k - rsum rank (fun j => el l' i j * el q j k)) /\
      (forall j, (j < rank)%nat -> el l' i j = rsum p (fun k => el m0 i k * el q j k)).
  Proof.
    intros Hi (L1 & L2 & L3 & L4 & L5 & L6 & L7 & O & H1 & H2 & H3 & H4 & H5).
    assert (RP : (rank <= p)%nat) by (apply (family_size p rank (el q) O)).
    match goal with |- context [for_ 0 rank ?g (m, l)] =>
      destruct (for_inv (fun t (s : fmat R * fmat R) => let m' := fst s in let l' := snd s in
        nr m' = n /\ nc m' = p /\ nr l' = n /\ nc l' = nc l0 /\
        (forall a k, a <> i -> el m' a k = el m a k) /\ (forall a j, a <> i -> el l' a j = el l a j) /\
        (forall j, (t <= j)%nat -> el l' i j = 0) /\
        (forall k, (k < p)%nat -> el m' i k = el m0 i k - rsum t (fun j => el l' i j * el q j k)) /\
        (forall j, (j < t)%nat -> el l' i j = rsum p (fun k => el m0 i k * el q j k))) 0 rank g (m, l)) as ((m' & l') & E & P) end.
    - lia.
    - cbn [fst snd]. cbv zeta. conjs; auto; try (intros; lia); try (intros; apply H2; lia).
      intros k Hk. rewrite H1 by lia. cbn. ring.
    - intros t (m1 & l1) Ht1 (A1 & A2 & A3 & A4 & A5 & A6 & A7 & A8 & A9). cbn [fst snd] in *.
      rewrite mget_ok by lia. cbn [bind]. cbv zeta. rewrite ksum_R, A2. rewrite mset_ok by lia. cbn [bind].
      eexists. split; [reflexivity|]. cbn [fst snd nr nc el].
      assert (RR : rsum p (fun k => el m1 i k * el q t k)%S = rsum p (fun k => el m0 i k * el q t k)).
      { rewrite (rsum_ext p _ (fun k => el m0 i k * el q t k - rsum t (fun j => el l1 i j * (el q j k * el q t k)))).
        - rewrite rsum_sub, (rsum_swap p t). rewrite (rsum_0 t); [ring|]. intros j Hj. rewrite rsum_scal.
          pose proof (O j t ltac:(lia) ltac:(lia)) as OO. unfold rdot in OO. rewrite OO. unfold delta. nbp. ring.
        - intros k Hk. rewrite A8 by auto. rs. rewrite Rmult_minus_distr_r. f_equal. rewrite <- rsum_scal_r. apply rsum_ext. intros; ring. }
      rewrite RR. clear RR. remember (rsum p (fun k => el m0 i k * el q t k)) as rr eqn:Err.
      conjs; auto.
      + intros a k Na. nbp.
      + intros a j Na. rewrite A6 by auto. nbp.
      + intros j Hj. rewrite A7 by lia. nbp.
      + intros k Hk. rewrite Nat.eqb_refl. rewrite A8 by auto. cbn [rsum]. rewrite !Nat.eqb_refl. cbn [andb].
        rewrite (rsum_ext t (fun j => (if (j =? t)%nat then rr else el l1 i j) * el q j k) (fun j => el l1 i j * el q j k)) by (intros j Hj; nbp). rs. ring.
      + intros j Hj. destruct (Nat.eq_dec j t) as [->|Nj]; [rewrite !Nat.eqb_refl; auto|]. rewrite (proj2 (Nat.eqb_neq j t) Nj), Bool.andb_false_r. apply A9. lia.
    - exists m', l'. split; [exact E|exact P].
  Qed.
  Lemma gs_ok : exists l q rank, zMatDecompLQ tol m0 l0 q0 = Ok (l, q, rank) /\ nr l = n /\ nc l = nc l0 /\ nr q = nr q0 /\ nc q = p /\
    (rank <= Nat.min n p)%nat /\ orthonormal_rows p rank (el q) /\
    (forall a j, (a < n)%nat -> (rank <= j \/ a < j)%nat -> el l a j = 0) /\
    (forall a, (a < n)%nat -> rsum p (fun k => (el m0 a k - rsum rank (fun j => el l a j * el q j k)) ^ 2) <= tol ^ 2) /\
    (exists C, forall j k, (j < rank)%nat -> (k < p)%nat -> el q j k = rsum n (fun a => C j a * el m0 a k)).
  Proof.
    unfold zMatDecompLQ, zMatDecompLQ_GramSchmidt_DST. rewrite Cm, Cq, Nat.eqb_refl, Rm. cbn [negb].
    match goal with |- context [for_ 0 n ?g ?s0] =>
      destruct (for_inv (fun i (s : fmat R * fmat R * fmat R * nat) => let '(m, l, q, rank) := s in ginv i m l q rank) 0 n g s0) as ((((m & l) & q) & rank) & E & P) end.
    - lia.
    - unfold ginv. conjs; auto; try (intros; lia); try (intros a b Ha; lia).
      exists (fun _ _ => 0). intros; lia.
    - intros i (((m & l) & q) & rank) Hi I. destruct (gs_step i m l q rank ltac:(lia) I) as (m' & l' & E & B1 & B2 & B3 & B4 & B5 & B6 & B7 & B8 & B9).
      cbv zeta in E. rewrite E. cbn [bind]. rewrite ksum_R, B2.
      destruct I as (L1 & L2 & L3 & L4 & L5 & L6 & L7 & O & H1 & H2 & H3 & H4 & (C & H5)).
      set (rr := ssqrt _). assert (RR : rr = R_sqrt.sqrt (rsum p (fun k => el m' i k * el m' i k))) by reflexivity. clearbody rr.
      assert (R0 : 0 <= rr) by (rewrite RR; apply sqrt_pos).
      assert (R2 : rr ^ 2 = rsum p (fun k => el m' i k * el m' i k)) by (rewrite RR, <- Rsqr_pow2; apply Rsqr_sqrt, rsum_nonneg; intros; nra).
      assert (OQ : forall j, (j < rank)%nat -> rsum p (fun k => el m' i k * el q j k) = 0).
      { intros j Hj. rewrite (rsum_ext p _ (fun k => el m0 i k * el q j k - rsum rank (fun s => el l' i s * (el q s k * el q j k)))).
        - rewrite rsum_sub, (rsum_swap p rank). rewrite <- B9 by auto.
          rewrite (rsum_ext rank _ (fun s => el l' i s * delta j s)).
          + rewrite (delta_sum rank j (fun s => el l' i s)) by auto. ring.
          + intros s Hs. rewrite rsum_scal. pose proof (O s j Hs Hj) as OO. unfold rdot in OO. rewrite OO. now rewrite delta_sym.
        - intros k Hk. rewrite B8 by auto. rewrite Rmult_minus_distr_r. f_equal. rewrite <- rsum_scal_r. apply rsum_ext. intros; ring. }
      rewrite is_tol_R, (Rabs_right rr) by lra. destruct (Rleb_spec rr tol) as [T|T].
      + eexists. split; [reflexivity|]. unfold ginv. conjs; auto.
        * intros a k Ha Hk. rewrite B5 by lia. apply H1; lia.
        * intros a j Ha. rewrite B6 by lia. apply H2; lia.
        * intros a j Ha Hj. destruct (Nat.eq_dec a i) as [->|Na]; [apply B7; lia|]. rewrite B6 by auto. apply H3; lia.
        * intros a Ha. destruct (Nat.eq_dec a i) as [->|Na].
          -- rewrite (rsum_ext p _ (fun k => el m' i k * el m' i k)) by (intros k Hk; rewrite B8 by auto; ring). rewrite <- R2. apply pow_incr; lra.
          -- rewrite (rsum_ext p _ (fun k => (el m0 a k - rsum rank (fun j => el l a j * el q j k)) ^ 2)); [apply H4; lia|].
             intros k Hk. f_equal. f_equal. apply rsum_ext. intros j Hj. rewrite B6 by auto. reflexivity.
        * eauto.
      + apply Rnot_le_lt in T.
        assert (RN : rr <> 0) by lra.
        set (qn := fun a b : nat => if (a =? rank)%nat then el m' i b * (1 / rr) else el q a b).
        assert (ON : orthonormal_rows p (S rank) qn).
        { intros a b Ha Hb. unfold rdot, qn. destruct (Nat.eqb_spec a rank) as [->|Na]; destruct (Nat.eqb_spec b rank) as [->|Nb].
          - rewrite (rsum_ext p _ (fun k => (1 / rr ^ 2) * (el m' i k * el m' i k))) by (intros; field; auto).
            rewrite rsum_scal, <- R2. unfold delta. rewrite Nat.eqb_refl. field. auto.
          - rewrite (rsum_ext p _ (fun k => (1 / rr) * (el m' i k * el q b k))) by (intros; ring).
            rewrite rsum_scal, OQ by lia. unfold delta. nbp. ring.
          - rewrite (rsum_ext p _ (fun k => (1 / rr) * (el m' i k * el q a k))) by (intros; ring).
            rewrite rsum_scal, OQ by lia. unfold delta. nbp. ring.
          - apply (O a b); lia. }
        assert (RP : (S rank <= p)%nat) by (apply (family_size p (S rank) qn ON)).
        rewrite (proj2 (Nat.ltb_lt _ _)) by lia. cbn [negb]. rewrite mset_ok by lia. cbn [bind].
        rewrite (proj2 (Nat.ltb_lt rank p)) by lia. eexists. split; [reflexivity|]. unfold ginv. cbn [nr nc el]. conjs; auto.
        * lia.
        * intros a k Ha Hk. rewrite B5 by lia. apply H1; lia.
        * intros a j Ha. nbp. rewrite B6 by lia. apply H2; lia.
        * intros a j Ha Hj. destruct (Nat.eq_dec a i) as [->|Na]; [rewrite B7 by lia; nbp|]. rewrite B6 by auto. replace (a =? i)%nat with false by (symmetry; nbp). apply H3; lia.
        * intros a Ha. fold qn. destruct (Nat.eq_dec a i) as [->|Na].
          -- rewrite rsum_0; [apply pow2_ge_0|]. intros k Hk. rewrite !Nat.eqb_refl. cbn [andb rsum]. rewrite Nat.eqb_refl.
             rewrite (rsum_ext rank _ (fun j => el l' i j * el q j k)).
             2:{ intros j Hj. unfold qn. nbp. }
             replace (el m0 i k) with (el m' i k + rsum rank (fun j => el l' i j * el q j k)) by (rewrite B8 by auto; ring).
             rs. field. auto.
          -- replace (a =? i)%nat with false by (symmetry; nbp). cbn [andb].
             rewrite (rsum_ext p _ (fun k => (el m0 a k - rsum rank (fun j => el l a j * el q j k)) ^ 2)); [apply H4; lia|].
             intros k Hk. f_equal. f_equal. cbn [rsum]. rewrite B6, (H3 a rank) by lia. rewrite Rmult_0_l, Rplus_0_r.
             apply rsum_ext. intros j Hj. rewrite B6 by auto. unfold qn. nbp.
        * fold qn. exists (fun j a => if (j =? rank)%nat then (delta i a - rsum rank (fun s => el l' i s * C s a)) / rr else C j a).
          intros j k Hj Hk. unfold qn. destruct (Nat.eqb_spec j rank) as [->|Nj]; [|apply H5; lia].
          rewrite (rsum_ext n _ (fun a => (1 / rr) * (el m0 a k * delta i a - rsum rank (fun s => el l' i s * (C s a * el m0 a k))))).
          2:{ intros a Ha. replace ((delta i a - rsum rank (fun s => el l' i s * C s a)) / rr * el m0 a k) with ((1 / rr) * (el m0 a k * delta i a - rsum rank (fun s => el l' i s * C s a) * el m0 a k)) by (field; auto).
              f_equal. f_equal. rewrite <- rsum_scal_r. apply rsum_ext. intros; ring. }
          rewrite rsum_scal, rsum_sub, (delta_sum n i (fun a => el m0 a k)) by lia. rewrite B8 by auto.
          rewrite (rsum_swap n rank). rewrite (rsum_ext rank (fun i0 => rsum n _) (fun s => el l' i s * el q s k)); [rs; ring|].
          intros s Hs. rewrite rsum_scal, <- H5 by auto. reflexivity.
    - rewrite E. cbn [bind]. exists l, q, rank. split; [reflexivity|].
      destruct P as (L1 & L2 & L3 & L4 & L5 & L6 & L7 & O & H1 & H2 & H3 & H4 & H5). conjs; auto.
      pose proof (family_size p rank (el q) O). lia.
  Qed.
End GS.
