(** Proofs about the first clusters (C57): KKZ, k-means++, medoids. *)
From Coq Require Import Reals Lra Lia Psatz List Permutation.
From Verif Require Import Prelude Prelude_Proofs Scalar RealLib Fmat Fmat_Proofs LE_Model IP_Model IP_Proofs Vop Stat_Model Stat_Proofs Stat2_Proofs Cluster_Model Cluster_Proofs Cluster2_Proofs.
Import ListNotations.
Local Open Scope R_scope.

Lemma argmax_ok (points : list nat) (f : nat -> res R) (F : nat -> R) : (forall p, In p points -> f p = Ok (F p)) ->
  exists dm pm, foreach points (fun p '(dmax, pm) => d <- f p ;; if slt dmax d then Ok (d, Some p) else Ok (dmax, pm)) (0%S, None) = Ok (dm, pm) /\
    (forall p, In p points -> F p <= dm) /\ match pm with None => dm = 0 | Some q => In q points /\ dm = F q /\ 0 < dm end.
Proof.
  intros HF.
  destruct (foreach_inv (fun pre '(dm, pm) => 0 <= dm /\ (forall p, In p pre -> F p <= dm) /\ match pm with None => dm = 0 | Some q => In q points /\ dm = F q /\ 0 < dm end)
    (fun p '(dmax, pm) => d <- f p ;; if slt dmax d then Ok (d, Some p) else Ok (dmax, pm)) points [] (0%S, None)) as ((dm & pm) & E & A & B & C).
  - conjs; auto; [rs; lra|intros p []].
  - intros pre a (dm & pm) Ia (A & B & C). rewrite HF by auto. cbn [bind]. rs. destruct (Rltb_spec dm (F a)) as [X|X]; eexists; (split; [reflexivity|]); cbv beta iota; conjs; auto; try lra.
    + intros p Ip. apply in_app_or in Ip. destruct Ip as [Ip|[<-|[]]]; [specialize (B p Ip)|]; lra.
    + intros p Ip. apply in_app_or in Ip. destruct Ip as [Ip|[<-|[]]]; [specialize (B p Ip)|]; lra.
  - exists dm, pm. conjs; auto.
Qed.

Lemma perm_add {A} (X Y c : list A) p : Permutation (X ++ c) (Y ++ (c ++ [p])) -> Permutation X (Y ++ [p]).
Proof. intros P. rewrite (Permutation_app_comm c [p]), app_assoc in P. now apply Permutation_app_inv_r in P. Qed.
Lemma NoDup_app_ {A} (l1 l2 : list A) : NoDup l1 -> NoDup l2 -> (forall x, In x l1 -> In x l2 -> False) -> NoDup (l1 ++ l2).
Proof.
  intros N1 N2 H. induction N1 as [|a l Na Nl IH]; [exact N2|]. cbn. constructor.
  - intros I. apply in_app_or in I. destruct I as [I|I]; auto. eapply H; eauto. now left.
  - apply IH. intros x I1 I2. eapply H; eauto. now right.
Qed.
Lemma foreach_ext_ {A St} (f g : A -> St -> res St) l : (forall a s, In a l -> f a s = g a s) -> forall s, foreach l f s = foreach l g s.
Proof.
  intros H s. unfold foreach. generalize (Ok s) as r. induction l as [|a l IH]; intros r; [reflexivity|]. cbn. replace (s <- r ;; f a s) with (s <- r ;; g a s).
  - apply IH. intros; apply H. now right.
  - destruct r; cbn; auto. symmetry. apply H. now left.
Qed.

Lemma match_ne {A B} (l : list A) (x y : B) : l <> [] -> match l with [] => x | _ :: _ => y end = y.
Proof. now destruct l. Qed.

Lemma rsum_pick n i f : (i < n)%nat -> rsum n f = f i + rsum n (fun j => if (j =? i)%nat then 0 else f j).
Proof.
  intros H. induction n as [|n IH]; [lia|]. cbn [rsum]. destruct (Nat.eq_dec i n) as [->|].
  - rewrite Nat.eqb_refl. rewrite (rsum_ext n (fun j => if (j =? n)%nat then 0 else f j) f) by (intros j Hj; destruct (Nat.eqb_spec j n); [lia|reflexivity]). lra.
  - rewrite IH by lia. destruct (Nat.eqb_spec n i); [lia|]. lra.
Qed.

Section Init.
  Context (dist : fvec R -> fvec R -> res R) (pt : nat -> fvec R) (points : list nat) (E : nat -> nat -> R).
  Context (HE : forall p q, In p points -> In q points -> dist (pt p) (pt q) = Ok (E p q)).

  Section Seeds.
    Context (seeds : list nat) (SP : forall q, In q seeds -> In q points) (SN : seeds <> []).
    Local Notation k := (length seeds). Local Notation sd j := (nth j seeds O).
    Definition heads (cs : list (list nat)) : Prop := length cs = k /\ forall j, (j < k)%nat -> exists tl, nth j cs [] = sd j :: tl.
    Lemma init_point_ok p cs : heads cs -> In p points ->
      exists cs', init_point dist pt p cs = Ok cs' /\
        ((In p seeds /\ cs' = cs) \/ (~ In p seeds /\ exists j, (j < k)%nat /\ cs' = upd cs j (nth j cs [] ++ [p]) /\ forall j', (j' < k)%nat -> E p (sd j) <= E p (sd j'))).
    Proof.
      intros (L & H) Ip. unfold init_point.
      match goal with |- context [forb 0 (length cs) ?f ?s] => destruct (forb_inv (fun n '(dm, c) => (forall j, (j < n)%nat -> p <> sd j) /\
        match c with None => n = O /\ dm = None | Some j => (j < n)%nat /\ dm = Some (E p (sd j)) /\ forall j', (j' < n)%nat -> E p (sd j) <= E p (sd j') end)
        (fun _ => In p seeds) 0 (length cs) f s) as (o & Eo & Po) end; [lia| | |].
      - conjs; auto. intros; lia.
      - intros n (dm & c) Hn (A & B). rewrite L in Hn. destruct (H n ltac:(lia)) as (tl & Hh). rewrite (get_ok cs n []) by lia. cbn [bind]. rewrite Hh. cbn [get nth_error bind].
        change (get (sd n :: tl) 0) with (Ok (sd n)). cbn [bind]. destruct (Nat.eqb_spec p (sd n)) as [->|Np].
        { eexists. split; [reflexivity|]. cbv beta iota. apply nth_In. lia. }
        rewrite HE by (auto; apply SP, nth_In; lia). cbn [bind].
        assert (A' : forall j, (j < S n)%nat -> p <> sd j) by (intros j Hj; assert (j = n \/ (j < n)%nat) as [->|] by lia; auto).
        destruct c as [j|].
        + destruct B as (B1 & -> & B3). rs. destruct (Rltb_spec (E p (sd n)) (E p (sd j))) as [X|X]; eexists; (split; [reflexivity|]); cbv beta iota; conjs; auto; try lia.
          * intros j' Hj'. assert (j' = n \/ (j' < n)%nat) as [->|J] by lia; [lra|]. specialize (B3 _ J). lra.
          * intros j' Hj'. assert (j' = n \/ (j' < n)%nat) as [->|J] by lia; [lra|]. specialize (B3 _ J). lra.
        + destruct B as (-> & ->). eexists. split; [reflexivity|]. cbv beta iota. conjs; auto. intros j' Hj'. replace j' with O by lia. lra.
      - rewrite Eo. cbn [bind]. destruct o as [(dm & c)|u].
        + destruct Po as (A & B). rewrite L in *. destruct c as [j|].
          * destruct B as (B1 & B2 & B3). rewrite (get_ok cs j []) by lia. cbn [bind]. rewrite set_ok by lia. eexists. split; [reflexivity|]. right. split.
            { intros I. apply (In_nth _ _ O) in I. destruct I as (i & Hi & <-). now apply (A i Hi). }
            exists j. auto.
          * destruct B as (B & _). destruct seeds; [congruence|]. cbn in B. lia.
        + eexists. split; [reflexivity|]. left. auto.
    Qed.
    Lemma init_ok : NoDup points -> NoDup seeds ->
      exists cs, _zVecMultiClusterKMeansInitCluster dist pt points (map (fun p => [p]) seeds) = Ok cs /\ heads cs /\ Permutation (concat cs) points /\
        forall j q, (j < k)%nat -> In q (nth j cs []) -> q = sd j \/ (forall j', (j' < k)%nat -> E q (sd j) <= E q (sd j')).
    Proof.
      intros NP NS. unfold _zVecMultiClusterKMeansInitCluster.
      destruct (foreach_inv (fun pre cs => heads cs /\ Permutation (concat cs) (seeds ++ filter (fun p => negb (existsb (Nat.eqb p) seeds)) pre) /\
        forall j q, (j < k)%nat -> In q (nth j cs []) -> q = sd j \/ (forall j', (j' < k)%nat -> E q (sd j) <= E q (sd j')))
        (init_point dist pt) points [] (map (fun p => [p]) seeds)) as (cs & Ec & A & B & C).
      - conjs.
        + split; [apply map_length|]. intros j Hj. exists []. rewrite (nth_indep _ [] [O]) by (rewrite map_length; auto). now rewrite (map_nth (fun p => [p])).
        + cbn [filter]. rewrite app_nil_r. clear. induction seeds as [|a l IH]; [constructor|]. cbn. now constructor.
        + intros j q Hj I. rewrite (nth_indep _ [] [O]) in I by (rewrite map_length; auto). rewrite (map_nth (fun p => [p])) in I. destruct I as [<-|[]]. auto.
      - intros pre a cs Ia (A & B & C). destruct (init_point_ok a cs A Ia) as (cs' & Ec & [(I & ->)|(I & j & Hj & -> & M)]); eexists; (split; [exact Ec|]); conjs; auto.
        + rewrite B. rewrite filter_app. cbn [filter]. assert (X : existsb (Nat.eqb a) seeds = true) by (apply existsb_exists; exists a; split; auto; apply Nat.eqb_refl).
          rewrite X. cbn. now rewrite app_nil_r.
        + destruct A as (A1 & A2). split; [now rewrite upd_length|]. intros j' Hj'. rewrite nth_upd by lia. destruct (Nat.eqb_spec j' j) as [->|]; auto.
          destruct (A2 j Hj) as (tl & ->). exists (tl ++ [a]). reflexivity.
        + rewrite filter_app. cbn [filter]. assert (X : existsb (Nat.eqb a) seeds = false).
          { apply Bool.not_true_is_false. intros X. apply existsb_exists in X. destruct X as (b & Ib & Eb). apply Nat.eqb_eq in Eb. subst b. contradiction. }
          rewrite X. cbn [negb]. rewrite app_assoc, <- B. destruct A as (A1 & A2).
          pose proof (concat_upd cs j (nth j cs [] ++ [a]) [] ltac:(lia)) as P.
          now apply perm_add in P.
        + intros j' q Hj' Iq. rewrite nth_upd in Iq by (destruct A as (A1 & _); lia). destruct (Nat.eqb_spec j' j) as [->|]; auto.
          apply in_app_or in Iq. destruct Iq as [Iq|[<-|[]]]; auto.
      - exists cs. conjs; auto. rewrite B. cbn [app]. apply NoDup_Permutation; auto.
        + apply NoDup_app_; auto. { now apply NoDup_filter. } intros x I1 I2. apply filter_In in I2. destruct I2 as (_ & I2).
          assert (X : existsb (Nat.eqb x) seeds = true) by (apply existsb_exists; exists x; split; auto; apply Nat.eqb_refl). rewrite X in I2. discriminate.
        + intros x. rewrite in_app_iff, filter_In. split; [intros [I|(I & _)]; auto|]. intros I. destruct (existsb (Nat.eqb x) seeds) eqn:X; auto.
          left. apply existsb_exists in X. destruct X as (b & Ib & Eb). apply Nat.eqb_eq in Eb. now subst b.
    Qed.
    Lemma near_seed_ok p : In p points -> exists d, near_seed dist pt seeds p = Ok (Some d) /\ (exists s, In s seeds /\ d = E p s) /\ forall s, In s seeds -> d <= E p s.
    Proof.
      intros Ip. unfold near_seed.
      match goal with |- context [foreach seeds ?f ?s] => destruct (foreach_inv (fun pre dm => match dm with None => pre = [] | Some d => (exists t, In t seeds /\ d = E p t) /\ forall t, In t pre -> d <= E p t end)
        f seeds [] s) as (dm & Ed & A) end.
      - reflexivity.
      - intros pre a dm Ia A. rewrite HE by auto. cbn [bind]. destruct dm as [d|].
        + destruct A as (A1 & A2). rs. destruct (Rltb_spec (E p a) d) as [X|X]; eexists; (split; [reflexivity|]); cbv beta iota; conjs; eauto; intros s Is; apply in_app_or in Is; destruct Is as [Is|[<-|[]]]; try lra; specialize (A2 s Is); lra.
        + subst pre. eexists. split; [reflexivity|]. cbv beta iota. split; eauto. intros s [<-|[]]. lra.
      - rewrite Ed. cbn [app] in A. destruct dm as [d|]; [|contradiction]. exists d. auto.
    Qed.
    Definition nd (p : nat) : R := fold_right (fun s d => Rmin (E p s) d) (E p (hd O seeds)) seeds.
    Lemma nd_spec p : (exists s, In s seeds /\ nd p = E p s) /\ forall s, In s seeds -> nd p <= E p s.
    Proof.
      assert (H : forall l, (nd p = nd p) -> let x := fold_right (fun s d => Rmin (E p s) d) (E p (hd O seeds)) l in (x = E p (hd O seeds) \/ exists s, In s l /\ x = E p s) /\ forall s, In s l -> x <= E p s).
      { intros l _. induction l as [|a l (I1 & I2)]; cbn; [split; auto; intros s []|]. split.
        - unfold Rmin. destruct (Rle_dec _ _); eauto. destruct I1 as [I1|(s & I1 & I3)]; eauto.
        - intros s [<-|Is]; [apply Rmin_l|]. eapply Rle_trans; [apply Rmin_r|]. now apply I2. }
      destruct (H seeds eq_refl) as (A & B). fold (nd p) in A, B. split; auto. destruct A as [A|A]; auto. exists (hd O seeds). split; auto. destruct seeds; [congruence|]. now left.
    Qed.
    Lemma near_seed_nd p : In p points -> near_seed dist pt seeds p = Ok (Some (nd p)).
    Proof.
      intros Ip. destruct (near_seed_ok p Ip) as (d & Ed & (s & Is & Es) & M). rewrite Ed. do 2 f_equal. destruct (nd_spec p) as ((s' & Is' & Es') & M').
      apply Rle_antisym; [rewrite Es'; now apply M|rewrite Es; now apply M'].
    Qed.
    Lemma nd_nonneg p : In p points -> (forall q, In q points -> 0 <= E p q) -> 0 <= nd p.
    Proof. intros Ip H. destruct (nd_spec p) as ((s & Is & ->) & _). auto. Qed.
    Lemma nd_seed p : In p points -> E p p = 0 -> In p seeds -> nd p <= 0.
    Proof. intros Ip H I. destruct (nd_spec p) as (_ & M). specialize (M p I). lra. Qed.
    Lemma fresh_point : NoDup points -> (k < length points)%nat -> exists p, In p points /\ ~ In p seeds.
    Proof.
      intros NP L. destruct (existsb (fun p => negb (existsb (Nat.eqb p) seeds)) points) eqn:X.
      - apply existsb_exists in X. destruct X as (p & Ip & N). exists p. split; auto. intros I.
        assert (Y : existsb (Nat.eqb p) seeds = true) by (apply existsb_exists; exists p; split; auto; apply Nat.eqb_refl). rewrite Y in N. discriminate.
      - exfalso. assert (I : incl points seeds).
        { intros p Ip. destruct (existsb (Nat.eqb p) seeds) eqn:Y.
          - apply existsb_exists in Y. destruct Y as (b & Ib & Eb). apply Nat.eqb_eq in Eb. now subst b.
          - assert (Z : existsb (fun p => negb (existsb (Nat.eqb p) seeds)) points = true) by (apply existsb_exists; exists p; split; auto; now rewrite Y). congruence. }
        pose proof (NoDup_incl_length NP I). lia.
    Qed.
  End Seeds.

  Definition distinct_seeds (seeds : list nat) (k : nat) : Prop := length seeds = k /\ NoDup seeds /\ forall q, In q seeds -> In q points.
  Lemma distinct_add seeds k p : distinct_seeds seeds k -> In p points -> ~ In p seeds -> distinct_seeds (seeds ++ [p]) (S k).
  Proof.
    intros (A & B & C) Ip N. split; [rewrite app_length; cbn; lia|]. split.
    - apply NoDup_app_; auto. + repeat constructor. intros []. + intros x I1 [<-|[]]. contradiction.
    - intros q Iq. apply in_app_or in Iq. destruct Iq as [Iq|[<-|[]]]; auto.
  Qed.
  (** ** KKZ *)
  Section KKZ.
    Context (ztol : R) (mean : fvec R) (M : nat -> R) (k : nat) (NP : NoDup points) (NE : points <> []).
    Context (HM : zVecListMean ztol (map pt points) (vzero (vlen (pt (last points O)))) = Ok mean).
    Context (HDM : forall p, In p points -> dist (pt p) mean = Ok (M p)).
    Context (E0 : forall p, In p points -> E p p = 0) (EP : forall p q, In p points -> In q points -> p <> q -> 0 < E p q).
    Lemma kkz_ok : (0 < k <= length points)%nat -> (exists p, In p points /\ 0 < M p) ->
      exists seeds, kkz_seeds ztol dist pt points k = Ok (Some seeds) /\ distinct_seeds seeds k.
    Proof.
      intros Hk (p0 & Ip0 & Mp0). unfold kkz_seeds. rewrite match_ne by auto.
      destruct (Nat.eqb_spec k 0); [lia|]. rewrite HM. cbn [bind].
      destruct (argmax_ok points (fun p => dist (pt p) mean) M HDM) as (dm & pm & Ea & A & B). rewrite Ea. cbn [bind].
      destruct pm as [p|]; [|specialize (A p0 Ip0); lra]. destruct B as (B1 & B2 & B3).
      match goal with |- context [for_ 1 (Nat.max 1 k) ?f ?s] => destruct (for_inv (fun i seeds => distinct_seeds seeds i) 1 (Nat.max 1 k) f s) as (seeds & Es & S) end; [lia| | |].
      - split; [reflexivity|]. split; [repeat constructor; intros []|]. intros q [<-|[]]. auto.
      - intros i seeds Hi S. pose proof S as (S1 & S2 & S3). assert (SN : seeds <> []) by (destruct seeds; [cbn in S1; lia|discriminate]).
        destruct (argmax_ok points (fun p => dmin <- near_seed dist pt seeds p ;; match dmin with None => UB | Some d => Ok d end) (nd seeds)) as (dm2 & pm2 & Ea2 & A2 & B2').
        { intros q Iq. rewrite near_seed_nd by auto. reflexivity. }
        assert (FE : foreach points (fun p '(dmax, pm) => dmin <- near_seed dist pt seeds p ;; match dmin with None => UB | Some d => if slt dmax d then Ok (d, Some p) else Ok (dmax, pm) end) (0%S, None) = Ok (dm2, pm2)).
        { rewrite <- Ea2. apply foreach_ext_. intros q (dm' & pm') Iq. rewrite near_seed_nd by auto. reflexivity. }
        rewrite FE. cbn [bind]. destruct pm2 as [q|].
        + eexists. split; [reflexivity|]. destruct B2' as (C1 & C2 & C3). apply distinct_add; auto. intros I. assert (nd seeds q <= 0) by (eapply nd_seed; eauto). lra.
        + exfalso. destruct (fresh_point seeds NP) as (q & Iq & Nq); [lia|]. specialize (A2 q Iq).
          assert (ND : exists s, In s seeds /\ nd seeds q = E q s) by (eapply nd_spec; eauto). destruct ND as (s & Is & Es). assert (0 < E q s) by (apply EP; auto; congruence). lra.
      - rewrite Es. cbn [bind]. eexists. split; [reflexivity|]. replace (Nat.max 1 k) with k in S by lia. exact S.
    Qed.
  End KKZ.
  (** ** k-means++ *)
  Section PP.
    Context (ztol : R) (Ht : 0 <= ztol) (rndi : nat -> nat -> nat) (rndf : nat -> R) (k : nat) (NP : NoDup points) (NE : points <> []).
    Context (HRI : forall r n, (0 < n)%nat -> (rndi r n < n)%nat) (HRF : forall r, 0 < rndf r <= 1).
    Context (E0 : forall p, In p points -> E p p = 0) (EN : forall p q, In p points -> In q points -> 0 <= E p q)
      (EP : forall p q, In p points -> In q points -> p <> q -> ztol < E p q * E p q).
    Lemma pick_ok seeds r : distinct_seeds seeds (length seeds) -> (0 < length seeds < length points)%nat ->
      exists p, In p points /\ ~ In p seeds /\
        (score <- foreach points (fun p score =>
            dmin <- near_seed dist pt seeds p ;;
            match dmin with None => UB | Some d => Ok (score ++ [(d * d)%S]) end) [] ;;
          sum <- zDataSum score (length score) ;;
          score <- zVecDivDRC ztol (vec_of 0%S score) sum ;;
          let pr := rndf r in
          r' <- forb 0 (length points) (fun i rate =>
             x <- vget score i ;;
             let rate := (rate + x)%S in
             if sle pr rate then p <- get points i ;; Ok (inr p) else Ok (inl rate)) 0%S ;;
          match r' with inl _ => UB | inr p => Ok (seeds ++ [p], S r) end) = Ok (seeds ++ [p], S r).
    Proof.
      intros (S1 & S2 & S3) L. assert (SN : seeds <> []) by (destruct seeds; [cbn in L; lia|discriminate]).
      set (F := nd seeds).
      assert (NDS : forall p, (exists s, In s seeds /\ F p = E p s) /\ forall s, In s seeds -> F p <= E p s) by (intros p; eapply nd_spec; eauto).
      assert (FN : forall p, In p points -> 0 <= F p) by (intros p Ip; destruct (NDS p) as ((s & Is & ->) & _); auto).
      assert (FS : forall p, In p points -> In p seeds -> F p = 0) by (intros p Ip I; apply Rle_antisym; auto; rewrite <- (E0 p Ip); now apply NDS).
      assert (ES : foreach points (fun p score => dmin <- near_seed dist pt seeds p ;; match dmin with None => UB | Some d => Ok (score ++ [(d * d)%S]) end) [] = Ok (map (fun p => F p * F p) points)).
      { match goal with |- foreach points ?f ?s = _ => destruct (foreach_inv (fun pre sc => sc = map (fun p => F p * F p) pre) f points [] s) as (sc & Es & V) end; [reflexivity| |].
        - intros pre a sc Ia ->. rewrite near_seed_nd by auto. cbn [bind]. eexists. split; [reflexivity|]. rewrite map_app. reflexivity.
        - rewrite Es, V. reflexivity. }
      rewrite ES. cbn [bind]. set (score := map (fun p => F p * F p) points). assert (LS : length score = length points) by (apply map_length).
      rewrite zDataSum_ok by lia. cbn [bind]. set (sum := rsum (length score) (fun i => nth i score 0)).
      assert (NS : forall i, (i < length points)%nat -> nth i score 0 = F (nth i points O) * F (nth i points O)).
      { intros i Hi. unfold score. rewrite (nth_indep _ 0 ((fun p => F p * F p) O)) by (rewrite map_length; auto). now rewrite (map_nth (fun p => F p * F p)). }
      assert (SP : ztol < sum).
      { destruct (fresh_point seeds NP) as (q & Iq & Nq); [lia|]. apply (In_nth _ _ O) in Iq. destruct Iq as (i & Hi & Eq).
        unfold sum. rewrite LS. rewrite (rsum_pick (length points) i) by auto. rewrite NS by auto. rewrite Eq.
        assert (Iq : In q points) by (rewrite <- Eq; now apply nth_In).
        destruct (NDS q) as ((s & Is & Es) & _). rewrite Es. assert (X : ztol < E q s * E q s) by (apply EP; auto; congruence).
        assert (0 <= rsum (length points) (fun j => if (j =? i)%nat then 0 else nth j score 0)); [|lra].
        apply rsum_nonneg. intros j Hj. destruct (j =? i)%nat; [lra|]. rewrite NS by auto. apply Rle_0_sqr. }
      assert (ED : zVecDivDRC ztol (vec_of 0%S score) sum = Ok (FV (length score) (fun i => nth i score 0 * (1 / sum)))).
      { unfold zVecDivDRC. assert (X : is_tol ztol sum = false) by (rewrite is_tol_R; apply Rleb_false; rewrite Rabs_pos_eq by lra; lra).
        rewrite X. unfold zVecDivNC. rewrite vop1_ok by auto. reflexivity. }
      rewrite ED. cbn [bind]. cbv zeta.
      match goal with |- context [forb 0 (length points) ?f ?s] => destruct (forb_inv (fun i rate => rate = rsum i (fun j => nth j score 0 * (1 / sum)) /\ rate < rndf r)
        (fun p => In p points /\ ~ In p seeds) 0 (length points) f s) as (o & Eo & Po) end; [lia| | |].
      - cbn. split; auto. apply HRF.
      - intros i rate Hi (-> & B). rewrite vget_ok by (cbn [vlen]; lia). cbn [bind vel]. rs.
        destruct (Rleb_spec (rndf r) (rsum i (fun j => nth j score 0 * (1 / sum)) + nth i score 0 * (1 / sum))) as [X|X].
        + rewrite (get_ok _ i O) by lia. cbn [bind]. eexists. split; [reflexivity|]. cbv beta iota. split; [apply nth_In; lia|].
          intros I. rewrite NS in X by lia. rewrite FS in X by (auto; apply nth_In; lia). lra.
        + eexists. split; [reflexivity|]. cbv beta iota. split; [reflexivity|lra].
      - rewrite Eo. cbn [bind]. destruct o as [rate|p].
        + exfalso. destruct Po as (-> & B). rewrite rsum_scal_r in B. rewrite <- LS in B. fold sum in B. pose proof (HRF r).
          replace (sum * (1 / sum)) with 1 in B by (field; lra). lra.
        + destruct Po as (P1 & P2). exists p. auto.
    Qed.
    Lemma pp_ok r : (0 < k <= length points)%nat ->
      exists seeds, pp_seeds ztol dist pt rndi rndf points k r = Ok (Some (seeds, (r + k)%nat)) /\ distinct_seeds seeds k.
    Proof.
      intros Hk. unfold pp_seeds. rewrite match_ne by auto. destruct (Nat.eqb_spec k 0); [lia|].
      assert (LP : (0 < length points)%nat) by lia. pose proof (HRI r _ LP) as RI. rewrite (get_ok _ _ O) by auto. cbn [bind].
      match goal with |- context [for_ 1 (Nat.max 1 k) ?f ?s] => destruct (for_inv (fun i '(seeds, r') => distinct_seeds seeds i /\ r' = (r + i)%nat) 1 (Nat.max 1 k) f s) as ((seeds & r') & Es & S & R') end; [lia| | |].
      - split; [|lia]. split; [reflexivity|]. split; [repeat constructor; intros []|]. intros q [<-|[]]. now apply nth_In.
      - intros i (seeds & r') Hi (S & ->). pose proof S as (S1 & _). destruct (pick_ok seeds (r + i)) as (p & Ip & Np & Ep); [now rewrite S1|lia|].
        eexists. split; [exact Ep|]. split; [now apply distinct_add|lia].
      - rewrite Es. cbn [bind]. replace (Nat.max 1 k) with k in * by lia. subst r'. eauto.
    Qed.
  End PP.
End Init.

Lemma kkz_ub (dist : fvec R -> fvec R -> res R) (pt : nat -> fvec R) (points : list nat) ztol mean (M : nat -> R) k : points <> [] ->
  zVecListMean ztol (map pt points) (vzero (vlen (pt (last points O)))) = Ok mean -> (forall p, In p points -> dist (pt p) mean = Ok (M p)) ->
  (0 < k)%nat -> (forall p, In p points -> M p <= 0) -> kkz_seeds ztol dist pt points k = UB.
Proof.
  intros NE HM HDM Hk H. unfold kkz_seeds. rewrite match_ne by auto.
  destruct (Nat.eqb_spec k 0); [lia|]. rewrite HM. cbn [bind].
  destruct (argmax_ok points (fun p => dist (pt p) mean) M HDM) as (dm & pm & Ea & A & B). rewrite Ea. cbn [bind].
  destruct pm as [p|]; [|reflexivity]. destruct B as (B1 & B2 & B3). specialize (H p B1). lra.
Qed.

(** ** medoids *)
Section Medoid.
  Context (dist : fvec R -> fvec R -> res R) (d : fvec R -> fvec R -> R).
  Lemma distsum_ok l v : (forall x, In x l -> dist x v = Ok (d x v)) -> _zVecClusterDistSum dist l v = Ok (lsum (fun x => d x v) l).
  Proof.
    intros H. unfold _zVecClusterDistSum.
    match goal with |- foreach l ?f ?s = _ => destruct (foreach_inv (fun pre st => st = lsum (fun x => d x v) pre) f l [] s) as (s' & E & V) end; [reflexivity| |].
    - intros pre a s Ia ->. rewrite H by auto. cbn [bind]. eexists. split; [reflexivity|]. rewrite lsum_app. cbn. rs. ring.
    - rewrite E, V. reflexivity.
  Qed.
  Lemma medoid_ok l core m : l <> [] -> (forall x y, In x l -> In y l -> dist x y = Ok (d x y)) -> (forall x, In x l -> vlen x = m) -> vlen core = m ->
    exists mp, _zVecClusterCoreMedoid dist l core = Ok (FV m (vel mp)) /\ In mp l /\ forall y, In y l -> lsum (fun x => d x mp) l <= lsum (fun x => d x y) l.
  Proof.
    intros NE H S C. unfold _zVecClusterCoreMedoid. destruct l as [|t l0] eqn:EL; [congruence|]. rewrite <- EL in *.
    match goal with |- context [foreach l ?f ?s] => destruct (foreach_inv (fun pre '(dm, mp) => In mp l /\ match dm with None => pre = [] | Some dd => dd = lsum (fun x => d x mp) l /\ forall y, In y pre -> dd <= lsum (fun x => d x y) l end) f l [] s) as ((dm & mp) & E & I & V) end.
    - split; auto. rewrite EL. now left.
    - intros pre a (dm & mp) Ia (I & V). rewrite distsum_ok by auto. cbn [bind]. destruct dm as [dd|].
      + destruct V as (V1 & V2). rs. destruct (Rltb_spec (lsum (fun x => d x a) l) dd) as [X|X]; eexists; (split; [reflexivity|]); cbv beta iota; conjs; auto;
          intros y Iy; apply in_app_or in Iy; destruct Iy as [Iy|[<-|[]]]; try lra; specialize (V2 y Iy); lra.
      + subst pre. eexists. split; [reflexivity|]. cbv beta iota. conjs; auto. intros y [<-|[]]. lra.
    - rewrite E. cbn [bind]. cbn [app] in V. destruct dm as [dd|]; [|congruence]. destruct V as (-> & V). exists mp. unfold zVecCopyC. rewrite (S mp I), C, Nat.eqb_refl.
      unfold zVecCopyNC. rewrite vop1_ok by (rewrite (S mp I); auto). rewrite C. auto.
  Qed.
End Medoid.
