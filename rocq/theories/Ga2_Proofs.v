(** Lemmas about the genetic algorithm (C87): evaluation, selection, reproduction. *)
From Coq Require Import List Arith Lia Reals Lra Bool Permutation ZArith.
From Verif Require Import Prelude Prelude_Proofs Scalar RealLib Rrt2_Proofs Ga_Model Ga_Spec Ga_Proofs.
Import ListNotations.
Local Open Scope R_scope.
Local Notation at_ l k := (nth k l dflt).

Lemma fold_total : forall (l : list (@chrom R)) s, fold_left (fun s c => s + fitness c) l s = s + total l.
Proof. unfold total. induction l as [|c l IH]; intros s; cbn [fold_left fold_right]; [lra|]. rewrite IH. lra. Qed.
Lemma lack_nonneg : forall f m l, (forall c, In c l -> f (gene c) <= m) -> 0 <= lack f m l.
Proof. unfold lack. induction l as [|c l IH]; intros H; cbn [fold_right]; [lra|]. pose proof (H c (or_introl eq_refl)). assert (0 <= fold_right (fun (c : chrom) (s : R) => m - f (gene c) + s) 0 l) by (apply IH; intros; apply H; right; auto). lra. Qed.
Lemma total_div : forall f m d l, total (map (fun c => Chrom ((m - f (gene c)) / d) (gene c)) l) = lack f m l / d.
Proof. intros f m d l. unfold total, lack, Rdiv. induction l as [|c l IH]; cbn [map fold_right fitness]; [lra|]. rewrite IH. lra. Qed.
Lemma lack_map : forall f m (h : chrom -> R) l, lack f m (map (fun c => Chrom (h c) (gene c)) l) = lack f m l.
Proof. intros f m h l. unfold lack. induction l as [|c l IH]; cbn [map fold_right gene]; [auto|]. now rewrite IH. Qed.

Section Sort.
  Variables (f : list R -> R) (ztol : R).
  Hypothesis Hz : 0 <= ztol.

  Lemma sort_ok : forall l, l <> [] -> exists g, _zOptGASort f ztol l = Ok g /\ Permutation (map gene l) (map gene (ind g)) /\
    ranked f (ind g) /\ scored f ztol (ind g) /\ exists c, nth_error (ind g) 0 = Some c /\ geval g = f (gene c).
  Proof.
    intros l Hl. unfold _zOptGASort. set (l0 := map (fun c => Chrom (sopp (f (gene c))) (gene c)) l).
    assert (L0 : length l0 = length l) by apply map_length. assert (Hp : (0 < length l)%nat) by (destruct l; [congruence|cbn; lia]).
    destruct (qsort_ok (S (length l0)) l0 0 (length l0)) as [l1 [E1 [S1 D1]]]; try lia. rewrite E1. cbn [bind].
    assert (L1 : length l1 = length l0) by (eapply sh_length; eauto).
    assert (V1 : forall c, In c l1 -> fitness c = - f (gene c)).
    { destruct S1 as [P1 _]. intros c Hc. apply (Permutation_in _ (Permutation_sym P1)) in Hc. apply in_map_iff in Hc. destruct Hc as [x [<- _]]. reflexivity. }
    assert (V1' : forall k, (k < length l1)%nat -> fitness (at_ l1 k) = - f (gene (at_ l1 k))) by (intros; apply V1; apply nth_In; auto).
    destruct (length l1) as [|k] eqn:Ek; [lia|]. cbn [at_j]. rewrite gget by lia. cbn [bind]. rewrite gget by lia. cbn [bind]. cbv zeta.
    set (m := f (gene (at_ l1 k))). assert (Fm : fitness (at_ l1 k) = - m) by (apply V1'; lia).
    set (l2 := map (fun c => Chrom (fitness c - fitness (at_ l1 k))%S (gene c)) l1).
    assert (E2 : l2 = map (fun c => Chrom (m - f (gene c)) (gene c)) l1).
    { apply map_ext_in. intros c Hc. f_equal. change (fitness c - fitness (at_ l1 k) = m - f (gene c)). rewrite Fm, (V1 c Hc). lra. }
    change (fun (s : R) (c : chrom) => (s + fitness c)%S) with (fun (s : R) (c : @chrom R) => s + fitness c). rewrite fold_total. change (@s0 R RealS) with 0. rewrite Rplus_0_l.
    assert (Tot : total l2 = lack f m l1).
    { rewrite E2. rewrite (map_ext _ (fun c => Chrom ((m - f (gene c)) / 1) (gene c))). { rewrite total_div. field. } intros c. f_equal. field. }
    assert (Max : forall c, In c l1 -> f (gene c) <= m).
    { intros c Hc. destruct (In_nth _ _ dflt Hc) as [i [Hi <-]]. assert (fitness (at_ l1 k) <= fitness (at_ l1 i)) by (apply D1; lia). rewrite Fm, V1' in H by lia. lra. }
    assert (LN : 0 <= lack f m l1) by (apply lack_nonneg; auto).
    assert (GP : Permutation (map gene l) (map gene l1)).
    { replace (map gene l) with (map gene l0) by (unfold l0; rewrite map_map; apply map_ext; auto). apply Permutation_map. apply S1. }
    assert (RK : forall h : chrom -> R, ranked f (map (fun c => Chrom (h c) (gene c)) l1)).
    { intros h i j a b Hij Ha Hb. rewrite nth_error_map in Ha, Hb. destruct (nth_error l1 i) as [x|] eqn:Ei; [|discriminate]. destruct (nth_error l1 j) as [y|] eqn:Ej; [|discriminate].
      cbn [option_map] in Ha, Hb. injection Ha as <-. injection Hb as <-. cbn [gene].
      assert (Hj : (j < length l1)%nat) by (apply nth_error_Some; congruence).
      apply nth_error_nth with (d := dflt) in Ei. apply nth_error_nth with (d := dflt) in Ej. subst x y. assert (fitness (at_ l1 j) <= fitness (at_ l1 i)) by (apply D1; lia).
      rewrite !V1' in H by lia. lra. }
    assert (EV : forall h : chrom -> R, exists c, nth_error (map (fun c => Chrom (h c) (gene c)) l1) 0 = Some c /\ sopp (fitness (at_ l1 0)) = f (gene c)).
    { intros h. exists (Chrom (h (at_ l1 0)) (gene (at_ l1 0))). rewrite nth_error_map. rewrite (nth_error_nth' l1 dflt) by lia. split; auto. cbn [gene].
      change (- fitness (at_ l1 0) = f (gene (at_ l1 0))). rewrite V1' by lia. lra. }
    assert (WM : forall h : chrom -> R, (forall c, In c (map (fun c => Chrom (h c) (gene c)) l1) -> f (gene c) <= m) /\ exists c, In c (map (fun c => Chrom (h c) (gene c)) l1) /\ f (gene c) = m).
    { intros h. split.
      - intros c Hc. apply in_map_iff in Hc. destruct Hc as [x [<- Hx]]. cbn [gene]. auto.
      - exists (Chrom (h (at_ l1 k)) (gene (at_ l1 k))). split; auto. apply in_map_iff. exists (at_ l1 k). split; auto. apply nth_In. lia. }
    rewrite is_tol_R, Tot. rewrite Rabs_right by lra. destruct (Rleb_spec (lack f m l1) ztol) as [Ht|Ht].
    - rewrite E2, map_map. cbn [gene]. eexists. split; [reflexivity|]. cbn [ind geval]. split; [|split; [|split]].
      + rewrite map_map. cbn [gene]. exact GP.
      + apply (RK (fun _ => 1)).
      + exists m. destruct (WM (fun _ => 1)) as [W1 W2]. split; [exact W1|]. split; [exact W2|]. left. split.
        * change (lack f m (map (fun c => Chrom ((fun _ => 1) c) (gene c)) l1) <= ztol). rewrite lack_map. auto.
        * intros c Hc. apply in_map_iff in Hc. destruct Hc as [x [<- _]]. reflexivity.
      + apply (EV (fun _ => 1)).
    - rewrite E2, map_map. cbn [gene fitness]. set (h := fun c : chrom => (m - f (gene c)) / lack f m l1).
      eexists. split; [reflexivity|]. cbn [ind geval]. change (fun x : chrom => Chrom ((m - f (gene x))%R / lack f m l1)%S (gene x)) with (fun c : chrom => Chrom (h c) (gene c)). split; [|split; [|split]].
      + rewrite map_map. cbn [gene]. exact GP.
      + apply RK.
      + exists m. destruct (WM h) as [W1 W2]. split; [exact W1|]. split; [exact W2|]. right. rewrite lack_map. split; [lra|]. split.
        * unfold h. rewrite total_div. field. lra.
        * intros c Hc. apply in_map_iff in Hc. destruct Hc as [x [<- _]]. reflexivity.
      + apply EV.
  Qed.
End Sort.

(** selection *)
Lemma select_some : forall (l : list (@chrom R)) i rate p, rate <= p -> p < rate + total l ->
  exists k, select_loop l i rate p = Some (i + k)%nat /\ (k < length l)%nat /\ 0 < fitness (at_ l k).
Proof.
  unfold total. induction l as [|c l IH]; intros i rate p H1 H2; cbn [fold_right] in H2; [lra|]. cbn [select_loop]. cbv zeta. change (@slt R _) with Rltb. change (@sadd R _) with Rplus.
  destruct (Rltb_spec p (rate + fitness c)).
  - exists 0%nat. rewrite Nat.add_0_r. split; auto. split; [cbn; lia|]. cbn [nth]. lra.
  - destruct (IH (S i) (rate + fitness c) p) as [k [A [B C]]]; [lra|lra|]. exists (S k). replace (i + S k)%nat with (S i + k)%nat by lia. split; auto. split; [cbn; lia|]. exact C.
Qed.
Lemma total_ext : forall l l' : list (@chrom R), map fitness l = map fitness l' -> total l = total l'.
Proof. unfold total. induction l as [|c l IH]; intros [|c' l'] H; try discriminate; auto. cbn in H. injection H as H1 H2. cbn [fold_right]. rewrite H1, (IH l' H2). auto. Qed.
Lemma scored_total : forall f ztol l, l <> [] -> scored f ztol l -> 1 <= total l.
Proof.
  intros f ztol l Hl [m [_ [_ [[_ H]|[_ [H _]]]]]]; [|lra]. destruct l as [|c l]; [congruence|]. unfold total. cbn [fold_right]. rewrite H by (left; auto).
  assert (0 <= fold_right (fun c s => fitness c + s) 0 l); [|lra]. assert (K : forall c, In c l -> fitness c = 1) by (intros; apply H; right; auto). clear H Hl. induction l as [|x l IH]; cbn [fold_right]; [lra|].
  rewrite K by (left; auto). assert (0 <= fold_right (fun (c : chrom) (s : R) => fitness c + s) 0 l) by (apply IH; intros; apply K; right; auto). lra.
Qed.
Lemma select_ok : forall l p, 1 <= total l -> 0 <= p < 1 -> exists k, _zOptGASelect l p = Ok k /\ (k < length l)%nat /\ 0 < fitness (at_ l k).
Proof.
  intros l p Ht Hp. destruct (select_some l 0 0 p) as [k [A [B C]]]; [lra|lra|]. exists k. unfold _zOptGASelect. change (@s0 R _) with 0. rewrite A. auto.
Qed.

Lemma nth_map_seq : forall (h : nat -> R) d j, (j < d)%nat -> nth j (map h (List.seq 0 d)) 0 = h j.
Proof. intros h d j Hj. rewrite (nth_indep _ 0 (h 0%nat)) by (rewrite map_length, seq_length; auto). rewrite map_nth, seq_nth; auto. Qed.

  Lemma nth_error_set : forall (l : list (@chrom R)) i c, (i < length l)%nat -> forall k, nth_error (upd l i c) k = if (k =? i)%nat then Some c else nth_error l k.
  Proof.
    induction l as [|x l IH]; intros [|i] c Hi k; cbn [length] in Hi; try lia; destruct k; cbn [upd nth_error Nat.eqb]; auto. apply IH. lia.
  Qed.
  Lemma map_fitness_upd : forall (l : list (@chrom R)) i c, (i < length l)%nat -> fitness c = fitness (at_ l i) -> map fitness (upd l i c) = map fitness l.
  Proof.
    induction l as [|x l IH]; intros [|i] c Hi Hc; cbn [length] in Hi; try lia; cbn [upd map nth] in *; [now rewrite Hc|]. f_equal. apply IH; [lia|auto].
  Qed.
  Lemma in_upd : forall (l : list (@chrom R)) i c x, In x (upd l i c) -> x = c \/ In x l.
  Proof. induction l as [|y l IH]; intros [|i] c x Hx; cbn [upd In] in *; try tauto. - destruct Hx as [->|Hx]; auto. - destruct Hx as [->|Hx]; auto. destruct (IH i c x Hx); auto. Qed.


Section Reproduce.
  Variables (f : list R -> R) (dim : nat) (rgene : nat -> nat -> list R) (rsel : nat -> nat -> nat -> R) (rmut : nat -> nat -> R) (toint : R -> Z) (ztol : R).
  Variables (lo hi : list R).
  Hypothesis Hz : 0 <= ztol.
  Hypothesis Ldim : dim = length lo.
  Hypothesis Hgene : forall n i, in_box lo hi (rgene n i).
  Hypothesis Hsel : forall n i k, 0 <= rsel n i k < 1.

  (** what holds after every generation *)
  Definition state (N : nat) (g : ga) : Prop :=
    length (ind g) = N /\ (forall c, In c (ind g) -> in_box lo hi (gene c)) /\ ranked f (ind g) /\ scored f ztol (ind g) /\
    exists c, nth_error (ind g) 0 = Some c /\ geval g = f (gene c).

  Lemma xover_box : forall p q c, in_box lo hi (gene p) -> in_box lo hi (gene q) -> 0 < fitness p -> 0 < fitness q -> in_box lo hi (gene (zOptGAChromosomeXover dim p q c)).
  Proof. clear Hz Hgene Hsel.
    intros p q c [L1 B1] [L2 B2] Hp Hq. unfold zOptGAChromosomeXover. cbn [gene]. split; [now rewrite map_length, seq_length|].
    intros j Hj. rewrite nth_map_seq by lia.
    set (t := fitness p / (fitness p + fitness q)). change (nth j lo 0 <= nth j (gene q) 0 + t * (nth j (gene p) 0 - nth j (gene q) 0) <= nth j hi 0).
    assert (0 <= t <= 1).
    { unfold t. split; [apply Rmult_le_pos; [lra|left; apply Rinv_0_lt_compat; lra]|]. apply (Rmult_le_reg_r (fitness p + fitness q)); [lra|]. unfold Rdiv. rewrite Rmult_assoc, Rinv_l by lra. lra. }
    specialize (B1 j Hj). specialize (B2 j Hj). nra.
  Qed.

  Section One.
    Variables (n N : nat) (rs rm : R) (g : @ga R).
    Hypothesis HN : (0 < N)%nat.
    Hypothesis HG : state N g.
    Hypothesis Hns : (0 <= toint (INR N * rs))%Z.
    Let ns := Nat.min (Z.to_nat (toint (INR N * rs))) N.

    (** after the breeding *)
    Definition inv (i : nat) (l : list (@chrom R)) : Prop :=
      length l = N /\ map fitness l = map fitness (ind g) /\ (forall c, In c l -> in_box lo hi (gene c)) /\
      forall k, (k < ns)%nat -> nth_error l k = nth_error (ind g) k.
    Lemma breed_ok : exists l, for_ ns N (fun i l =>
      a <- _zOptGASelect l (rsel n i 0) ;; b <- _zOptGASelect l (rsel n i 1) ;;
      p <- get l a ;; q <- get l b ;; c <- get l i ;;
      set l i (zOptGAChromosomeXover dim p q c)) (ind g) = Ok l /\ inv N l.
    Proof.
      destruct HG as [G1 [G2 [G3 [G4 G5]]]].
      assert (HT : 1 <= total (ind g)). { eapply scored_total; eauto. intros E. rewrite E in G1. cbn in G1. lia. }
      destruct (for_inv inv ns N (fun i l =>
        a <- _zOptGASelect l (rsel n i 0) ;; b <- _zOptGASelect l (rsel n i 1) ;;
        p <- get l a ;; q <- get l b ;; c <- get l i ;;
        set l i (zOptGAChromosomeXover dim p q c)) (ind g)) as [l [A B]].
      - unfold ns. lia.
      - repeat split; auto; intros; now apply G2.
      - intros i l Hi [I1 [I2 [I3 I4]]].
        assert (Tl : 1 <= total l) by (rewrite (total_ext l (ind g) I2); auto).
        destruct (select_ok l (rsel n i 0) Tl (Hsel n i 0)) as [a [A1 [A2 A3]]]. destruct (select_ok l (rsel n i 1) Tl (Hsel n i 1)) as [b [B1 [B2 B3]]].
        rewrite A1. cbn [bind]. rewrite B1. cbn [bind]. rewrite !gget by lia. cbn [bind]. rewrite set_ok by lia.
        eexists. split; [reflexivity|]. split; [now rewrite upd_length|]. split; [|split].
        + rewrite map_fitness_upd; auto; lia.
        + intros c Hc. apply in_upd in Hc. destruct Hc as [->|Hc]; auto. apply xover_box; auto; apply I3; apply nth_In; auto.
        + intros k Hk. rewrite nth_error_set by lia. destruct (Nat.eqb_spec k i); [lia|]. apply I4; auto.
      - exists l. split; auto.
    Qed.

    Definition inv2 (l1 : list (@chrom R)) (i : nat) (l : list (@chrom R)) : Prop :=
      length l = N /\ (forall c, In c l -> in_box lo hi (gene c)) /\
      forall k, (k < N)%nat -> (rm <= rmut n k \/ (i <= k)%nat) -> nth_error l k = nth_error l1 k.
    Lemma mutate_ok : forall l1, length l1 = N -> (forall c, In c l1 -> in_box lo hi (gene c)) ->
      exists l, for_ 0 N (fun i l => if slt (rmut n i) rm then c <- get l i ;; set l i (Chrom (fitness c) (rgene n i)) else Ok l) l1 = Ok l /\ inv2 l1 N l.
    Proof.
      intros l1 L1 B1.
      destruct (for_inv (inv2 l1) 0 N (fun i l => if slt (rmut n i) rm then c <- get l i ;; set l i (Chrom (fitness c) (rgene n i)) else Ok l) l1) as [l [A B]].
      - lia.
      - split; auto.
      - intros i l Hi [I1 [I2 I3]]. change (@slt R _) with Rltb. destruct (Rltb_spec (rmut n i) rm) as [Hm|Hm].
        + rewrite gget by lia. cbn [bind]. rewrite set_ok by lia. eexists. split; [reflexivity|]. split; [now rewrite upd_length|]. split.
          * intros c Hc. apply in_upd in Hc. destruct Hc as [->|Hc]; auto. cbn [gene]. auto.
          * intros k Hk H. rewrite nth_error_set by lia. destruct (Nat.eqb_spec k i) as [->|]; [destruct H; [lra|lia]|]. apply I3; auto. destruct H; [auto|right; lia].
        + exists l. split; auto. split; auto. split; auto. intros k Hk H. apply I3; auto. destruct H; auto. destruct (Nat.eq_dec k i) as [->|]; [left; lra|right; lia].
      - exists l. split; auto.
    Qed.

    (** one generation: the survivors that do not mutate stay *)
    Lemma reproduce_ok : exists g', zOptGAReproduce f dim rgene rsel rmut toint ztol n rs rm g = Ok g' /\ state N g' /\
      forall k c, (Z.of_nat k < toint (INR N * rs))%Z -> nth_error (ind g) k = Some c -> rm <= rmut n k -> exists c', In c' (ind g') /\ gene c' = gene c.
    Proof.
      unfold zOptGAReproduce. destruct HG as [G1 [G2 [G3 [G4 G5]]]]. rewrite G1. cbv zeta.
      change (sofZ (Z.of_nat N) * rs)%S with (IZR (Z.of_nat N) * rs). rewrite <- INR_IZR_INZ. destruct (Z.ltb_spec (toint (INR N * rs)) 0); [lia|].
      fold ns. destruct breed_ok as [l1 [E1 [I1 [I2 [I3 I4]]]]]. rewrite E1. cbn [bind]. destruct (mutate_ok l1 I1 I3) as [l2 [E2 [J1 [J2 J3]]]]. rewrite E2. cbn [bind].
      destruct (sort_ok f ztol Hz l2) as [g' [S1 [S2 [S3 [S4 S5]]]]]. { intros E. rewrite E in J1. cbn in J1. lia. }
      exists g'. split; auto. split.
      - split; [|split; [|auto]].
        + apply Permutation_length in S2. rewrite !map_length in S2. lia.
        + intros c Hc. apply (in_map gene) in Hc. apply (Permutation_in _ (Permutation_sym S2)) in Hc. apply in_map_iff in Hc. destruct Hc as [x [<- Hx]]. auto.
      - intros k c Hk Hc Hm. assert (Hkn : (k < N)%nat) by (rewrite <- G1; apply nth_error_Some; congruence).
        assert (Hl2 : nth_error l2 k = Some c). { rewrite J3 by auto. rewrite I4; auto. unfold ns. lia. }
        apply nth_error_In in Hl2. apply (in_map gene) in Hl2. apply (Permutation_in _ S2) in Hl2. apply in_map_iff in Hl2. destruct Hl2 as [x [A B]]. exists x. auto.
    Qed.
  End One.

  Lemma rand_ok : forall N, (0 < N)%nat -> exists g, zOptGARand f rgene ztol N = Ok g /\ state N g.
  Proof.
    intros N HN. unfold zOptGARand. destruct (sort_ok f ztol Hz (map (fun i => Chrom 0%S (rgene 0%nat i)) (List.seq 0 N))) as [g [S1 [S2 [S3 [S4 S5]]]]].
    { destruct N; [lia|]. discriminate. }
    exists g. split; auto. split; [|split; [|auto]].
    - apply Permutation_length in S2. rewrite !map_length, seq_length in S2. auto.
    - intros c Hc. apply (in_map gene) in Hc. apply (Permutation_in _ (Permutation_sym S2)) in Hc. apply in_map_iff in Hc. destruct Hc as [x [<- Hx]]. apply in_map_iff in Hx. destruct Hx as [i [<- _]]. apply Hgene.
  Qed.
  Lemma generations_ok : forall N rs rm, (0 < N)%nat -> (0 <= toint (INR N * rs))%Z -> forall k n g, state N g ->
    exists g', generations f dim rgene rsel rmut toint ztol k n rs rm g = Ok g' /\ state N g'.
  Proof.
    intros N rs rm HN Hns. induction k; intros n g HG; cbn [generations]; [exists g; auto|].
    destruct (reproduce_ok n N rs rm g HN HG Hns) as [g1 [E1 [G1 _]]]. rewrite E1. cbn [bind]. apply IHk. auto.
  Qed.
  Lemma state_min : forall N g, state N g -> forall c, In c (ind g) -> geval g <= f (gene c).
  Proof. clear Hz Ldim Hgene Hsel. clear dim rgene rsel rmut toint. intros N g [_ [_ [R1 [_ [c0 [A B]]]]]] c Hc. rewrite B. apply In_nth_error in Hc. destruct Hc as [i Hi]. eapply (R1 0%nat i); eauto. lia. Qed.
End Reproduce.
