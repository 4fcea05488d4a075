From Coq Require Import Reals Lra Lia Psatz List.
From Verif Require Import Prelude Prelude_Proofs Scalar RealLib Fmat_Proofs Stat_Model Stat2_Proofs Rrt_Model Rrt_Spec Rrt_Proofs.
Import ListNotations.
Local Open Scope R_scope.

Lemma nat_above x : exists n, x < INR n.
Proof.
  exists (Z.to_nat (up x)). destruct (archimed x) as (A & _). rewrite INR_IZR_INZ. destruct (Z_le_gt_dec 0 (up x)).
  - rewrite Z2Nat.id by auto. lra. - replace (Z.to_nat (up x)) with O by lia. cbn. assert (IZR (up x) <= 0) by (apply IZR_le; lia). lra.
Qed.
(** ** paths *)
Section Paths.
  Context {V : Type} (dist : V -> V -> R).
  Lemma linked_app (L : V -> V -> Prop) l1 a b l2 : linked L (l1 ++ [a]) -> linked L (b :: l2) -> L a b -> linked L (l1 ++ a :: b :: l2).
  Proof. induction l1 as [|x l1 IH]; intros H1 H2 Lab; [cbn; auto|]. cbn in H1. cbn. destruct (l1 ++ [a]) as [|y q] eqn:E; [destruct l1; discriminate|]. destruct H1 as (A & B).
    destruct l1 as [|z l1]; cbn in E |- *; injection E as -> <-; [split; auto; apply IH; auto|split; auto]. cbn in IH. apply IH; auto. Qed.
  Lemma length_app l1 a b l2 : path_length dist (l1 ++ a :: b :: l2) = path_length dist (l1 ++ [a]) + dist a b + path_length dist (b :: l2).
  Proof.
    induction l1 as [|x l1 IH]; [cbn [app path_length]; destruct l2; lra|].
    destruct l1 as [|z l1]; cbn [app] in *; cbn [path_length] in *; [lra|]. rewrite IH. lra.
  Qed.
  Lemma linked_rev (L : V -> V -> Prop) l : (forall a b, L a b -> L b a) -> linked L l -> linked L (rev l).
  Proof.
    intros Sy. induction l as [|a l IH]; auto. intros H. cbn [rev]. destruct l as [|b l]; [cbn; auto|]. destruct H as (H1 & H2). specialize (IH H2). cbn [rev] in *.
    rewrite <- app_assoc. cbn [app]. apply linked_app; auto. cbn. auto.
  Qed.
  Lemma length_rev l : (forall a b, dist a b = dist b a) -> path_length dist (rev l) = path_length dist l.
  Proof.
    intros Sy. induction l as [|a l IH]; auto. cbn [rev]. destruct l as [|b l]; [cbn; auto|]. cbn [rev] in *. rewrite <- app_assoc. cbn [app]. rewrite length_app, IH.
    cbn [path_length]. rewrite (Sy b a). destruct l; cbn [path_length]; lra.
  Qed.
End Paths.

Section Dual.
  Context {V : Type} (tol eps : R) (HT : 0 <= tol) (HE : 0 < eps) (dist : V -> V -> R) (ext : V -> V -> R -> V) (coll : V -> bool).
  Context (HM : metric dist) (HX : towards eps dist ext).
  Local Notation grow := (_zRRTListExtend tol eps dist ext coll).
  Local Notation greedy := (_zRRTListExtendGreedy tol eps dist ext coll).
  Local Notation tree := (tree R V).
  Local Notation rrt := (rrt_tree eps dist coll).
  Implicit Types t : tree.

  Lemma greedy_ok start vr K : forall t i n, rrt start t -> nth_error t i = Some n -> dist vr (nv n) < INR K * eps ->
    exists ret t', (forall fuel, (K <= fuel)%nat -> greedy fuel t vr = Ok (ret, t')) /\ rrt start t' /\ (exists new, t' = t ++ new) /\ ret <> ADVANCED /\
      (ret = REACHED -> exists h, nth_error t' (length t' - 1) = Some h /\ nv h = vr).
  Proof.
    destruct HM as (M1 & _). induction K as [|K IH]; intros t i n HR Ei D; [cbn in D; specialize (M1 vr (nv n)); lra|].
    destruct (grow_ok tol eps dist ext coll HM HX t vr (rrt_ne _ _ _ _ _ HR)) as (ret & t' & E & H). destruct ret.
    - destruct H as (-> & _). exists NOP, t. conjs; auto; try discriminate. + intros [|fuel] F; [lia|]. cbn [_zRRTListExtendGreedy]. now rewrite E. + exists []. now rewrite app_nil_r.
    - destruct H as (ve & j & np & A1 & A2 & -> & A4 & A5 & A6 & A7). destruct (A7 eq_refl) as (B1 & B2). specialize (A2 i n Ei). rewrite S_INR in D.
      destruct (IH (t ++ [Nd ve (dist (nv np) ve) (ctotal np + dist (nv np) ve) (Some j)]) (length t) (Nd ve (dist (nv np) ve) (ctotal np + dist (nv np) ve) (Some j))) as (ret & t' & C1 & C2 & (new & ->) & C4 & C5).
      + apply rrt_app; auto. + now rewrite nth_error_app_last, Nat.eqb_refl. + cbn [nv]. lra.
      + exists ret. eexists. conjs; [|exact C2| |exact C4|exact C5]. * intros [|fuel] F; [lia|]. cbn [_zRRTListExtendGreedy]. rewrite E. cbn [bind]. apply C1. lia. * rewrite <- app_assoc. eauto.
    - destruct H as (ve & j & np & A1 & A2 & -> & A4 & A5 & A6 & A7). exists REACHED. eexists. conjs.
      + intros [|fuel] F; [lia|]. cbn [_zRRTListExtendGreedy]. rewrite E. reflexivity.
      + apply rrt_app; auto. + eauto. + discriminate.
      + intros _. eexists. rewrite app_length. cbn [length]. replace (length t + 1 - 1)%nat with (length t) by lia. rewrite nth_error_app_last, Nat.eqb_refl. split; [reflexivity|]. cbn. auto.
    - subst. exists TRAPPED, t. conjs; auto; try discriminate. + intros [|fuel] F; [lia|]. cbn [_zRRTListExtendGreedy]. now rewrite E. + exists []. now rewrite app_nil_r.
  Qed.
  Lemma greedy_ends start vr t : rrt start t -> exists F ret t', (forall fuel, (F <= fuel)%nat -> greedy fuel t vr = Ok (ret, t')) /\ rrt start t' /\ (exists new, t' = t ++ new) /\
      (ret = REACHED -> exists h, nth_error t' (length t' - 1) = Some h /\ nv h = vr).
  Proof.
    intros HR. pose proof HR as (R0 & _). destruct (nat_above (dist vr start / eps)) as (K & HK).
    destruct (greedy_ok start vr K t 0 _ HR R0) as (ret & t' & A1 & A2 & A3 & A4 & A5).
    - cbn. apply Rmult_lt_reg_r with (/ eps); [now apply Rinv_0_lt_compat|]. rewrite Rmult_assoc, Rinv_r by lra. unfold Rdiv in HK. lra.
    - exists K, ret, t'. auto.
  Qed.
  Definition joined (l1 l2 : tree) : Prop := exists h1 h2, nth_error l1 (length l1 - 1) = Some h1 /\ nth_error l2 (length l2 - 1) = Some h2 /\ nv h1 = nv h2.
  Lemma dual_loop_ok samp iter : forall i sw l1 l2 s1 s2, rrt s1 l1 -> rrt s2 l2 ->
    exists F ret sw' l1' l2', (forall fuel, (F <= fuel)%nat -> dual_loop tol eps dist ext coll fuel samp iter i sw l1 l2 = Ok (ret, sw', l1', l2')) /\
      rrt (if xorb sw sw' then s2 else s1) l1' /\ rrt (if xorb sw sw' then s1 else s2) l2' /\ (ret = true -> joined l1' l2').
  Proof.
    induction iter as [|iter IH]; intros i sw l1 l2 s1 s2 H1 H2.
    - exists O, false, sw, l1, l2. rewrite xorb_nilpotent. conjs; auto; discriminate.
    - destruct (grow_tree tol eps dist ext coll HM HX s1 l1 (samp i) H1) as (ret & l1' & E & HR & _).
      assert (Hd : exists h, nth_error l1' (length l1' - 1) = Some h /\ head l1' = Ok h) by (apply head_nth; eapply rrt_ne; eauto). destruct Hd as (h & Eh & Eh').
      destruct (greedy_ends s2 (nv h) l2 H2) as (F & r2 & l2' & G1 & G2 & G3 & G4).
      assert (D : ret <> TRAPPED -> exists F ret0 sw' l1'0 l2', (forall fuel, (F <= fuel)%nat -> dual_loop tol eps dist ext coll fuel samp (S iter) i sw l1 l2 = Ok (ret0, sw', l1'0, l2')) /\
        rrt (if xorb sw sw' then s2 else s1) l1'0 /\ rrt (if xorb sw sw' then s1 else s2) l2' /\ (ret0 = true -> joined l1'0 l2')).
      { intros NT. destruct (IH (S i) (negb sw) l2' l1' s2 s1 G2 HR) as (F' & r3 & sw' & a & b & I1 & I2 & I3 & I4).
        assert (X : forall fuel, dual_loop tol eps dist ext coll fuel samp (S iter) i sw l1 l2 = ('(r, l2) <- greedy fuel l2 (nv h) ;; match r with REACHED => Ok (true, sw, l1', l2) | _ => dual_loop tol eps dist ext coll fuel samp iter (S i) (negb sw) l2 l1' end)).
        { intros fuel. cbn [dual_loop]. rewrite E. cbn [bind]. destruct ret; try congruence; rewrite Eh'; reflexivity. }
        destruct (match r2 with REACHED => true | _ => false end) eqn:Er.
        - assert (r2 = REACHED) by (destruct r2; congruence). subst r2. exists F, true, sw, l1', l2'. rewrite xorb_nilpotent. conjs; auto.
          + intros fuel Hf. rewrite X, G1 by auto. reflexivity. + intros _. destruct (G4 eq_refl) as (h2 & Eh2 & Vh2). exists h, h2. auto.
        - exists (F + F')%nat, r3, sw', a, b. assert (XB : xorb (negb sw) sw' = negb (xorb sw sw')) by (destruct sw, sw'; auto). rewrite XB in I2, I3.
          conjs; auto. + intros fuel Hf. rewrite X, G1 by lia. cbn [bind]. destruct r2; try discriminate; apply I1; lia. + destruct (xorb sw sw'); auto. + destruct (xorb sw sw'); auto. }
      destruct ret; try (apply D; discriminate). destruct (IH (S i) sw l1' l2 s1 s2 HR H2) as (F' & r3 & sw' & a & b & I1 & I2 & I3 & I4).
      exists F', r3, sw', a, b. conjs; auto. intros fuel Hf. cbn [dual_loop]. rewrite E. cbn [bind]. now apply I1.
  Qed.
  Lemma dual_ok samp start goal iter : exists F ret s g l c, (forall fuel, (F <= fuel)%nat -> zRRTFindPathDual tol eps dist ext coll fuel samp start goal iter true = Ok (ret, s, g, Some (l, c))) /\
    rrt start s /\ rrt goal g /\ hd_error l = Some start /\ last l start = goal /\ c = path_length dist l /\ (forall v, In v l -> v = start \/ v = goal \/ free coll v) /\
    (ret = true -> linked (short eps dist) l).
  Proof.
    destruct (dual_loop_ok samp iter 0 false [Nd start 0 0 None] [Nd goal 0 0 None] start goal (init_tree _ _ _ _) (init_tree _ _ _ _)) as (F & ret & sw & l1 & l2 & D1 & D2 & D3 & D4).
    rewrite xorb_false_l in D2, D3.
    set (s := if sw then l2 else l1). set (g := if sw then l1 else l2).
    assert (Hs : rrt start s) by (unfold s; destruct sw; auto). assert (Hg : rrt goal g) by (unfold g; destruct sw; auto).
    assert (J : ret = true -> joined s g). { intros E. specialize (D4 E). unfold s, g. destruct sw; auto. destruct D4 as (h1 & h2 & A & B & C). exists h2, h1. auto. }
    destruct (path_ok eps dist coll start s Hs) as (ps & cs & hs & Es & (P1 & P2 & P3 & P4) & Ehs & Els).
    destruct (head_nth g (rrt_ne _ _ _ _ _ Hg)) as (hg & Ehg & Ehg'). pose proof (nth_error_lt _ _ _ Ehg) as Lg. destruct (chain_exists eps dist coll goal g _ Hg Lg) as (l0 & c0 & C0).
    destruct (walk_full _ _ _ _ [] cs C0) as (pg & cg & Cg & Wg). destruct (chain_good eps dist coll goal g _ _ _ Hg Cg) as (Q1 & Q2 & Q3 & Q4).
    destruct (chain_snoc _ _ _ _ Cg) as (pg0 & n & En & Epg). assert (n = hg) by congruence. subst n.
    assert (Ehs' : head s = Ok hs) by now apply get_some.
    exists F, ret, s, g, (ps ++ rev pg), (cs + cg + dist (nv hs) (nv hg)). destruct HM as (M1 & M2 & M3 & M4).
    assert (Nps : ps <> []) by (intros ->; discriminate). destruct (exists_last Nps) as (ps0 & a & ->). rewrite last_last in Els. subst a.
    rewrite app_nil_r in Wg.
    assert (Rpg : rev pg = nv hg :: rev pg0) by (rewrite Epg, rev_app_distr; reflexivity).
    conjs; auto.
    - intros fuel Hf. unfold zRRTFindPathDual. cbn [_zRRTListAddNode bind app]. rs. rewrite D1 by auto. cbn [bind].
      replace (if sw then (l2, l1) else (l1, l2)) with (s, g) by (unfold s, g; now destruct sw). unfold _zRRTPathDual. unfold _zRRTPath in Es. rs. rewrite Es. cbn [bind]. rewrite Wg. cbn [bind]. rewrite Ehs', Ehg'. reflexivity.
    - destruct ps0; cbn in *; auto.
    - destruct pg as [|x pg']; [discriminate|]. injection Q1 as ->. cbn [rev]. rewrite app_assoc. apply last_last.
    - rewrite Rpg, <- app_assoc. cbn [app]. rewrite length_app, <- P3, <- Rpg, length_rev, <- Q3 by auto. lra.
    - intros v Iv. apply in_app_or in Iv. destruct Iv as [Iv|Iv].
      + destruct (ps0 ++ [nv hs]) as [|x q]; [destruct Iv|]. injection P1 as ->. destruct Iv as [<-|Iv]; auto.
      + apply in_rev in Iv. destruct pg as [|x q]; [destruct Iv|]. injection Q1 as ->. destruct Iv as [<-|Iv]; auto.
    - intros E. destruct (J E) as (h1 & h2 & J1 & J2 & J3). rewrite Rpg, <- app_assoc. cbn [app]. apply linked_app; auto.
      + rewrite <- Rpg. apply linked_rev; auto. unfold short. intros a b. now rewrite (M2 a b).
      + unfold short. replace (nv hs) with (nv hg) by congruence. rewrite M3. lra.
  Qed.
End Dual.

(** ** the shortcut *)
Section Short.
  Context {V : Type} (eps : R) (HE : 0 < eps) (dist : V -> V -> R) (ext : V -> V -> R -> V) (coll : V -> bool) (HM : metric dist).
  Local Notation check := (_zRRTShortcutPathCheck eps ext coll).
  Lemma pow2_pos n : 0 < 2 ^ n. Proof. apply pow_lt. lra. Qed.
  Lemma check_ok v1 v2 K : forall s1 s2 d, d < 2 ^ K * eps -> exists b, (forall fuel, (K < fuel)%nat -> check fuel v1 v2 s1 s2 d = Ok b) /\
    (b = true -> forall n, d < 2 ^ n * eps -> (n = O \/ 2 ^ (n - 1) * eps <= d) -> forall k, (0 < k < 2 ^ n)%nat -> free coll (ext v1 v2 (s1 + (s2 - s1) * (INR k / 2 ^ n)))).
  Proof.
    induction K as [|K IH]; intros s1 s2 d Hd.
    - exists true. split.
      + intros [|fuel] F; [lia|]. cbn [_zRRTShortcutPathCheck]. rs. destruct (Rltb_spec d eps); auto. exfalso. cbn in Hd. lra.
      + intros _ n H1 [->|H2] k Hk; [cbn in Hk; lia|]. exfalso. cbn in Hd. assert (1 <= 2 ^ (n - 1)) by (apply pow_R1_Rle; lra). nra.
    - destruct (Rlt_dec d eps) as [X|X].
      + exists true. split.
        * intros [|fuel] F; [lia|]. cbn [_zRRTShortcutPathCheck]. rs. destruct (Rltb_spec d eps); auto. contradiction.
        * intros _ n H1 [->|H2] k Hk; [cbn in Hk; lia|]. exfalso. assert (1 <= 2 ^ (n - 1)) by (apply pow_R1_Rle; lra). nra.
      + set (s := (s1 + s2) / (1 + 1)). destruct (coll (ext v1 v2 s)) eqn:Ec.
        { exists false. split; [|discriminate]. intros [|fuel] F; [lia|]. cbn [_zRRTShortcutPathCheck]. rs. destruct (Rltb_spec d eps); [contradiction|]. fold s. now rewrite Ec. }
        assert (Hh : d / (1 + 1) < 2 ^ K * eps) by (cbn in Hd; lra).
        destruct (IH s1 s (d / (1 + 1)) Hh) as (b1 & B1 & P1). destruct (IH s s2 (d / (1 + 1)) Hh) as (b2 & B2 & P2). exists (if b1 then b2 else false). split.
        * intros [|fuel] F; [lia|]. cbn [_zRRTShortcutPathCheck]. rs. destruct (Rltb_spec d eps); [contradiction|]. fold s. rewrite Ec, B1 by lia. cbn [bind]. destruct b1; auto. rewrite B2 by lia. auto.
        * destruct b1; [|discriminate]. intros ->. intros n H1 H2 k Hk. destruct n as [|n]; [cbn in Hk; lia|]. destruct H2 as [H2|H2]; [discriminate|]. replace (S n - 1)%nat with n in H2 by lia.
          assert (Q1 : d / (1 + 1) < 2 ^ n * eps) by (cbn in H1; lra).
          assert (Q2 : n = O \/ 2 ^ (n - 1) * eps <= d / (1 + 1)). { destruct n as [|n]; auto. right. replace (S n - 1)%nat with n by lia. cbn [pow] in H2. lra. }
          pose proof (pow2_pos n) as Pn. assert (E2 : (2 ^ S n = 2 * 2 ^ n)%nat) by (cbn; lia). assert (ER : 2 ^ S n = 2 * 2 ^ n) by reflexivity. assert (EI : INR (2 ^ n) = 2 ^ n) by (rewrite pow_INR; f_equal; cbn; lra).
          destruct (lt_eq_lt_dec k (2 ^ n)) as [[L| ->]|G].
          -- specialize (P1 eq_refl n Q1 Q2 k ltac:(lia)). replace (s1 + (s2 - s1) * (INR k / 2 ^ S n)) with (s1 + (s - s1) * (INR k / 2 ^ n)); auto. unfold s. rewrite ER. field. lra.
          -- replace (s1 + (s2 - s1) * (INR (2 ^ n) / 2 ^ S n)) with s; auto. unfold s. rewrite EI, ER. field. lra.
          -- specialize (P2 eq_refl n Q1 Q2 (k - 2 ^ n)%nat ltac:(lia)). replace (s1 + (s2 - s1) * (INR k / 2 ^ S n)) with (s + (s2 - s) * (INR (k - 2 ^ n) / 2 ^ n)); auto. unfold s. rewrite minus_INR, EI, ER by lia. field. lra.
  Qed.
  Lemma check_divided v1 v2 : exists F b, (forall fuel, (F < fuel)%nat -> check fuel v1 v2 0 1 (dist v1 v2) = Ok b) /\ (b = true -> divided eps dist ext coll v1 v2).
  Proof.
    set (d := dist v1 v2). destruct (Pow_x_infinity 2 ltac:(rewrite Rabs_pos_eq; lra) (d / eps + 1)) as (K & HK). specialize (HK K ltac:(lia)).
    rewrite Rabs_pos_eq in HK by (left; apply pow2_pos).
    assert (Hd : d < 2 ^ K * eps). { apply Rmult_lt_reg_r with (/ eps); [now apply Rinv_0_lt_compat|]. rewrite Rmult_assoc, Rinv_r by lra. unfold Rdiv in HK. lra. }
    destruct (check_ok v1 v2 K 0 1 d Hd) as (b & B & P). exists K, b. split; auto. intros Eb.
    assert (MN : exists n, d < 2 ^ n * eps /\ (n = O \/ 2 ^ (n - 1) * eps <= d)).
    { clear - Hd. induction K as [|K IH]; [exists O; auto|]. destruct (Rlt_le_dec d (2 ^ K * eps)); auto. exists (S K). split; auto. right. now replace (S K - 1)%nat with K by lia. }
    destruct MN as (n & N1 & N2). exists (2 ^ n)%nat. assert (EI : INR (2 ^ n) = 2 ^ n) by (rewrite pow_INR; f_equal; cbn; lra). conjs.
    - apply INR_lt. rewrite EI. cbn. apply pow2_pos. - now rewrite EI.
    - intros i Hi. specialize (P Eb n N1 N2 i Hi). rewrite EI. replace (INR i / 2 ^ n) with (0 + (1 - 0) * (INR i / 2 ^ n)) by ring. exact P.
  Qed.
  Local Notation plen := (path_length dist).
  Lemma plen_cons a b l : plen (a :: b :: l) = dist a b + plen (b :: l). Proof. reflexivity. Qed.
  Lemma cut_ok v1 l : forall mid, exists F m l' pre, (forall fuel, (F < fuel)%nat -> cut eps dist ext coll fuel v1 mid l = Ok (m, l')) /\ mid :: l = pre ++ m :: l' /\
    ((pre = [] /\ m = mid) \/ divided eps dist ext coll v1 m) /\ dist v1 m + plen (m :: l') <= plen (v1 :: mid :: l).
  Proof.
    destruct HM as (M1 & M2 & M3 & M4). induction l as [|v2 l IH]; intros mid.
    - exists O, mid, [], []. conjs; auto. cbn. lra.
    - destruct (check_divided v1 v2) as (F & b & B & D). destruct b.
      + destruct (IH v2) as (F' & m & l' & pre & C1 & C2 & C3 & C4). exists (F + F')%nat, m, l', (mid :: pre). conjs.
        * intros fuel Hf. cbn [cut]. rs. rewrite B by lia. cbn [bind]. apply C1. lia.
        * cbn. now rewrite C2. * destruct C3 as [(_ & ->)|C3]; auto. * rewrite !plen_cons in *. specialize (M4 v1 mid v2). lra.
      + exists F, mid, (v2 :: l), []. conjs; auto; [|cbn [path_length]; lra]. intros fuel Hf. cbn [cut]. rs. rewrite B by lia. reflexivity.
  Qed.
  Lemma sub_refl (l : list V) : sublist l l. Proof. induction l; constructor; auto. Qed.
  Lemma sub_app (pre : list V) p l : sublist p l -> sublist p (pre ++ l). Proof. intros H. induction pre; cbn; auto. now constructor. Qed.
  Lemma adj_app (pre : list V) l a b : adjacent l a b -> adjacent (pre ++ l) a b.
  Proof. intros (x & y & ->). exists (pre ++ x), y. now rewrite app_assoc. Qed.
  Lemma linked_imp (L L' : V -> V -> Prop) l : (forall a b, L a b -> L' a b) -> linked L l -> linked L' l.
  Proof. intros H. induction l as [|a [|b l] IH]; auto. intros (A & B). split; auto. Qed.
  Lemma last_def (q : list V) d d' : q <> [] -> last q d = last q d'.
  Proof. intros N. induction q as [|a [|b q] IH]; [congruence|auto|]. cbn in *. apply IH. discriminate. Qed.
  Definition kept (orig : list V) (a b : V) : Prop := adjacent orig a b \/ divided eps dist ext coll a b.
  (** the cost is that of the path, or that of the path without its last edge *)
  Definition cost_of (c0 c : R) (p : list V) : Prop := c = c0 + plen p \/ exists q a b, p = q ++ [a; b] /\ c = c0 + plen (q ++ [a]).
  Lemma loop_ok steps : forall v1 mid l c0, (length l < steps)%nat -> exists F p c, (forall fuel, (F < fuel)%nat -> shortcut_loop eps dist ext coll steps fuel v1 mid l c0 = Ok (p, c)) /\
    sublist p (v1 :: mid :: l) /\ hd_error p = Some v1 /\ last p v1 = last (mid :: l) v1 /\ linked (kept (v1 :: mid :: l)) p /\ plen p <= plen (v1 :: mid :: l) /\ cost_of c0 c p.
  Proof.
    induction steps as [|steps IH]; intros v1 mid l c0 Hs; [lia|]. destruct l as [|x l].
    - exists O, [v1; mid], c0. conjs; auto using sub_refl; try reflexivity.
      + cbn. split; auto. left. exists [], []. reflexivity. + lra. + right. exists [], v1, mid. cbn. split; auto. lra.
    - destruct (cut_ok v1 (x :: l) mid) as (F & m & l' & pre & C1 & C2 & C3 & C4). set (orig := v1 :: mid :: x :: l) in *.
      assert (K : kept orig v1 m). { destruct C3 as [(-> & ->)|C3]; [left; exists [], (x :: l); reflexivity|now right]. }
      assert (EO : orig = (v1 :: pre) ++ m :: l') by (unfold orig; rewrite C2; reflexivity).
      assert (Lm : last (mid :: x :: l) v1 = last (m :: l') v1) by (rewrite C2; clear; induction pre as [|a pre IH]; auto; rewrite <- IH; cbn; destruct (pre ++ m :: l') eqn:E; auto; destruct pre; discriminate).
      destruct l' as [|v2 l'].
      + exists F, [v1; m], (c0 + dist v1 m). conjs; auto.
        * intros fuel Hf. cbn [shortcut_loop]. rewrite C1 by auto. reflexivity.
        * rewrite EO. cbn. constructor. apply sub_app, sub_refl. * cbn. auto. * left. cbn. lra.
      + assert (LL : (length l' < steps)%nat). { apply (f_equal (@length V)) in C2. cbn in C2. rewrite app_length in C2. cbn in C2, Hs. lia. }
        destruct (IH m v2 l' (c0 + dist v1 m) LL) as (F' & p & c & D1 & D2 & D3 & D4 & D5 & D6 & D7). destruct p as [|m' p]; [discriminate|]. injection D3 as ->.
        exists (F + F')%nat, (v1 :: m :: p), c. conjs.
        * intros fuel Hf. cbn [shortcut_loop]. rewrite C1 by lia. cbn [bind]. rs. rewrite D1 by lia. reflexivity.
        * rewrite EO. cbn [app]. constructor. apply sub_app. auto.
        * reflexivity.
        * rewrite Lm. change (last (m :: v2 :: l') v1) with (last (v2 :: l') v1). rewrite (last_def (v2 :: l') v1 m) by discriminate. rewrite <- D4. change (last (v1 :: m :: p) v1) with (last (m :: p) v1). apply last_def. discriminate.
        * split; auto. apply (linked_imp (kept (m :: v2 :: l'))); auto. intros a b [A|D]; [left|now right]. rewrite EO. now apply adj_app.
        * rewrite plen_cons. lra.
        * destruct D7 as [->|(q & a & b & Ep & ->)]; [left; rewrite plen_cons; lra|]. right. exists (v1 :: q), a, b. rewrite Ep. split; auto. cbn [app].
          destruct q as [|y q]; cbn [app] in *; injection Ep as <- Ep; rewrite plen_cons; lra.
  Qed.
  Lemma shortcut_ok path : exists F p c, (forall fuel, (F < fuel)%nat -> zRRTShortcutPath eps dist ext coll fuel path = Ok (p, c)) /\
    sublist p path /\ hd_error p = hd_error path /\ (forall d, last p d = last path d) /\ linked (kept path) p /\ plen p <= plen path /\
    match c with None => (length path < 3)%nat /\ p = path | Some c => (3 <= length path)%nat /\ cost_of 0 c p end.
  Proof.
    assert (AD : forall l : list V, linked (kept l) l).
    { assert (H : forall l pre : list V, linked (kept (pre ++ l)) l).
      { induction l as [|a [|b l] IH]; intros pre; [exact Logic.I|exact Logic.I|]. split. - left. exists pre, l. reflexivity. - specialize (IH (pre ++ [a])). rewrite <- app_assoc in IH. exact IH. }
      intros l. apply (H l []). }
    destruct path as [|v1 [|mid [|x l]]].
    1-3: match goal with |- context [sublist _ ?l] => exists O, l, None; split; [intros; reflexivity|split; [apply sub_refl|split; [reflexivity|split; [reflexivity|split; [apply AD|split; [apply Rle_refl|split; [cbn; lia|reflexivity]]]]]]] end.
    destruct (loop_ok (length (v1 :: mid :: x :: l)) v1 mid (x :: l) 0 ltac:(cbn; lia)) as (F & p & c & A1 & A2 & A3 & A4 & A5 & A6 & A7).
    exists F, p, (Some c). conjs; auto.
    - intros fuel Hf. cbn [zRRTShortcutPath skipn]. rs. cbn [length] in A1. cbn [length]. rewrite A1 by auto. reflexivity.
    - intros d. change (last (v1 :: mid :: x :: l) d) with (last (mid :: x :: l) d). rewrite (last_def (mid :: x :: l) d v1) by discriminate. rewrite (last_def p d v1); auto. intros ->. discriminate.
    - cbn. lia.
  Qed.
End Short.

(** ** escapement *)
Section Escape.
  Context {V : Type} (tol eps : R) (dist : V -> V -> R) (ext : V -> V -> R -> V) (coll : V -> bool).
  Lemma escape_loop_ok samp iter : forall i (t : tree R V), t <> [] -> exists ret t', escape_loop tol eps dist ext coll samp iter i t = Ok (ret, t') /\ t' <> [] /\
    (ret = true -> exists h, nth_error t' (length t' - 1) = Some h /\ coll (nv h) = false).
  Proof.
    induction iter as [|iter IH]; intros i t NE; cbn [escape_loop].
    - exists false, t. conjs; auto; discriminate.
    - unfold _zRRTListExtendEscape. destruct (nn_ok dist t (samp i) NE) as (d & j & n & En & Ej & Ed & _). rewrite En. destruct (is_tol tol d); [apply IH; auto|].
      rewrite (get_some _ _ _ Ej). cbn [bind]. rewrite (add_ok _ _ _ _ _ Ej). cbn [bind]. match goal with |- context [coll ?v] => destruct (coll v) eqn:Ec end.
      + apply IH. intros E. apply app_eq_nil in E. destruct E. discriminate.
      + eexists true, _. split; [reflexivity|]. split; [intros E; apply app_eq_nil in E; destruct E; discriminate|]. intros _. eexists. rewrite app_length. cbn [length]. replace (length t + 1 - 1)%nat with (length t) by lia.
        rewrite nth_error_app_last, Nat.eqb_refl. split; [reflexivity|]. exact Ec.
  Qed.
  Lemma escape_ok samp start iter : exists ret v, zRRTEscape tol eps dist ext coll samp start iter = Ok (ret, v) /\ (ret = true -> coll v = false) /\ (coll start = false -> ret = true /\ v = start).
  Proof.
    unfold zRRTEscape. destruct (coll start) eqn:Ec; cbn [negb].
    - cbn [_zRRTListAddNode bind app]. rs. destruct (escape_loop_ok samp iter O [Nd start 0 0 None]) as (ret & t & E & NE & H); [discriminate|]. rs. rewrite E. cbn [bind].
      destruct (head_nth t NE) as (h & Eh & Eh'). rewrite Eh'. cbn [bind]. exists ret, (nv h). conjs; auto; [|discriminate]. intros Er. destruct (H Er) as (h' & E' & C). congruence.
    - exists true, start. auto.
  Qed.
End Escape.

(** ** the default functions *)
Section Defaults.
  Context (m : nat).
  Local Notation dist := (default_distance m : (nat -> R) -> (nat -> R) -> R).
  Lemma fold_rsum (f : nat -> R) n : fold_left (fun s i => s + f i) (List.seq 0 n) 0 = rsum n f.
  Proof. induction n as [|n IH]; auto. rewrite seq_S, fold_left_app, IH. reflexivity. Qed.
  Definition sq (u v : nat -> R) : R := rsum m (fun i => (u i - v i) * (u i - v i)).
  Lemma dist_sq u v : dist u v = sqrt (sq u v).
  Proof. unfold default_distance. rs. rewrite (fold_rsum (fun i => (u i - v i) * (u i - v i))). reflexivity. Qed.
  Lemma sq_nonneg u v : 0 <= sq u v.
  Proof. apply rsum_nonneg. intros i _. apply Rle_0_sqr. Qed.
  Lemma cauchy f g : rsum m (fun i => f i * g i) <= sqrt (rsum m (fun i => f i * f i)) * sqrt (rsum m (fun i => g i * g i)).
  Proof.
    set (A := rsum m (fun i => f i * f i)). set (B := rsum m (fun i => g i * g i)). set (C := rsum m (fun i => f i * g i)).
    assert (PA : 0 <= A) by (apply rsum_nonneg; intros; apply Rle_0_sqr). assert (PB : 0 <= B) by (apply rsum_nonneg; intros; apply Rle_0_sqr).
    assert (Q : forall x y, 0 <= x * x * A - 2 * x * y * C + y * y * B).
    { intros x y. replace (x * x * A - 2 * x * y * C + y * y * B) with (rsum m (fun i => (x * f i - y * g i) * (x * f i - y * g i))).
      - apply rsum_nonneg. intros. apply Rle_0_sqr.
      - unfold A, B, C. rewrite <- !rsum_scal. rewrite <- rsum_sub, <- rsum_add. apply rsum_ext. intros. ring. }
    assert (C * C <= A * B).
    { destruct (Req_dec B 0) as [ZB|NB].
      - destruct (Req_dec C 0) as [ZC|NC]; [rewrite ZC, ZB; lra|]. specialize (Q 1 ((A + 1) / C)). exfalso. rewrite ZB in Q. replace (1 * 1 * A - 2 * 1 * ((A + 1) / C) * C + (A + 1) / C * ((A + 1) / C) * 0) with (A - 2 * (A + 1)) in Q by (field; auto). lra.
      - specialize (Q B C). assert (0 < B) by lra. assert (0 <= B * (A * B - C * C)) by (replace (B * (A * B - C * C)) with (B * B * A - 2 * B * C * C + C * C * B) by ring; auto).
        assert (0 <= A * B - C * C); [|lra]. apply Rmult_le_reg_l with B; auto. lra. }
    rewrite <- sqrt_mult by auto. apply Rle_trans with (sqrt (C * C)).
    - fold (Rsqr C). rewrite sqrt_Rsqr_abs. apply Rle_abs. - now apply sqrt_le_1_alt.
  Qed.
  Lemma default_metric : metric dist.
  Proof.
    split; [|split; [|split]].
    - intros. rewrite dist_sq. apply sqrt_pos.
    - intros. rewrite !dist_sq. f_equal. apply rsum_ext. intros. ring.
    - intros. rewrite dist_sq. unfold sq. rewrite rsum_0; [apply sqrt_0|]. intros. ring.
    - intros u v w. rewrite !dist_sq. set (f := fun i => u i - v i). set (g := fun i => v i - w i). pose proof (cauchy f g) as C.
      assert (E : sq u w = sq u v + sq v w + 2 * rsum m (fun i => f i * g i)). { unfold sq. rewrite <- rsum_scal, <- !rsum_add. apply rsum_ext. intros. unfold f, g. ring. }
      fold (sq u v) in C. change (rsum m (fun i => f i * f i)) with (sq u v) in C. change (rsum m (fun i => g i * g i)) with (sq v w) in C.
      pose proof (sqrt_pos (sq u v)). pose proof (sqrt_pos (sq v w)). apply Rsqr_incr_0_var; [|lra]. rewrite Rsqr_sqrt by apply sq_nonneg. unfold Rsqr.
      replace ((sqrt (sq u v) + sqrt (sq v w)) * (sqrt (sq u v) + sqrt (sq v w))) with (sqrt (sq u v) * sqrt (sq u v) + sqrt (sq v w) * sqrt (sq v w) + 2 * (sqrt (sq u v) * sqrt (sq v w))) by ring.
      rewrite !sqrt_sqrt by apply sq_nonneg. lra.
  Qed.
  Lemma sqrt_scale c x : 0 <= c -> sqrt (c * c * x) = c * sqrt x.
  Proof.
    intros H. destruct (Rle_dec 0 x).
    - rewrite sqrt_mult by nra. now rewrite sqrt_square.
    - rewrite !sqrt_neg_0 by nra. ring.
  Qed.
  Lemma default_towards eps : 0 < eps -> towards eps dist default_extend.
  Proof.
    intros HE u w H. set (d := dist u w) in *. set (e := eps / d). assert (D : 0 < d) by lra. assert (E0 : 0 <= e) by (left; apply Rdiv_lt_0_compat; auto).
    assert (E1 : e <= 1) by (unfold e; apply Rmult_le_reg_r with d; auto; unfold Rdiv; rewrite Rmult_assoc, Rinv_l by lra; lra).
    assert (Ed : e * d = eps) by (unfold e; field; lra). unfold d in Ed. rewrite dist_sq in Ed. split.
    - rewrite dist_sq. replace (sq u (default_extend u w e)) with (e * e * sq u w).
      + rewrite sqrt_scale by auto. exact Ed. + unfold sq. rewrite <- rsum_scal. apply rsum_ext. intros. unfold default_extend. rs. ring.
    - rewrite dist_sq. replace (sq (default_extend u w e) w) with ((1 - e) * (1 - e) * sq u w).
      + rewrite sqrt_scale by lra. unfold d. rewrite dist_sq. lra. + unfold sq. rewrite <- rsum_scal. apply rsum_ext. intros. unfold default_extend. rs. ring.
  Qed.
End Defaults.
