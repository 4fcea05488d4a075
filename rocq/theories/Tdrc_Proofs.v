From Verif Require Import Prelude Prelude_Proofs Tdrc_Model.

Section Cycles.
  Variables (n : nat) (P : nat -> nat).
  Hypothesis Pr : forall k, k < n -> P k < n.
  Hypothesis Pinj : forall a b, a < n -> b < n -> P a = P b -> a = b.

  Fixpoint pw (t k : nat) : nat := match t with O => k | S t' => P (pw t' k) end.

  Lemma pw_lt t k : k < n -> pw t k < n.
  Proof. intros H; induction t; cbn; auto. Qed.
  Lemma pw_add a b k : pw (a + b) k = pw a (pw b k).
  Proof. induction a; cbn; congruence. Qed.
  Lemma pw_S_r t k : pw t (P k) = pw (S t) k.
  Proof. induction t; cbn in *; congruence. Qed.
  Lemma pw_inj t a b : a < n -> b < n -> pw t a = pw t b -> a = b.
  Proof.
    intros Ha Hb. induction t; cbn; auto. intros E. apply IHt. apply Pinj; auto using pw_lt.
  Qed.

  Lemma pw_mul m q k : k < n -> pw m k = k -> pw (q * m) k = k.
  Proof. intros Hk E. induction q; cbn; auto. rewrite pw_add, IHq; auto. Qed.

  (** Every element lies on a cycle. *)
  Lemma periodic k : k < n -> exists m, 0 < m <= n /\ pw m k = k.
  Proof.
    intros Hk.
    assert (E : exists a b, a < b <= n /\ pw a k = pw b k).
    {
      assert (H : forall N, (exists a b, a < b < N /\ pw a k = pw b k) \/ NoDup (map (fun t => pw t k) (seq 0 N))).
      { induction N as [|N IH].
        - right. constructor.
        - destruct IH as [(a & b & H & E)|IH]; [left; exists a, b; split; auto; lia|].
          destruct (in_dec Nat.eq_dec (pw N k) (map (fun t => pw t k) (seq 0 N))) as [I|NI].
          + left. apply in_map_iff in I. destruct I as (a & E & Ha). apply in_seq in Ha.
            exists a, N. split; auto; lia.
          + right. rewrite seq_S, map_app. cbn. apply NoDup_Add with (a := pw N k) (l := map (fun t => pw t k) (seq 0 N)).
            * rewrite <- (app_nil_r (map _ _)) at 1. apply Add_app.
            * auto. }
      destruct (H (S n)) as [(a & b & H1 & H2)|ND].
      - exists a, b. split; auto; lia.
      - exfalso. assert (L : length (map (fun t => pw t k) (seq 0 (S n))) <= length (seq 0 n)).
        { apply NoDup_incl_length; auto. intros x Hx. apply in_map_iff in Hx.
          destruct Hx as (t & <- & _). apply in_seq. pose proof (pw_lt t k Hk). lia. }
        rewrite map_length, !seq_length in L. lia. }
    destruct E as (a & b & H & E). exists (b - a). split; [lia|].
    apply (pw_inj a); auto using pw_lt. rewrite <- pw_add.
    replace (a + (b - a)) with b by lia. auto.
  Qed.

  (** Cycles can be run backwards. *)
  Lemma orbit_sym s k i : k < n -> pw s k = i -> exists u, pw u i = k.
  Proof.
    intros Hk E. destruct (periodic k Hk) as (m & Hm & Em).
    exists (s * m - s). subst i. rewrite <- pw_add. replace (s * m - s + s) with (s * m) by nia.
    now apply pw_mul.
  Qed.
  Lemma orbit_mod t i u : i < n -> 0 < t -> pw t i = i -> pw u i = pw (u mod t) i.
  Proof.
    intros Hi Ht E. rewrite (Nat.div_mod u t) at 1 by lia.
    rewrite Nat.add_comm, pw_add, (Nat.mul_comm t), pw_mul; auto.
  Qed.
  (** With first return time [t] the orbit has [t] distinct points. *)
  Lemma orbit_distinct t i a b : i < n -> (forall s, 0 < s < t -> pw s i <> i) ->
    a < b < t -> pw a i <> pw b i.
  Proof.
    intros Hi Hmin Hab E. apply (Hmin (b - a)); [lia|].
    apply (pw_inj a); auto using pw_lt. rewrite <- pw_add.
    replace (a + (b - a)) with b by lia. auto.
  Qed.
End Cycles.

Section Correct.
  Context {T : Type}.
  Variables (r c : nat).
  Let n := r * c.
  Let P k := tdrc_prev k r c.
  Hypothesis Hr : 0 < r.
  Hypothesis Hc : 0 < c.

  Lemma prev_lt k : k < n -> P k < n.
  Proof.
    unfold P, n, tdrc_prev. intros H.
    assert (k mod r < r) by (apply Nat.mod_upper_bound; lia).
    assert (k / r < c) by (apply Nat.div_lt_upper_bound; lia). nia.
  Qed.
  Lemma prev_inj a b : a < n -> b < n -> P a = P b -> a = b.
  Proof.
    unfold P, n, tdrc_prev. intros Ha Hb E.
    assert (a / r < c) by (apply Nat.div_lt_upper_bound; lia).
    assert (b / r < c) by (apply Nat.div_lt_upper_bound; lia).
    assert (E1 : (a mod r * c + a / r) / c = (b mod r * c + b / r) / c) by congruence.
    rewrite !Nat.div_add_l, !(Nat.div_small (_ / r)) in E1 by lia.
    assert (a / r = b / r) by nia.
    rewrite (Nat.div_mod a r), (Nat.div_mod b r) by lia. nia.
  Qed.

  Notation pw := (pw P).

  Lemma walk_spec i fuel s :
    i < n -> 0 < s -> (exists t, s <= t < s + fuel /\ pw t i <= i) ->
    (forall u, 0 < u < s -> i < pw u i) ->
    exists t, s <= t /\ tdrc_walk fuel i (pw s i) r c = Ok (pw t i) /\ pw t i <= i /\
      (forall u, 0 < u < t -> i < pw u i).
  Proof.
    revert s; induction fuel as [|f IH]; intros s Hi Hs (t & Ht & Hle) Hmin; cbn [tdrc_walk]; [lia|].
    destruct (Nat.ltb_spec i (pw s i)) as [H|H].
    - change (tdrc_prev (pw s i) r c) with (pw (S s) i).
      destruct (IH (S s)) as (t' & H1 & H2 & H3 & H4); auto.
      + exists t. split; auto. destruct (Nat.eq_dec t s) as [->|]; [lia|lia].
      + intros u Hu. destruct (Nat.eq_dec u s) as [->|]; auto. apply Hmin; lia.
      + exists t'. split; [lia|]. split; [exact H2|auto].
    - exists s. auto.
  Qed.

  Lemma rotate_spec i t fuel s (l cur : list T) d :
    i < n -> length cur = n -> length l = n -> 0 < t -> pw t i = i -> (forall u, 0 < u < t -> pw u i <> i) ->
    S s <= t -> t - s <= fuel ->
    (forall u, u < s -> nth (pw u i) cur d = nth (pw (S u) i) l d) ->
    (forall k, k < n -> (forall u, u < s -> k <> pw u i) -> nth k cur d = nth k l d) ->
    exists cur', tdrc_rotate fuel i (pw s i) (pw (S s) i) r c cur = Ok (pw (t - 1) i, cur') /\ length cur' = n /\
      (forall u, u < t - 1 -> nth (pw u i) cur' d = nth (pw (S u) i) l d) /\
      (forall k, k < n -> (forall u, u < t - 1 -> k <> pw u i) -> nth k cur' d = nth k l d).
  Proof.
    intros Hi Lc Ll Ht Et Hmin. revert s cur Lc. induction fuel as [|f IH]; intros s cur Lc Hs Hf H1 H2; [lia|].
    cbn [tdrc_rotate]. destruct (Nat.eqb_spec (pw (S s) i) i) as [E|N].
    - assert (S s = t). { destruct (Nat.eq_dec (S s) t); auto. exfalso. apply (Hmin (S s)); auto; lia. }
      replace (t - 1) with s by lia. exists cur. auto.
    - assert (S s < t). { destruct (Nat.eq_dec (S s) t); [congruence|lia]. }
      assert (Q1 : pw (S s) i < n) by (apply (pw_lt n); auto; apply prev_lt).
      assert (Q2 : pw s i < n) by (apply (pw_lt n); auto; apply prev_lt).
      assert (DI : forall a b, a < b < t -> pw a i <> pw b i).
      { intros a b Hab. apply (orbit_distinct n P prev_lt prev_inj t); auto. }
      rewrite (get_ok cur _ d) by lia. cbn [bind].
      rewrite set_ok by lia. cbn [bind].
      change (tdrc_prev (pw (S s) i) r c) with (pw (S (S s)) i).
      apply IH; auto; try lia.
      + now rewrite upd_length.
      + intros u Hu. rewrite nth_upd by lia. destruct (Nat.eqb_spec (pw u i) (pw s i)) as [E|N'].
        * assert (u = s).
          { destruct (Nat.eq_dec u s); auto. exfalso. apply (DI u s); auto; lia. }
          subst u. apply H2; auto. intros v Hv E'. apply (DI v (S s)); auto; lia.
        * apply H1. assert (u <> s) by congruence. lia.
      + intros k Hk HN. rewrite nth_upd by lia. destruct (Nat.eqb_spec k (pw s i)) as [E|N'].
        * exfalso. apply (HN s); auto.
        * apply H2; auto.
  Qed.

  (** [k]'s cycle contains an index below [i]. *)
  Definition done i k := exists t, pw t k < i.

  Definition inv (l : list T) d i (cur : list T) : Prop :=
    length cur = n /\
    forall k, k < n -> (done i k -> nth k cur d = nth (P k) l d) /\
                       (~ done i k -> nth k cur d = nth k l d).

  Lemma step_spec l d i cur : i < n -> length l = n -> inv l d i cur ->
    exists cur', tdrc_step n r c i cur = Ok cur' /\ inv l d (S i) cur'.
  Proof.
    intros Hi Ll [Lc Hinv]. unfold tdrc_step.
    destruct (periodic n P prev_lt prev_inj i Hi) as (m & Hm & Em).
    destruct (walk_spec i (S n) 1) as (t & Ht & E & Hle & Hmin); auto.
    { exists m. split; [lia|]. rewrite Em; auto. }
    { intros u Hu; lia. }
    change (tdrc_prev i r c) with (pw 1 i). rewrite E. cbn [bind].
    assert (EQV : forall k, k < n -> pw t i < i -> done (S i) k -> done i k).
    { intros k Hk Hlt (s & Hs). destruct (Nat.eq_dec (pw s k) i) as [E1|]; [|exists s; lia].
      exists (t + s). rewrite pw_add, E1. auto. }
    destruct (Nat.eqb_spec (pw t i) i) as [Et|Nt]; cbn [negb].
    - rewrite (get_ok cur i d) by lia. cbn [bind].
      assert (Hmin' : forall u, 0 < u < t -> pw u i <> i). { intros u Hu. specialize (Hmin u Hu). lia. }
      assert (NDi : ~ done i i).
      { intros (s & Hs). rewrite (orbit_mod n P prev_lt prev_inj t i s) in Hs; auto; try lia.
        destruct (Nat.eq_dec (s mod t) 0) as [E0|N0]; [rewrite E0 in Hs; cbn in Hs; lia|].
        assert (s mod t < t) by (apply Nat.mod_upper_bound; lia).
        specialize (Hmin (s mod t)). lia. }
      assert (NDo : forall u, ~ done i (pw u i)).
      { intros u (s & Hs). apply NDi. exists (s + u). now rewrite pw_add. }
      assert (tn : t <= m \/ m < t) by lia.
      assert (tn' : t <= n).
      { destruct tn; [lia|]. exfalso. apply (Hmin' m); auto; lia. }
      assert (Orb : forall k, k < n -> ~ done i k -> done (S i) k -> exists u, u < t /\ k = pw u i).
      { intros k Hk Hn (s & Hs). assert (E1 : pw s k = i).
        { destruct (Nat.eq_dec (pw s k) i); auto. exfalso. apply Hn. exists s. lia. }
        destruct (orbit_sym n P prev_lt prev_inj s k i Hk E1) as (u & Eu).
        exists (u mod t). split; [apply Nat.mod_upper_bound; lia|].
        rewrite <- (orbit_mod n P prev_lt prev_inj t i u); auto; lia. }
      destruct (rotate_spec i t (S n) 0 cur cur d) as (cur' & E' & L' & A & B); auto; try lia.
      change (pw 0 i) with i in E'. rewrite E'. cbn [bind].
      assert (Q : pw (t - 1) i < n) by (apply (pw_lt n); auto; apply prev_lt).
      rewrite set_ok by lia. eexists. split; [reflexivity|]. split; [now rewrite upd_length|].
      intros k Hk. rewrite nth_upd by lia.
      assert (Main : forall u, u < t -> (if pw u i =? pw (t - 1) i then nth i cur d else nth (pw u i) cur' d)
                                        = nth (pw (S u) i) l d).
      { intros u Hu. destruct (Nat.eqb_spec (pw u i) (pw (t - 1) i)) as [E1|N1].
        - assert (u = t - 1).
          { destruct (Nat.eq_dec u (t - 1)); auto. exfalso.
            apply (orbit_distinct n P prev_lt prev_inj t i u (t - 1)); auto; lia. }
          subst u. replace (S (t - 1)) with t by lia. rewrite Et. now apply Hinv.
        - assert (u <> t - 1) by congruence. rewrite A by lia.
          apply Hinv; [apply (pw_lt n); auto; apply prev_lt|]. apply NDo. }
      split.
      + intros Hd. assert (DEC : (exists u, u < t /\ k = pw u i) \/ ~ (exists u, u < t /\ k = pw u i)).
        { clear. induction t as [|t' [IH|IH]].
          - right. intros (u & Hu & _); lia.
          - left. destruct IH as (u & Hu & Eu); exists u; split; auto; lia.
          - destruct (Nat.eq_dec k (pw t' i)) as [->|N].
            + left. exists t'. split; auto; lia.
            + right. intros (u & Hu & Eu). destruct (Nat.eq_dec u t') as [->|]; auto.
              apply IH. exists u. split; auto; lia. }
        destruct DEC as [(u & Hu & ->)|NO].
        * rewrite Main by auto. reflexivity.
        * assert (K : done i k \/ ~ done i k).
          { destruct Hd as (s & Hs). destruct (Nat.eq_dec (pw s k) i) as [E1|N1]; [|left; exists s; lia].
            exfalso. apply NO.
            destruct (orbit_sym n P prev_lt prev_inj s k i Hk E1) as (u & Eu).
            exists (u mod t). split; [apply Nat.mod_upper_bound; lia|].
            rewrite <- (orbit_mod n P prev_lt prev_inj t i u); auto; lia. }
          destruct K as [K|K]; [|exfalso; apply NO; apply Orb; auto].
          destruct (Nat.eqb_spec k (pw (t - 1) i)) as [->|_].
          { exfalso. apply NO. exists (t - 1). split; auto; lia. }
          rewrite B; auto.
          -- now apply Hinv.
          -- intros u Hu ->. apply NO. exists u. split; auto; lia.
      + intros Hd.
        assert (NO : forall u, k <> pw u i).
        { intros u ->. apply Hd. destruct (orbit_sym n P prev_lt prev_inj u i (pw u i) Hi eq_refl) as (s & Es).
          exists s. lia. }
        destruct (Nat.eqb_spec k (pw (t - 1) i)) as [E1|_]; [exfalso; now apply (NO (t - 1))|].
        rewrite B; auto. apply Hinv; auto. intros (s & Hs). apply Hd. exists s. lia.
    - exists cur. split; auto. split; auto. intros k Hk. split.
      + intros Hd. apply Hinv; auto. apply EQV; auto. lia.
      + intros Hd. apply Hinv; auto. intros (s & Hs). apply Hd. exists s; lia.
  Qed.

  Lemma tdrc_ok (l : list T) d : length l = n ->
    exists l', zRawMatTDRC l r c = Ok l' /\ length l' = n /\
      (forall i j, i < r -> j < c -> nth (j * r + i) l' d = nth (i * c + j) l d).
  Proof.
    intros Ll. unfold zRawMatTDRC. fold n. destruct (Nat.leb_spec n 1) as [H1|H1].
    - exists l. split; auto. split; auto. unfold n in H1. intros i j Hi Hj.
      assert (r = 1) by nia. assert (c = 1) by nia. f_equal. nia.
    - destruct (for_inv (inv l d) 0 n (tdrc_step n r c) l) as (l' & E & L' & H).
      + lia.
      + split; auto. intros k Hk. split; auto. intros (t & Ht). lia.
      + intros k cur Hk Hi. apply step_spec; auto; lia.
      + exists l'. split; auto. split; auto. intros i j Hi Hj.
        assert (Hk : j * r + i < n) by (unfold n; nia).
        rewrite (proj1 (H _ Hk)) by (exists 0; auto).
        f_equal. unfold P, tdrc_prev.
        rewrite (Nat.add_comm (j * r) i), Nat.mod_add, Nat.mod_small by lia.
        rewrite Nat.div_add, Nat.div_small by lia. lia.
  Qed.
End Correct.

Lemma zRawMatTDRC_spec {T} (r c : nat) (l : list T) d : length l = r * c ->
  exists l', zRawMatTDRC l r c = Ok l' /\ length l' = r * c /\
    (forall i j, i < r -> j < c -> nth (j * r + i) l' d = nth (i * c + j) l d).
Proof.
  intros L. destruct (Nat.eq_dec r 0) as [->|].
  - exists l. split; [reflexivity|]. split; auto. intros; lia.
  - destruct (Nat.eq_dec c 0) as [->|].
    + exists l. unfold zRawMatTDRC. rewrite Nat.mul_0_r. split; [reflexivity|]. split; [lia|]. intros; lia.
    + apply tdrc_ok; auto; lia.
Qed.

Lemma zRawMatTDRC_invol {T} (r c : nat) (l : list T) : length l = r * c ->
  (l' <- zRawMatTDRC l r c ;; zRawMatTDRC l' c r) = Ok l.
Proof.
  intros L. destruct l as [|d l0] eqn:EL; rewrite <- EL in *.
  - rewrite EL in *. cbn in L. unfold zRawMatTDRC. rewrite <- L. cbn.
    rewrite (Nat.mul_comm c r), <- L. reflexivity.
  - destruct (zRawMatTDRC_spec r c l d L) as (l1 & E1 & L1 & H1). rewrite E1. cbn.
    destruct (zRawMatTDRC_spec c r l1 d) as (l2 & E2 & L2 & H2); [lia|]. rewrite E2. f_equal.
    assert (HR : 0 < c). { rewrite EL in L. cbn in L. nia. }
    apply (nth_ext_len _ _ d (r * c)); auto; [lia|].
    intros k Hk. 
    assert (K1 : k / c < r) by (apply Nat.div_lt_upper_bound; lia).
    assert (K2 : k mod c < c) by (apply Nat.mod_upper_bound; lia).
    pose proof (Nat.div_mod k c ltac:(lia)) as DM.
    replace k with (k / c * c + k mod c) by lia.
    rewrite (H2 (k mod c) (k / c)) by auto. now rewrite H1.
Qed.
