From Coq Require Import Reals Lra Permutation.
From Verif Require Import Prelude Prelude_Proofs Scalar RealLib Graph_Model Graph_Spec.
Local Open Scope R_scope.

(** ** lists *)
Lemma add_in l n x : In x (zGraphNodeListAdd l n) <-> x = n \/ In x l.
Proof.
  unfold zGraphNodeListAdd. destruct (existsb (Nat.eqb n) l) eqn:E.
  - apply existsb_exists in E as (y & Hy & E). apply Nat.eqb_eq in E as ->. split; auto. intros [->|]; auto.
  - rewrite in_app_iff. cbn. intuition auto.
Qed.
Lemma add_nodup l n : NoDup l -> NoDup (zGraphNodeListAdd l n).
Proof.
  intros H. unfold zGraphNodeListAdd. destruct (existsb (Nat.eqb n) l) eqn:E; auto.
  apply (Permutation_NoDup (l := n :: l)). { apply Permutation_cons_append. }
  constructor; auto. intros I. enough (existsb (Nat.eqb n) l = true) by congruence.
  apply existsb_exists. exists n. split; auto. apply Nat.eqb_refl.
Qed.
Lemma add_fresh l n : ~ In n l -> zGraphNodeListAdd l n = l ++ [n].
Proof.
  intros H. unfold zGraphNodeListAdd. destruct (existsb (Nat.eqb n) l) eqn:E; auto.
  apply existsb_exists in E as (y & Hy & E). apply Nat.eqb_eq in E as ->. tauto.
Qed.
Lemma purge_in l n x : In x (purge l n) <-> In x l /\ x <> n.
Proof.
  unfold purge. rewrite filter_In. destruct (Nat.eqb_spec x n); cbn; intuition congruence.
Qed.
Lemma find_node G d : forall n, zGraphFindNode (T := R) G d = Some n -> fst n = d /\ In n G.
Proof.
  induction G as [|m G IH]; intros n; cbn [zGraphFindNode]; [discriminate|].
  destruct (Nat.eqb_spec (fst m) d).
  - intros E; inversion E; subst. cbn; auto.
  - intros E. destruct (IH _ E). cbn; auto.
Qed.
Lemma find_none G d : zGraphFindNode (T := R) G d = None <-> ~ node G d.
Proof.
  unfold node. induction G as [|m G IH]; cbn [zGraphFindNode map In]; [tauto|].
  destruct (Nat.eqb_spec (fst m) d). { split; [discriminate|tauto]. }
  rewrite IH. tauto.
Qed.
Lemma find_some G d : NoDup (map fst G) -> node G d ->
  exists l, zGraphFindNode (T := R) G d = Some (d, l) /\ In (d, l) G /\ forall y c, In (y, c) l <-> arc G d y c.
Proof.
  intros ND H. destruct (zGraphFindNode G d) as [[d' l]|] eqn:E.
  2:{ apply find_none in E. tauto. }
  destruct (find_node _ _ _ E) as (Ed & I). cbn in Ed; subst d'. exists l. split; auto. split; auto.
  intros y c. split; [intros; exists l; auto|]. intros (l' & I' & J).
  assert (l' = l); [|now subst]. clear E H J.
  induction G as [|m G IH]; cbn in *; [tauto|]. inversion ND; subst.
  destruct I as [->|I], I' as [E|I']; subst; auto.
  - now inversion E.
  - exfalso. apply H1. cbn. change d with (fst (d, l')). now apply in_map.
  - exfalso. apply H1. cbn. change d with (fst (d, l)). now apply in_map.
Qed.

Lemma NoDup_app_remove_r {A} (l l' : list A) : NoDup (l ++ l') -> NoDup l.
Proof.
  induction l as [|a l IH]; cbn; intros H; [constructor|]. inversion H; subst. constructor; auto.
  intros I. apply H2. apply in_or_app; auto.
Qed.

(** ** walks *)
Lemma walk_snoc G l x c y d : walk G (l ++ [x]) c -> arc G x y d -> walk G (l ++ [x; y]) (c + d).
Proof.
  revert x c. induction l as [|a l IH]; intros x c; cbn [app].
  - intros H A. inversion H; subst. replace (0 + d) with (d + 0) by lra. constructor; auto. constructor.
  - intros H A. destruct l as [|b l]; cbn [app] in *.
    + inversion H; subst. inversion H5; subst. replace (c0 + 0 + d) with (c0 + (d + 0)) by lra.
      constructor; auto. constructor; auto. constructor.
    + inversion H; subst. replace (c0 + d0 + d) with (c0 + (d0 + d)) by lra. constructor; auto.
Qed.
Lemma walk_rev G l c : two_way G -> walk G l c -> walk G (rev l) c.
Proof.
  intros TW. induction 1 as [x|x y l c d A W IH]; [constructor|].
  cbn [rev] in *. rewrite <- app_assoc. cbn [app]. replace (c + d) with (d + c) by lra.
  apply walk_snoc; auto.
Qed.
Lemma walk_nonneg G l c : costs_ok G -> walk G l c -> 0 <= c.
Proof. intros C. induction 1; [lra|]. specialize (C _ _ _ H). lra. Qed.

Lemma pick_ok (hv : nat -> option R) l : forall c0, (forall x, In x l \/ c0 = Some x -> exists v, hv x = Some v) ->
  l <> [] \/ c0 <> None ->
  exists c v, pick l hv c0 = Some c /\ (In c l \/ c0 = Some c) /\ hv c = Some v /\
   (forall x w, In x l \/ c0 = Some x -> hv x = Some w -> v <= w).
Proof.
  induction l as [|n l IH]; intros c0 H N; cbn [pick].
  - destruct c0 as [c|]; [|destruct N; congruence]. destruct (H c (or_intror eq_refl)) as (v & E).
    exists c, v. repeat split; auto. intros x w [[]|Ex]; inversion Ex; subst. intros. assert (v = w) by congruence. lra.
  - destruct (H n) as (vn & En); [cbn; auto|]. destruct c0 as [c|].
    + destruct (H c) as (vc & Ec); auto. rewrite En, Ec. cbn [lt_huge]. rs. destruct (Rltb_spec vn vc) as [L|L].
      * destruct (IH (Some n)) as (c' & v' & P & I & E' & M). { intros x [?|E]; apply H; cbn; auto. inversion E; auto. } { right; congruence. }
        exists c', v'. rewrite P. repeat split; auto.
        { cbn. destruct I as [|E]; auto. inversion E; auto. }
        intros x w [[<-|I']|E] Ew; eauto. inversion E; subst x. assert (w = vc) by congruence. subst.
        specialize (M n vn (or_intror eq_refl) En). lra.
      * destruct (IH (Some c)) as (c' & v' & P & I & E' & M). { intros x [?|E]; apply H; cbn; auto. } { right; congruence. }
        exists c', v'. rewrite P. repeat split; auto. { cbn. tauto. }
        intros x w [[<-|I']|E] Ew; eauto. assert (w = vn) by congruence. subst.
        specialize (M c vc (or_intror eq_refl) Ec). lra.
    + destruct (IH (Some n)) as (c' & v' & P & I & E' & M). { intros x [?|E]; apply H; cbn; auto. inversion E; auto. } { right; congruence. }
      exists c', v'. rewrite P. repeat split; auto.
      { cbn. destruct I as [|E]; auto. inversion E; auto. }
      intros x w [[<-|I']|E] Ew; eauto. discriminate.
Qed.

Section Search.
  Variables (G : rgraph) (h : nat -> R) (s g : nat).
  Hypothesis GOK : graph_ok G.
  Hypothesis CON : consistent G h.

  Record inv (cl : nat -> nat -> R -> Prop) (st : gst) (done : list nat) : Prop := {
    i_nd : NoDup (done ++ yet st);
    i_node : forall x, In x (done ++ yet st) -> node G x;
    i_val : forall x, In x (done ++ yet st) -> exists v, val st x = Some v /\ hval st x = Some (v + h x) /\ h g <= v + h x;
    i_none : forall x, ~ In x (done ++ yet st) -> val st x = None /\ hval st x = None;
    i_g : In g (done ++ yet st) /\ val st g = Some 0;
    i_mono : forall x y vx vy, In x done -> In y (yet st) -> val st x = Some vx -> val st y = Some vy -> vx + h x <= vy + h y;
    i_par : forall x v, val st x = Some v -> x = g \/ exists m vm c, gto st x = Some m /\ In m done /\ val st m = Some vm /\ arc G m x c /\ v = vm + c;
    i_ord : forall l1 x l2, done = l1 ++ x :: l2 -> x = g \/ exists m, gto st x = Some m /\ In m l2;
    i_cl : forall x y c, cl x y c -> exists vx vy, val st x = Some vx /\ val st y = Some vy /\ vy <= vx + c }.
  Arguments i_nd {cl st done}. Arguments i_node {cl st done}. Arguments i_val {cl st done}. Arguments i_none {cl st done}.
  Arguments i_g {cl st done}. Arguments i_mono {cl st done}. Arguments i_par {cl st done}. Arguments i_ord {cl st done}. Arguments i_cl {cl st done}.

  (** arcs out of the nodes of a list *)
  Definition outof (l : list nat) (x y : nat) (c : R) : Prop := In x l /\ arc G x y c.

  Lemma relax_ok cl cc st done y c :
    inv cl st (cc :: done) -> (forall x y c, cl x y c -> In x (cc :: done)) ->
    (forall x vx vc, In x done -> val st x = Some vx -> val st cc = Some vc -> vx + h x <= vc + h cc) -> arc G cc y c ->
    exists st', relax h cc (y, c) st = Ok st' /\ inv (fun x y' c' => cl x y' c' \/ (x = cc /\ y' = y /\ c' = c)) st' (cc :: done) /\
      (forall x, In x (cc :: done) -> val st' x = val st x).
  Proof.
    intros I CL TOP A. destruct (i_val I cc) as (v & Ev & Eh & Hg); [cbn; auto|].
    assert (CY := CON _ _ _ A).
    unfold relax. rewrite Ev. cbn [fst snd].
    eexists; split; [reflexivity|]. cbn [sadd RealS].
    destruct (lt_huge (Some (v + c + h y)) (hval st y)) eqn:LT.
    - (* improved: y is not done *)
      assert (TODO : forall w, In y ((cc :: done) ++ yet st) -> val st y = Some w -> v + c < w).
      { intros w Iy Ew. destruct (i_val I y Iy) as (w' & Ew' & Eh' & _). rewrite Eh' in LT. cbn in LT. rs.
        destruct (Rltb_spec (v + c + h y) (w' + h y)); [|discriminate]. rewrite Ew in Ew'. inversion Ew'; subst. lra. }
      assert (NYD : ~ In y (cc :: done)).
      { intros Iy. destruct (i_val I y) as (w & Ew & _ & _). { apply in_or_app; auto. }
        assert (T := TODO w (in_or_app _ _ _ (or_introl Iy)) Ew). destruct Iy as [<-|Iy].
        - assert (w = v) by congruence. lra.
        - specialize (TOP _ _ _ Iy Ew Ev). lra. }
      assert (NYG : y <> g).
      { intros ->. destruct (i_g I) as (Ig & Eg). specialize (TODO 0 Ig Eg). lra. }
      assert (NE : forall x, In x (cc :: done) -> x <> y). { intros x Ix ->; tauto. }
      assert (INE : forall x, In x ((cc :: done) ++ zGraphNodeListAdd (yet st) y) <-> x = y \/ In x ((cc :: done) ++ yet st)).
      { intros x. rewrite !in_app_iff, add_in. tauto. }
      split.
      + constructor; cbn [val hval gto yet].
        * assert (ND := i_nd I). clear - ND NYD.
          unfold zGraphNodeListAdd. destruct (existsb (Nat.eqb y) (yet st)) eqn:E; auto.
          rewrite app_assoc. apply (Permutation_NoDup (l := y :: ((cc :: done) ++ yet st))). { apply Permutation_cons_append. }
          constructor; auto. rewrite in_app_iff. intros [|J]; auto.
          enough (existsb (Nat.eqb y) (yet st) = true) by congruence.
          apply existsb_exists. exists y. split; auto. apply Nat.eqb_refl.
        * intros x Ix. apply INE in Ix as [->|Ix]. { destruct GOK as (_ & _ & K). eauto. } now apply (i_node I).
        * intros x Ix. unfold fset. destruct (Nat.eqb_spec x y) as [->|N].
          { exists (v + c). repeat split; auto. lra. }
          apply INE in Ix as [|Ix]; [tauto|]. now apply (i_val I).
        * intros x Ix. rewrite INE in Ix. unfold fset. destruct (Nat.eqb_spec x y) as [->|N]; [tauto|]. apply (i_none I). tauto.
        * destruct (i_g I) as (Ig & Eg). split. { apply INE; auto. } unfold fset. destruct (Nat.eqb_spec g y); auto. congruence.
        * intros x z vx vz Ix Iz. unfold fset. destruct (Nat.eqb_spec x y) as [->|N]; [tauto|]. intros Ex.
          destruct (Nat.eqb_spec z y) as [->|N'].
          { intros E. inversion E; subst. destruct Ix as [<-|Ix]. { assert (vx = v) by congruence. subst. lra. }
            specialize (TOP _ _ _ Ix Ex Ev). lra. }
          apply add_in in Iz as [|Iz]; [tauto|]. intros Ez. eapply (i_mono I); eauto.
        * intros x w. unfold fset. destruct (Nat.eqb_spec x y) as [->|N].
          { intros E. inversion E; subst. right. exists cc, v, c. destruct (Nat.eqb_spec cc y) as [->|]; [exfalso; apply NYD; cbn; auto|].
            cbn. repeat split; auto. }
          intros E. destruct (i_par I _ _ E) as [|(m & vm & c' & H1 & H2 & H3 & H4 & H5)]; auto. right. exists m, vm, c'.
          destruct (Nat.eqb_spec m y) as [->|]; [tauto|]. auto.
        * intros l1 x l2 E. destruct (i_ord I _ _ _ E) as [|(m & Em & J)]; auto. right. exists m. split; auto.
          unfold fset. destruct (Nat.eqb_spec x y) as [->|]; auto. exfalso. apply NYD. rewrite E. apply in_elt.
        * intros x z d [C|(-> & -> & ->)]; unfold fset.
          { destruct (i_cl I _ _ _ C) as (vx & vz & Ex & Ez & L). apply CL in C. destruct (Nat.eqb_spec x y) as [->|]; [tauto|].
            destruct (Nat.eqb_spec z y) as [->|]; [|eauto]. exists vx, (v + c). repeat split; auto.
            assert (Iy : In y ((cc :: done) ++ yet st)).
            { destruct (in_dec Nat.eq_dec y ((cc :: done) ++ yet st)); auto. destruct (i_none I y n0). congruence. }
            specialize (TODO _ Iy Ez). lra. }
          rewrite Nat.eqb_refl. destruct (Nat.eqb_spec cc y) as [->|]; [exfalso; apply NYD; cbn; auto|]. exists v, (v + c). repeat split; auto. lra.
      + intros x Ix. cbn [val]. unfold fset. destruct (Nat.eqb_spec x y) as [->|]; tauto.
    - split; auto.
      assert (Iy : In y ((cc :: done) ++ yet st)).
      { destruct (in_dec Nat.eq_dec y ((cc :: done) ++ yet st)); auto. destruct (i_none I y n) as (_ & E). rewrite E in LT. discriminate. }
      destruct (i_val I y Iy) as (w & Ew & Ehw & _). rewrite Ehw in LT. cbn in LT. rs.
      destruct (Rltb_spec (v + c + h y) (w + h y)) as [|LE]; [discriminate|].
      destruct I. constructor; auto. intros x z d [C|(-> & -> & ->)]; auto. exists v, w. repeat split; auto. lra.
  Qed.

  Lemma relax_all_ok cc done l : forall cl st,
    inv cl st (cc :: done) -> (forall x y c, cl x y c -> In x (cc :: done)) ->
    (forall x vx vc, In x done -> val st x = Some vx -> val st cc = Some vc -> vx + h x <= vc + h cc) ->
    (forall y c, In (y, c) l -> arc G cc y c) ->
    exists st', relax_all h cc l st = Ok st' /\ inv (fun x y' c' => cl x y' c' \/ (x = cc /\ In (y', c') l)) st' (cc :: done).
  Proof.
    induction l as [|[y c] l IH]; intros cl st I CL TOP A; cbn [relax_all].
    - eexists; split; [reflexivity|]. destruct I. constructor; auto. intros x y c [C|(_ & [])]; auto.
    - destruct (relax_ok cl cc st done y c I CL TOP) as (st1 & E & I1 & V). { apply A. cbn; auto. }
      rewrite E. cbn [bind].
      destruct (IH _ st1 I1) as (st2 & E2 & I2).
      + intros x z d [C|(-> & _)]; [eauto|cbn; auto].
      + intros x vx vc Ix Ex Ec. rewrite V in Ex, Ec by (cbn; auto). eauto.
      + intros; apply A; cbn; auto.
      + exists st2. split; auto. destruct I2. constructor; auto. intros x z d [C|(-> & [E'|J])]; auto.
        apply i_cl0. inversion E'; subst. auto.
  Qed.

  (** every walk from g ends either at a settled node or behind an open one *)
  Lemma frontier st done l d : inv (outof done) st done -> walk G l d -> forall x w, hd_error l = Some x ->
    (In x done /\ (exists v, val st x = Some v /\ v <= w) \/ exists z vz, In z (yet st) /\ val st z = Some vz /\ vz + h z <= w + h x) ->
    exists y, hd_error (rev l) = Some y /\
    (In y done /\ (exists v, val st y = Some v /\ v <= w + d) \/ exists z vz, In z (yet st) /\ val st z = Some vz /\ vz + h z <= w + d + h y).
  Proof.
    intros I. induction 1 as [a|a b l c d A W IH]; intros x w E H; cbn [hd_error] in E; inversion E; subst x; clear E.
    - exists a. split; auto. now rewrite Rplus_0_r.
    - destruct (IH b (w + c) eq_refl) as (y & Ey & HY).
      + destruct H as [(D & v & Ev & L)|(z & vz & Iz & Ez & L)].
        * destruct (i_cl I a b c (conj D A)) as (va & vb & Ea & Eb & L'). assert (va = v) by congruence. subst va.
          destruct (in_dec Nat.eq_dec b done) as [Db|Nb]. { left. split; auto. exists vb. split; auto. lra. }
          right. exists b, vb. repeat split; auto; [|lra].
          destruct (in_dec Nat.eq_dec b (done ++ yet st)) as [J|J]. { apply in_app_or in J. tauto. }
          destruct (i_none I b J). congruence.
        * right. exists z, vz. repeat split; auto. specialize (CON _ _ _ A). lra.
      + exists y. split.
        * cbn [rev] in Ey |- *. destruct (rev l ++ [b]) eqn:ER; [discriminate|]. exact Ey.
        * rewrite <- Rplus_assoc. exact HY.
  Qed.

  Lemma search_ok : forall fuel st done, inv (outof done) st done -> ~ In s done -> (length G < fuel + length done)%nat ->
    (exists c, walk_from G g s c) ->
    exists st' done', search fuel G h s st = Ok st' /\ inv (outof (tl done')) st' done' /\ hd_error done' = Some s /\
      exists v, val st' s = Some v /\ forall w, walk_from G g s w -> v <= w.
  Proof.
    induction fuel as [|fuel IH]; intros st done I NS L W.
    { exfalso. assert (length done <= length (map fst G))%nat.
      { apply NoDup_incl_length. { assert (ND := i_nd I). now apply NoDup_app_remove_r in ND. }
        intros x Ix. apply (i_node I). apply in_or_app; auto. }
      rewrite map_length in H. lia. }
    assert (F : forall w, walk_from G g s w -> In s done /\ (exists v, val st s = Some v /\ v <= w) \/ exists z vz, In z (yet st) /\ val st z = Some vz /\ vz + h z <= w + h s).
    { intros w (l & Wl & E1 & E2). destruct (frontier st done l w I Wl g 0 E1) as (y & Ey & H).
      - destruct (i_g I) as (Ig & Eg). apply in_app_or in Ig as [D|Y]; [left|right].
        + split; auto. exists 0. split; auto. lra.
        + exists g, 0. repeat split; auto. lra.
      - rewrite E2 in Ey. inversion Ey; subst y. rewrite Rplus_0_l in H. exact H. }
    cbn [search].
    destruct (pick_ok (hval st) (yet st) None) as (cc & hc & P & IC & EH & MIN).
    { intros x [Ix|]; [|discriminate]. destruct (i_val I x) as (v & _ & E & _); eauto. apply in_or_app; auto. }
    { left. intros E. destruct W as (w & W). destruct (F w W) as [(D & _)|(z & vz & Iz & _)]; [tauto|]. rewrite E in Iz. destruct Iz. }
    destruct IC as [IC|]; [|discriminate]. rewrite P.
    destruct (i_val I cc) as (vc & Evc & Ehc & Hg). { apply in_or_app; auto. }
    assert (hc = vc + h cc) by congruence. subst hc.
    assert (MIN' : forall z vz, In z (yet st) -> val st z = Some vz -> vc + h cc <= vz + h z).
    { intros z vz Iz Ez. destruct (i_val I z) as (v' & Ev' & Eh' & _). { apply in_or_app; auto. } assert (v' = vz) by congruence. subst. eauto. }
    set (st1 := {| val := val st; hval := hval st; gto := gto st; yet := purge (yet st) cc |}).
    assert (INE : forall x, In x ((cc :: done) ++ yet st1) <-> In x (done ++ yet st)).
    { intros x. subst st1. cbn [yet]. cbn [app]. cbn [In]. rewrite !in_app_iff, purge_in.
      destruct (Nat.eq_dec cc x) as [->|]; intuition congruence. }
    assert (NC : ~ In cc done).
    { intros D. assert (ND := i_nd I). apply in_split in D as (l1 & l2 & ->). rewrite <- app_assoc in ND. cbn in ND.
      apply NoDup_remove_2 in ND. apply ND. rewrite !in_app_iff. auto. }
    assert (I1 : inv (outof done) st1 (cc :: done)).
    { destruct I as [ND NO VA NN GG MO PA OR CLO]. subst st1. constructor; cbn [val hval gto yet] in *; auto.
      - cbn [app]. constructor. { rewrite in_app_iff, purge_in. tauto. }
        clear - ND. induction done as [|d done IH]; cbn in *.
        + unfold purge. now apply NoDup_filter.
        + inversion ND; subst. constructor; auto. intros K. apply H1. apply in_app_or in K as [K|K]; apply in_or_app; auto.
          right. apply purge_in in K. tauto.
      - intros x Ix. apply NO. now apply INE.
      - intros x Ix. apply VA. now apply INE.
      - intros x Ix. apply NN. now rewrite <- INE.
      - split; [apply INE|]; tauto.
      - intros x y vx vy [<-|Ix] Iy Ex Ey; apply purge_in in Iy as (Iy & _).
        + assert (vx = vc) by congruence. subst. auto.
        + eapply MO; eauto.
      - intros x v Ev. destruct (PA x v Ev) as [|(m & vm & c & ? & ? & ? & ? & ?)]; auto. right. exists m, vm, c. cbn. auto.
      - intros [|a l1] x l2 E; cbn in E; inversion E; subst.
        + destruct (PA x vc Evc) as [|(m & vm & c & ? & ? & _)]; eauto.
        + eapply OR; eauto. }
    destruct (Nat.eqb_spec cc s) as [->|NCS].
    - exists st1, (s :: done). split; auto. split; [exact I1|]. split; auto. exists vc. split; auto.
      intros w Ww. destruct (F w Ww) as [(D & _)|(z & vz & Iz & Ez & Lz)]; [tauto|].
      specialize (MIN' z vz Iz Ez). lra.
    - destruct (find_some G cc) as (l & El & _ & AL). { apply GOK. } { apply (i_node I). apply in_or_app; auto. }
      rewrite El. cbn [snd].
      destruct (relax_all_ok cc done l (outof done) st1 I1) as (st2 & E2 & I2).
      + intros x y c (D & _). cbn; auto.
      + intros x vx v' Ix Ex Ec. subst st1. cbn [val] in *. assert (v' = vc) by congruence. subst. apply (i_mono I x cc); auto.
      + intros y c J. now apply AL.
      + rewrite E2. cbn [bind]. apply (IH st2 (cc :: done)); auto.
        * destruct I2 as [a1 a2 a3 a4 a5 a6 a7 a8 CLO]. constructor; auto. intros x y c ([<-|D] & A); apply CLO; unfold outof; auto. right. split; auto. now apply AL.
        * intros [|]; auto.
        * cbn [length]. lia.
  Qed.

  (** following [to] through the settled nodes, most recent first *)
  Lemma walk_back_ok st : forall done, (forall l1 x l2, done = l1 ++ x :: l2 -> x = g \/ exists m, gto st x = Some m /\ In m l2) ->
    NoDup done ->
    (forall x v, In x done -> val st x = Some v -> x = g \/ exists m vm c, gto st x = Some m /\ val st m = Some vm /\ arc G m x c /\ v = vm + c) ->
    val st g = Some 0 ->
    forall n v, In n done -> val st n = Some v -> forall fuel acc, (length done <= fuel)%nat -> (forall x, In x acc -> ~ In x done) ->
    exists p, walk_back fuel (gto st) g n acc = Ok (acc ++ p) /\ walk G (rev p) v /\ hd_error p = Some n /\ hd_error (rev p) = Some g /\ NoDup p /\ incl p done.
  Proof.
    intros done. induction done as [|a done IH]; intros OR ND PA EG n v In_ Ev fuel acc LF AC; [destruct In_|].
    inversion ND as [|? ? NA ND']; subst.
    assert (OR' : forall l1 x l2, done = l1 ++ x :: l2 -> x = g \/ exists m, gto st x = Some m /\ In m l2).
    { intros l1 x l2 E. apply (OR (a :: l1)). cbn. now rewrite E. }
    assert (PA' : forall x v, In x done -> val st x = Some v -> x = g \/ exists m vm c, gto st x = Some m /\ val st m = Some vm /\ arc G m x c /\ v = vm + c).
    { intros x w Ix. apply PA. cbn; auto. }
    cbn [length] in LF. destruct fuel as [|fuel]; [lia|].
    assert (AN : ~ In n acc) by (intros J; apply (AC n J); auto).
    destruct (Nat.eq_dec n a) as [->|NE].
    2:{ destruct In_ as [->|In_]; [tauto|]. destruct (IH OR' ND' PA' EG n v In_ Ev (S fuel) acc) as (p & H1 & H2 & H3 & H4 & H5 & H6).
        - lia. - intros x Ix J. apply (AC x Ix). cbn; auto.
        - exists p. repeat split; auto. intros x Ix. right; auto. }
    cbn [walk_back]. rewrite (add_fresh acc a AN).
    destruct (Nat.eqb_spec a g) as [->|NG].
    - exists [g]. repeat split; auto. { cbn. assert (v = 0) by congruence. subst. constructor. } { constructor; auto. constructor. } { intros x [<-|[]]; cbn; auto. }
    - destruct (OR [] a done eq_refl) as [|(m & Em & Im)]; [tauto|]. rewrite Em.
      destruct (PA a v (or_introl eq_refl) Ev) as [|(m' & vm & c & Em' & Evm & A & ->)]; [tauto|].
      assert (m' = m) by congruence. subst m'.
      destruct (IH OR' ND' PA' EG m vm Im Evm fuel (acc ++ [a])) as (p & H1 & H2 & H3 & H4 & H5 & H6).
      + lia.
      + intros x Ix J. apply in_app_or in Ix as [Ix|[<-|[]]]; [|tauto]. apply (AC x Ix). cbn; auto.
      + exists (a :: p). rewrite H1, <- app_assoc. split; auto. split; [|split; [|split; [|split]]]; auto.
        * cbn [rev]. destruct p as [|q p]; [discriminate|]. cbn in H3. inversion H3; subst q. cbn [rev] in *. rewrite <- app_assoc. cbn [app].
          now apply walk_snoc.
        * cbn [rev]. destruct (rev p); [discriminate|]. exact H4.
        * constructor; auto.
        * intros x [<-|J]; cbn; auto.
  Qed.
End Search.

Theorem astar_ok G (h : nat -> nat -> R) to0 s g : graph_ok G -> consistent G (fun n => h n s) -> node G s -> node G g -> s <> g ->
  (exists c, walk_from G g s c) ->
  exists v p to', zGraphSearchAStar G h to0 s g = Ok (Some v, Some p, to') /\
    walk G (rev p) v /\ hd_error p = Some s /\ hd_error (rev p) = Some g /\ NoDup p /\ forall w, walk_from G g s w -> v <= w.
Proof.
  intros GOK CON Ns Ng NE W. unfold zGraphSearchAStar. destruct (Nat.eqb_spec s g); [tauto|].
  destruct (find_some G s) as (ls & Es & _); [apply GOK|auto|]. destruct (find_some G g) as (lg & Eg & _); [apply GOK|auto|].
  rewrite Es, Eg. cbn [fst].
  match goal with |- context [search _ _ _ _ ?x] => set (st0 := x) end.
  destruct (search_ok G (fun n => h n s) s g GOK CON (S (length G)) st0 []) as (st & done & E & I & HD & v & Ev & MIN); auto.
  - subst st0. constructor; cbn [val hval gto yet zGraphNodeListAdd existsb app s0 RealS].
    + constructor; auto. constructor.
    + intros x [<-|[]]. auto.
    + intros x [<-|[]]. exists 0. unfold fset. rewrite Nat.eqb_refl. rewrite Rplus_0_l. repeat split. lra.
    + intros x Nx. unfold fset. destruct (Nat.eqb_spec x g) as [->|]; auto. exfalso; apply Nx; cbn; auto.
    + split. { cbn; auto. } unfold fset. now rewrite Nat.eqb_refl.
    + intros x y vx vy [].
    + intros x w. unfold fset. destruct (Nat.eqb_spec x g); auto. discriminate.
    + intros [|? ?] x l2; discriminate.
    + intros x y c ([] & _).
  - cbn. lia.
  - change (search _ G _ s st0) with (search (S (length G)) G (fun n => h n s) s st0). rewrite E. cbn [bind].
    assert (ND : NoDup done). { assert (H := i_nd _ _ _ _ _ _ I). now apply NoDup_app_remove_r in H. }
    destruct (walk_back_ok G g st done) with (n := s) (v := v) (fuel := length G) (acc := @nil nat) as (p & E1 & H2 & H3 & H4 & H5 & H6); auto.
    + apply (i_ord _ _ _ _ _ _ I).
    + intros x w Ix Ew. destruct (i_par _ _ _ _ _ _ I x w Ew) as [|(m & vm & c & ? & ? & ? & ? & ?)]; auto. right. exists m, vm, c. auto.
    + apply (i_g _ _ _ _ _ _ I).
    + destruct done; [discriminate|]. inversion HD. cbn; auto.
    + rewrite <- (map_length fst G). apply NoDup_incl_length; auto. intros x Ix. apply (i_node _ _ _ _ _ _ I). apply in_or_app; auto.
    + rewrite E1. cbn [bind app]. rewrite Ev. exists v, p, (gto st). repeat split; auto.
Qed.

(** ** construction *)
Lemma in_nodes G x : node G x <-> exists l, In (x, l) G.
Proof.
  unfold node. rewrite in_map_iff. split.
  - intros ([y l] & <- & I). exists l. exact I.
  - intros (l & I). exists (x, l). auto.
Qed.
Lemma connect_fst G a b c : map fst (zGraphNodeConnect (T := R) G a b c) = map fst G.
Proof. induction G as [|n G IH]; cbn [zGraphNodeConnect map]; auto. destruct (Nat.eqb (fst n) a); cbn [map fst]; congruence. Qed.
Lemma arc_set_in l b c y d : NoDup (map fst l) -> (In (y, d) (arc_set (T := R) l b c) <-> (y = b /\ d = c \/ y <> b /\ In (y, d) l)).
Proof.
  induction l as [|[z e] l IH]; cbn [arc_set map]; intros ND.
  - cbn. intuition congruence.
  - inversion ND; subst. cbn [fst]. destruct (Nat.eqb_spec z b) as [->|N]; cbn [In].
    + assert (In (y, d) l -> y <> b). { intros J ->. apply H1. apply in_map_iff. exists (b, d). auto. } intuition congruence.
    + rewrite IH by auto. intuition congruence.
Qed.
Lemma arc_set_fst l b c x : In x (map fst (arc_set (T := R) l b c)) -> x = b \/ In x (map fst l).
Proof.
  induction l as [|[z e] l IH]; cbn [arc_set map]. { cbn. intuition auto. }
  cbn [fst]. destruct (Nat.eqb_spec z b) as [->|N]; cbn [map In fst]; intros [|J]; auto. destruct (IH J); auto.
Qed.
Lemma arc_set_nodup l b c : NoDup (map fst l) -> NoDup (map fst (arc_set (T := R) l b c)).
Proof.
  induction l as [|[z e] l IH]; cbn [arc_set map fst]; intros ND. { constructor; auto. }
  destruct (Nat.eqb_spec z b) as [->|N]; cbn [map fst]; auto. inversion ND; subst. constructor; auto.
  intros J. apply arc_set_fst in J as [|]; tauto.
Qed.
Lemma connect_in G a b c x l : NoDup (map fst G) ->
  In (x, l) (zGraphNodeConnect (T := R) G a b c) <-> (x <> a /\ In (x, l) G \/ x = a /\ exists l0, In (a, l0) G /\ l = arc_set l0 b c).
Proof.
  induction G as [|[z e] G IH]; cbn [zGraphNodeConnect map fst]; intros ND.
  - cbn. split; [tauto|]. intros [|(_ & l0 & [] & _)]; tauto.
  - inversion ND; subst. destruct (Nat.eqb_spec z a) as [->|N]; cbn [In fst snd].
    + assert (forall l, In (a, l) G -> False). { intros l' J. apply H1. apply in_map_iff. exists (a, l'). auto. }
      split.
      * intros [E|J]. { inversion E; subst. right. split; auto. eauto. }
        left. destruct (Nat.eq_dec x a) as [->|]; [exfalso; eauto|auto].
      * intros [(NE & [E|J])|(-> & l0 & [E|J] & ->)]; auto. { congruence. } { inversion E; auto. } { exfalso; eauto. }
    + rewrite IH by auto. split.
      * intros [E|[(NE & J)|(-> & l0 & J & ->)]]. { inversion E; subst. auto. } { auto. } { right. split; auto. eauto. }
      * intros [(NE & [E|J])|(-> & l0 & [E|J] & ->)]; auto. { inversion E; subst. tauto. } right. right. split; auto. eauto.
Qed.
Lemma connect_arc G a b c x y d : NoDup (map fst G) -> (forall x l, In (x, l) G -> NoDup (map fst l)) -> node G a ->
  (arc (zGraphNodeConnect (T := R) G a b c) x y d <-> (x = a /\ y = b /\ d = c \/ ~ (x = a /\ y = b) /\ arc G x y d)).
Proof.
  intros ND NL Na. unfold arc. split.
  - intros (l & I & J). apply connect_in in I as [(NE & I)|(-> & l0 & I & ->)]; auto. { right. split; [tauto|eauto]. }
    apply arc_set_in in J as [(-> & ->)|(NE & J)]; eauto. right. split; [tauto|eauto].
  - intros [(-> & -> & ->)|(NE & l & I & J)].
    + apply in_nodes in Na as (l & I). exists (arc_set l b c). split. { apply connect_in; auto. right; eauto. } apply arc_set_in; eauto.
    + destruct (Nat.eq_dec x a) as [->|N].
      * exists (arc_set l b c). split. { apply connect_in; auto. right; eauto. } apply arc_set_in; eauto. right. split; auto.
      * exists l. split; auto. apply connect_in; auto.
Qed.
Lemma connect_ok G a b c : graph_ok G -> node G b -> graph_ok (zGraphNodeConnect (T := R) G a b c).
Proof.
  intros (N1 & N2 & N3) Nb. split; [|split].
  - now rewrite connect_fst.
  - intros x l I. apply connect_in in I as [(_ & I)|(-> & l0 & I & ->)]; eauto. apply arc_set_nodup. eauto.
  - intros x y d A. unfold node. rewrite connect_fst. destruct A as (l & I & J).
    apply connect_in in I as [(_ & I)|(-> & l0 & I & ->)]; auto. { apply (N3 x y d). exists l; auto. }
    apply arc_set_in in J as [(-> & ->)|(_ & J)]; eauto. apply (N3 a y d). exists l0; auto.
Qed.
Lemma connect_node G a b c x : node (zGraphNodeConnect (T := R) G a b c) x <-> node G x.
Proof. unfold node. now rewrite connect_fst. Qed.
Lemma add_arc (G : rgraph) d x y c : arc (G ++ [(d, [])]) x y c <-> arc G x y c.
Proof.
  unfold arc. split; intros (l & I & J); exists l; split; auto.
  - apply in_app_or in I as [|[E|[]]]; auto. inversion E; subst. destruct J.
  - apply in_or_app; auto.
Qed.
Lemma addnode_ok (G : rgraph) d : graph_ok G -> ~ node G d -> graph_ok (G ++ [(d, [])]).
Proof.
  intros (N1 & N2 & N3) Nd. split; [|split].
  - rewrite map_app. cbn. apply (Permutation_NoDup (l := d :: map fst G)). { apply Permutation_cons_append. } now constructor.
  - intros x l I. apply in_app_or in I as [I|[E|[]]]; eauto. inversion E; subst. cbn. constructor.
  - intros x y c A. rewrite add_arc in A. unfold node. rewrite map_app. apply in_or_app. left. eapply N3; eauto.
Qed.
Lemma find_dec G d : (exists n, zGraphFindNode (T := R) G d = Some n /\ node G d) \/ zGraphFindNode (T := R) G d = None /\ ~ node G d.
Proof.
  destruct (zGraphFindNode G d) as [n|] eqn:E; [left|right; split; auto; now apply find_none].
  exists n. split; auto. destruct (find_node _ _ _ E) as (<- & I). now apply in_map.
Qed.
