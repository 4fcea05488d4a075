(** Proofs about the quadratures and the explicit solvers of Ode_Model. *)
From Coq Require Import Reals Lra Lia Psatz.
From Coquelicot Require Import Coquelicot.
From Verif Require Import Prelude Prelude_Proofs Scalar RealLib Fmat Fmat_Proofs Pex_Spec Pex_Proofs Ode_Model Ode_Spec.
Local Open Scope R_scope.

Lemma tab_stages a b c : stages (tab_of a b c) = length b. Proof. reflexivity. Qed.

Ltac idx j := destruct j as [|j]; [| try (exfalso; cbn in *; lia)].
Ltac unr := cbn [rsum tab_of stages ta tb tc length nth].

Lemma euler_rk n f t x dt : ext_rhs n f -> rk_step n f tabEuler t x dt (zODEUpdateEuler f dcat t x dt).
Proof.
  intros E. exists (fun j => f t x). split.
  - intros j Hj. cbn in Hj. idx j.
    unfold tabEuler. unr. replace (t + 0 * dt) with t by ring. apply E. intros i Hi. cbn. ring.
  - intros i Hi. unfold tabEuler. unr. unfold zODEUpdateEuler, dcat. cbn. ring.
Qed.
Lemma heun_rk n f t x dt : ext_rhs n f -> rk_step n f tabHeun3 t x dt (zODEUpdateHeun f dcat t x dt).
Proof.
  intros E.
  set (k0 := f t x). set (k1 := f (t + dt / 3) (dcat x (dt / 3) k0)).
  set (k2 := f (t + dt * 2 / 3) (dcat x (dt * 2 / 3) k1)).
  exists (fun j => match j with O => k0 | S O => k1 | _ => k2 end). split.
  - intros j Hj. unfold tabHeun3 in *. cbn in Hj.
    idx j; [|idx j; [|idx j]]; unr.
    + replace (t + 0 * dt) with t by ring. apply E. intros i Hi. cbn. ring.
    + replace (t + 1 / 3 * dt) with (t + dt / 3) by field. apply E. intros i Hi. cbn. field.
    + replace (t + 2 / 3 * dt) with (t + dt * 2 / 3) by field. apply E. intros i Hi. cbn. field.
  - intros i Hi. unfold tabHeun3. unr. 
    change (zODEUpdateHeun f dcat t x dt) with (dcat (dcat x (1 / 4 * dt) k0) (3 / 4 * dt) k2). cbn. field.
Qed.
Lemma rk4_rk n f t x dt : ext_rhs n f -> rk_step n f tabRK4 t x dt (zODEUpdateRK4 f dcat t x dt).
Proof.
  intros E.
  set (h := dt * (1 / 2)).
  set (k0 := f t x). set (k1 := f (t + h) (dcat x h k0)).
  set (k2 := f (t + h) (dcat x h k1)). set (k3 := f (t + dt) (dcat x dt k2)).
  exists (fun j => match j with O => k0 | S O => k1 | S (S O) => k2 | _ => k3 end). split.
  - intros j Hj. unfold tabRK4 in *. cbn in Hj.
    idx j; [|idx j; [|idx j; [|idx j]]]; unr.
    + replace (t + 0 * dt) with t by ring. apply E. intros i Hi. cbn. ring.
    + replace (t + 1 / 2 * dt) with (t + h) by (unfold h; field). apply E. intros i Hi. cbn. unfold h. field.
    + replace (t + 1 / 2 * dt) with (t + h) by (unfold h; field). apply E. intros i Hi. cbn. unfold h. field.
    + replace (t + 1 * dt) with (t + dt) by field. apply E. intros i Hi. cbn. field.
  - intros i Hi. unfold tabRK4. unr. 
    change (zODEUpdateRK4 f dcat t x dt)
      with (dcat (dcat (dcat (dcat x (dt / 6) k0) (dt / 6 * 2) k1) (dt / 6 * 2) k2) (dt / 6) k3). cbn. field.
Qed.
Lemma sqrt2_sq : R_sqrt.sqrt 2 * R_sqrt.sqrt 2 = 2. Proof. apply sqrt_sqrt. lra. Qed.
Lemma rkg_rk n f t x dt : ext_rhs n f -> rk_step n f tabGill t x dt (zODEUpdateRKG f dcat dcat dmul t x dt).
Proof.
  intros E. unfold zODEUpdateRKG. cbn [sofZ RealS sadd smul ssub sdiv sopp s1 ssqrt].
  pose proof sqrt2_sq as Q. set (s := R_sqrt.sqrt 2) in *. cbv zeta.
  set (h := 1 / 2 * dt).
  set (k0 := f t x). set (x1 := dcat x h k0). set (k1 := f (t + h) x1).
  set (x2 := dcat (dcat x1 _ k1) _ k0). set (k2 := f (t + h) x2).
  set (x3 := dcat (dcat x2 _ k2) _ _). set (k3 := f (t + dt) x3).
  exists (fun j => match j with O => k0 | S O => k1 | S (S O) => k2 | _ => k3 end). split.
  - intros j Hj. unfold tabGill in *. fold s in Hj. fold s. cbn in Hj.
    idx j; [|idx j; [|idx j; [|idx j]]]; unr.
    + replace (t + 0 * dt) with t by ring. apply E. intros i Hi. cbn. ring.
    + replace (t + 1 / 2 * dt) with (t + h) by (unfold h; field). apply E. intros i Hi. cbn. unfold h. field.
    + replace (t + 1 / 2 * dt) with (t + h) by (unfold h; field). apply E. intros i Hi. cbn. unfold h. field.
    + replace (t + 1 * dt) with (t + dt) by field. apply E. intros i Hi. cbn. unfold h.
      field [Q].
  - intros i Hi. unfold tabGill. fold s. unr. cbn. unfold h. fold k3. field [Q].
Qed.

(** *** embedded methods *)
Definition tri (i : nat) : nat := (i * (i - 1) / 2)%nat.
Lemma tri_S i : tri (S i) = (tri i + i)%nat.
Proof.
  unfold tri. replace (S i * (S i - 1))%nat with (i * (i - 1) + i * 2)%nat.
  - rewrite Nat.div_add by lia. lia.
  - destruct i; [reflexivity|]. cbn [Nat.sub]. rewrite ?Nat.sub_0_r. lia.
Qed.
(** the flat arrays [a], [c] of the code hold the tableau [m] *)
Definition holds (m : tableau) (a c : list R) : Prop :=
  length a = tri (stages m) /\ length c = (stages m - 1)%nat /\ (1 <= stages m)%nat /\
  (forall i j, (i < stages m)%nat -> (j < i)%nat -> nth (tri i + j) a 0 = ta m i j) /\
  (forall i j, (i < stages m)%nat -> (i <= j)%nat -> (j < stages m)%nat -> ta m i j = 0) /\
  tc m 0 = 0 /\ (forall i, (1 <= i < stages m)%nat -> nth (i - 1) c 0 = tc m i).
Definition holdsb (m : tableau) (b : list R) : Prop :=
  length b = stages m /\ forall i, (i < stages m)%nat -> nth i b 0 = tb m i.

Lemma get_nth_R (l : list R) i d : (i < length l)%nat -> get l i = Ok (nth i l d).
Proof. intros H. apply get_ok. exact H. Qed.
Lemma get_nth_A {A} (l : list A) i d : (i < length l)%nat -> get l i = Ok (nth i l d).
Proof. intros H. apply get_ok. exact H. Qed.
Lemma rsum_cut n m g : (m <= n)%nat -> (forall i, (m <= i < n)%nat -> g i = 0) -> rsum n g = rsum m g.
Proof.
  intros H Z. induction n.
  - replace m with 0%nat by lia. reflexivity.
  - destruct (Nat.eq_dec m (S n)) as [->|]; [reflexivity|].
    cbn. rewrite Z by lia. rewrite IHn; [ring|lia|]. intros; apply Z; lia.
Qed.
Lemma tri_lt i s : (i < s)%nat -> (tri i + i <= tri s)%nat.
Proof.
  intros H. induction s; [lia|].
  rewrite tri_S. destruct (Nat.eq_dec i s) as [->|]; [lia|]. assert (i < s)%nat by lia. specialize (IHs H0). lia.
Qed.

Definition dv : fvec R := FV 0 (fun _ => 0).
Lemma erk_stages_ok n f m a c t x dt : ext_rhs n f -> holds m a c ->
  exists ks, erk_stages f dcat (stages m) a c t x dt = Ok ks /\ length ks = stages m /\
    forall j, (j < stages m)%nat ->
       veq n (nth j ks dv) (f (t + tc m j * dt)
          (FV n (fun i => vel x i + dt * rsum (stages m) (fun l => ta m j l * vel (nth l ks dv) i)))).
Proof.
  intros E (La & Lc & S1 & HA & HZ & C0 & HC).
  unfold erk_stages.
  set (P := fun i (st : list (fvec R) * nat) => length (fst st) = i /\ snd st = tri i /\
     forall j, (j < i)%nat ->
       veq n (nth j (fst st) dv) (f (t + tc m j * dt)
          (FV n (fun i => vel x i + dt * rsum j (fun l => ta m j l * vel (nth l (fst st) dv) i))))).
  match goal with |- context [for_ 1 (stages m) ?g ?s] => destruct (for_inv P 1 (stages m) g s) as (st & E1 & P1) end.
  - exact S1.
  - split; [reflexivity|split; [reflexivity|]]. intros j Hj. replace j with 0%nat by lia. cbn.
    replace (t + tc m 0 * dt) with t by (rewrite C0; ring). apply E. intros i Hi. cbn. ring.
  - intros i [ks l] Hi (L & TL & H). cbn [fst snd] in *. subst l.
    set (Q := fun j (xl : fvec R * nat) => snd xl = (tri i + j)%nat /\
       forall r, vel (fst xl) r = vel x r + dt * rsum j (fun l => ta m i l * vel (nth l ks dv) r)).
    match goal with |- context [for_ 0 i ?g ?s] => destruct (for_inv Q 0 i g s) as ([xc l] & E2 & Q2) end.
    + lia.
    + split; [cbn; lia|]. intros r. cbn. ring.
    + intros j [xc l] Hj (El & Hx). cbn [fst snd] in *. subst l.
      pose proof (tri_lt i (stages m) ltac:(lia)).
      rewrite (get_nth_R a _ 0) by lia. rewrite (get_nth_A ks j dv) by lia. cbn [bind].
      eexists. split; [reflexivity|]. split; [cbn; lia|].
      intros r. cbn [fst dcat vel rsum]. rewrite Hx, HA by lia. cbn. ring.
    + destruct Q2 as (El & Hx). cbn [fst snd] in *.
      eexists. rewrite E2. cbn [bind]. rewrite (get_nth_R c _ 0) by lia. cbn [bind].
      split; [reflexivity|].
      unfold P; cbn [fst snd]. rewrite app_length. cbn [length]. split; [lia|]. split; [rewrite tri_S; lia|].
      intros j Hj. destruct (Nat.eq_dec j i) as [->|].
      * rewrite app_nth2 by lia. rewrite L, Nat.sub_diag. cbn [nth].
        cbn [sadd smul RealS]. rewrite HC by lia. apply E. intros r Hr. cbn [vel]. rewrite Hx. f_equal. f_equal.
        apply rsum_ext. intros q Hq. rewrite app_nth1 by lia. reflexivity.
      * rewrite app_nth1 by lia. intros r Hr. rewrite (H j ltac:(lia) r Hr). apply E; [|exact Hr].
        intros r' Hr'. cbn [vel]. f_equal. f_equal.
        apply rsum_ext. intros q Hq. rewrite app_nth1 by lia. reflexivity.
  - rewrite E1. destruct st as [ks l]. destruct P1 as (L & _ & H). cbn [fst snd bind] in *.
    exists ks. split; [reflexivity|split; [exact L|]]. intros j Hj.
    intros r Hr. rewrite (H j Hj r Hr). apply E; [|exact Hr]. intros r' Hr'. cbn [vel]. f_equal. f_equal.
    symmetry. apply rsum_cut; [lia|]. intros q Hq. rewrite HZ by lia. ring.
Qed.
Lemma erk_sum_ok m b ks x dt : holdsb m b -> length ks = stages m ->
  exists y, erk_sum dcat (stages m) b ks x dt = Ok y /\ vlen y = vlen x /\
    forall i, vel y i = vel x i + dt * rsum (stages m) (fun j => tb m j * vel (nth j ks dv) i).
Proof.
  intros (Lb & HB) Lk. unfold erk_sum.
  set (P := fun j (y : fvec R) => vlen y = vlen x /\ forall i, vel y i = vel x i + dt * rsum j (fun j => tb m j * vel (nth j ks dv) i)).
  match goal with |- context [for_ 0 (stages m) ?g ?s] => destruct (for_inv P 0 (stages m) g s) as (y & E1 & P1) end.
  - lia.
  - split; [reflexivity|]. intros i. cbn. ring.
  - intros j y Hj (L & H). rewrite (get_nth_R b _ 0) by lia. rewrite (get_nth_A ks j dv) by lia. cbn [bind].
    eexists. split; [reflexivity|]. split; [exact L|]. intros i. cbn [dcat vel rsum]. rewrite H, HB by lia. cbn. ring.
  - exists y. split; [exact E1|]. exact P1.
Qed.
Lemma holds_weights m b a c : holds m a c -> holds (Tab (stages m) (ta m) b (tc m)) a c.
Proof. intros H. exact H. Qed.

(** consecutive accepted steps *)
Inductive chain (n : nat) (f : R -> fvec R -> fvec R) (fine coarse : tableau) :
    list (R * R) -> fvec R -> fvec R -> Prop :=
| chain_nil x : chain n f fine coarse [] x x
| chain_cons u h x y l z :
    rk_step n f fine u x h y ->
    (h <= 1 / 100000000 \/
     exists yc, rk_step n f coarse u x h yc /\
       R_sqrt.sqrt (rsum n (fun i => (vel yc i - vel y i) ^ 2)) <= 1 / 1000000) ->
    chain n f fine coarse l y z -> chain n f fine coarse ((u, h) :: l) x z.
Lemma chain_app n f fi co l1 l2 x y z : chain n f fi co l1 x y -> chain n f fi co l2 y z -> chain n f fi co (l1 ++ l2) x z.
Proof. induction 1; cbn; intros; auto. econstructor; eauto. Qed.
Lemma covers_app t l1 t1 l2 t2 : covers t l1 t1 -> covers t1 l2 t2 -> covers t (l1 ++ l2) t2.
Proof.
  revert t. induction l1 as [|[u h] l1 IH]; cbn; intros t H1 H2.
  - subst; auto.
  - destruct H1 as [-> H1]. split; eauto.
Qed.
Lemma dsum_R n g : dsum n g = rsum n g.
Proof. induction n; [reflexivity|]. cbn. rewrite IHn. reflexivity. Qed.

Lemma Rltb_t x y : Rltb x y = true -> x < y.
Proof. destruct (Rltb_spec x y); congruence || auto. Qed.
Lemma Rltb_f x y : Rltb x y = false -> y <= x.
Proof. destruct (Rltb_spec x y); [congruence|lra]. Qed.

Lemma erk_S (f : R -> fvec R -> fvec R) fuel s a bc bf c t x dt :
  _zODEUpdateERK f dcat ddist (S fuel) s a bc bf c t x dt =
  (ks <- erk_stages f dcat s a c t x dt ;;
   xc <- erk_sum dcat s bc ks x dt ;;
   xf <- erk_sum dcat s bf ks x dt ;;
   if Rltb (1 / 100000000) dt && Rltb (1 / 1000000) (ddist xc xf) then
     x <- _zODEUpdateERK f dcat ddist fuel s a bc bf c t x (dt * (1 / 2)) ;;
     _zODEUpdateERK f dcat ddist fuel s a bc bf c (t + dt * (1 / 2)) x (dt * (1 / 2))
   else Ok xf).
Proof. reflexivity. Qed.
Lemma erk_ok n f fine coarse a c bf bc (Ef : ext_rhs n f) (Hf : holds fine a c) (Hc : holds coarse a c)
    (Hbf : holdsb fine bf) (Hbc : holdsb coarse bc)
    (Es : stages coarse = stages fine) :
  forall fuel t x dt, vlen x = n -> dt <= 1 / 100000000 * 2 ^ fuel ->
  exists x' l, _zODEUpdateERK f dcat ddist (S fuel) (stages fine) a bc bf c t x dt = Ok x' /\ vlen x' = n /\
    chain n f fine coarse l x x' /\ covers t l (t + dt) /\
    Forall (fun uh => exists k, (k <= fuel)%nat /\ snd uh = dt / 2 ^ k) l.
Proof.
  induction fuel; intros t x dt L Hdt.
  all: rewrite erk_S;
    destruct (erk_stages_ok n f fine a c t x dt Ef Hf) as (ks & E1 & Lk & HK); rewrite E1; cbn [bind];
    destruct (erk_sum_ok coarse bc ks x dt Hbc ltac:(lia)) as (xc & E2 & Lc & HXc); rewrite Es in E2; rewrite E2; cbn [bind];
    destruct (erk_sum_ok fine bf ks x dt Hbf Lk) as (xf & E3 & Lf & HXf); rewrite E3; cbn [bind].
  all: destruct (Rltb (1 / 100000000) dt) eqn:T1; cbn [andb].
  - exfalso. apply Rltb_t in T1. cbn in Hdt. lra.
  - exists xf, [(t, dt)]. split; [reflexivity|]. split; [lia|]. split; [|split; [cbn; auto|]].
    + econstructor; [exists (fun j => nth j ks dv); split; [exact HK|]; intros i _; apply HXf| |constructor].
      left. apply Rltb_f in T1. lra.
    + constructor; [|constructor]. exists 0%nat. cbn. split; [lia|field].
  - destruct (Rltb (1 / 1000000) (ddist xc xf)) eqn:T2; cbn [andb].
    + destruct (IHfuel t x (dt * (1 / 2)) L) as (x1 & l1 & F1 & L1 & C1 & V1 & A1).
      { cbn in Hdt. lra. }
      rewrite F1. cbn [bind].
      destruct (IHfuel (t + dt * (1 / 2)) x1 (dt * (1 / 2)) L1) as (x2 & l2 & F2 & L2 & C2 & V2 & A2).
      { cbn in Hdt. lra. }
      rewrite F2.
      exists x2, (l1 ++ l2). split; [reflexivity|]. split; [exact L2|]. split; [eapply chain_app; eauto|].
      split.
      { eapply covers_app; eauto. replace (t + dt) with (t + dt * (1 / 2) + dt * (1 / 2)) by field. exact V2. }
      rewrite Forall_forall in *. intros uh Hin. apply in_app_or in Hin.
      assert (HH : exists k, (k <= fuel)%nat /\ snd uh = dt * (1 / 2) / 2 ^ k) by (destruct Hin; auto).
      destruct HH as (k & Hk & HE); exists (S k); split; [lia|]; rewrite HE; cbn; field; apply pow_nonzero; lra.
    + exists xf, [(t, dt)]. split; [reflexivity|]. split; [lia|]. split; [|split; [cbn; auto|]].
      * econstructor; [exists (fun j => nth j ks dv); split; [exact HK|]; intros i _; apply HXf| |constructor].
        right. exists xc. split.
        { exists (fun j => nth j ks dv). split; [|intros i _; apply HXc].
          destruct (erk_stages_ok n f coarse a c t x dt Ef Hc) as (ks' & E1' & Lk' & HK').
          rewrite Es in E1'. rewrite E1 in E1'. injection E1' as <-. exact HK'. }
        apply Rltb_f in T2. unfold ddist in T2. rewrite dsum_R in T2.
        cbn in T2. rewrite Lc, L in T2. erewrite rsum_ext; [apply T2|]. intros; cbn; ring.
      * constructor; [|constructor]. exists 0%nat. cbn. split; [lia|field].
  - exists xf, [(t, dt)]. split; [reflexivity|]. split; [lia|]. split; [|split; [cbn; auto|]].
    + econstructor; [exists (fun j => nth j ks dv); split; [exact HK|]; intros i _; apply HXf| |constructor].
      left. apply Rltb_f in T1. lra.
    + constructor; [|constructor]. exists 0%nat. cbn. split; [lia|field].
Qed.
