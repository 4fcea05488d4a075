(** Quadratures of a sampled signal and second-order solvers. *)
From Coq Require Import Reals Lra Lia Psatz.
From Coq Require Import FunctionalExtensionality.
From Coquelicot Require Import Coquelicot.
From Verif Require Import Prelude Prelude_Proofs Scalar RealLib Fmat Fmat_Proofs Pex_Spec Pex_Proofs
  Ode_Model Ode_Spec Ode_Proofs Ode2_Proofs.
Local Open Scope R_scope.

(** *** quadratures *)
Ltac req := match goal with |- @eq _ ?a ?b => change (@eq R a b) end.
Lemma RInt_prim (f G : R -> R) a b : (forall u, is_derive G u (f u)) -> (forall u, continuous f u) -> RInt f a b = G b - G a.
Proof.
  intros D C. apply is_RInt_unique.
  apply (is_RInt_derive (V:=R_CompleteNormedModule) G f a b); intros; auto.
Qed.
Lemma RInt_quad a b c t0 s e : RInt (fun u => a + b * (u - t0) + c * (u - t0) ^ 2) s e =
  a * (e - s) + b / 2 * ((e - t0) ^ 2 - (s - t0) ^ 2) + c / 3 * ((e - t0) ^ 3 - (s - t0) ^ 3).
Proof.
  rewrite (RInt_prim _ (fun u => a * (u - t0) + b / 2 * (u - t0) ^ 2 + c / 3 * (u - t0) ^ 3)).
  - req. field.
  - intros u. auto_derive; auto. field.
  - intros u. apply (ex_derive_continuous (fun u => a + b * (u - t0) + c * (u - t0) ^ 2)). auto_derive; auto.
Qed.
Definition run (upd : intg R -> R -> R -> intg R) (g : intg R) (l : list (R * R)) : intg R :=
  fold_left (fun g xh => upd g (fst xh) (snd xh)) l g.
Lemma rect_ok l : forall g t, ig_s (run zIntgRect g l) = ig_s g + stepI t (ig_x0 g) l.
Proof.
  induction l as [|[x h] l IH]; intros g t; cbn [run fold_left stepI fst snd].
  - ring.
  - change (fold_left _ l ?g0) with (run zIntgRect g0 l). rewrite (IH _ (t + h)). cbn [zIntgRect ig_s ig_x0].
    rs. rewrite (RInt_const (V:=R_CompleteNormedModule)). change (scal ?a ?b) with (a * b). ring.
Qed.
Lemma RInt_line t x x1 h : h <> 0 -> RInt (line t x (t + h) x1) t (t + h) = (x + x1) / 2 * h.
Proof.
  intros H. unfold line.
  rewrite (RInt_ext _ (fun u => x + (x1 - x) / h * (u - t) + 0 * (u - t) ^ 2)).
  - rewrite RInt_quad. req. field. auto.
  - intros u _. req. field. repeat split; auto; intros E; apply H; lra.
Qed.
Lemma tr_ok l : forall g t, Forall (fun xh => snd xh <> 0) l -> ig_s (run zIntgTR g l) = ig_s g + lineI t (ig_x0 g) l.
Proof.
  induction l as [|[x h] l IH]; intros g t F; cbn [run fold_left lineI fst snd].
  - ring.
  - inversion F as [|? ? F1 F2]; subst. cbn in F1.
    change (fold_left _ l ?g0) with (run zIntgTR g0 l). rewrite (IH _ (t + h) F2). cbn [zIntgTR ig_s ig_x0]. rs.
    rewrite RInt_line by auto. req. field.
Qed.
Lemma RInt_parab t k x0 x x1 h : k <> 0 -> h <> 0 -> h + k <> 0 ->
  RInt (parab (t - k) x0 t x (t + h) x1) t (t + h) =
  (x * (h / (6 * k) + 1 / 2) + x1 * ((h / 3 + 1 / 2 * k) / (h + k)) + x0 * (- h * h / (6 * k * (h + k)))) * h.
Proof.
  intros K H HK. unfold parab. assert (HK' : k + h <> 0) by lra.
  rewrite (RInt_ext _ (fun u => x + (- x0 * h / (k * (k + h)) + x * (k - h) / (- k * h) * 1 + x1 * k / ((k + h) * h)) * (u - t)
     + (x0 / (k * (k + h)) - x / (k * h) + x1 / ((h + k) * h)) * (u - t) ^ 2)).
  - rewrite RInt_quad. req. field. repeat split; auto; lra.
  - intros u _. req. field. repeat split; auto; lra.
Qed.
Lemma quad_tail l : forall g t, 0 < ig__dt g -> Forall (fun xh => 0 < snd xh) l ->
  ig_s (run zIntgQuad g l) = ig_s g + parabI (t - ig__dt g) (ig__x g) t (ig_x0 g) l.
Proof.
  induction l as [|[x h] l IH]; intros g t K F; cbn [run fold_left parabI fst snd].
  - ring.
  - inversion F as [|? ? F1 F2]; subst. cbn in F1.
    change (fold_left _ l ?g0) with (run zIntgQuad g0 l).
    assert (E : zIntgQuad g x h = Intg (ig_s g + RInt (parab (t - ig__dt g) (ig__x g) t (ig_x0 g) (t + h) x) t (t + h)) x h (ig_x0 g)).
    { unfold zIntgQuad. cbn [seq RealS s0]. destruct (Reqb_spec (ig__dt g) 0) as [E|_]; [lra|].
      f_equal. f_equal. rewrite RInt_parab by lra. rs. req. field. lra. }
    rewrite E, (IH _ (t + h)); cbn [ig_s ig_x0 ig__dt ig__x]; auto.
    replace (t + h - h) with t by ring. ring.
Qed.
Lemma quad_ok s0 x0 x1 h1 l t : 0 < h1 -> Forall (fun xh => 0 < snd xh) l ->
  ig_s (run zIntgQuad (zIntgInit s0 x0) ((x1, h1) :: l)) =
  s0 + RInt (line t x0 (t + h1) x1) t (t + h1) + parabI t x0 (t + h1) x1 l.
Proof.
  intros H F. cbn [run fold_left fst snd]. change (fold_left _ l ?g0) with (run zIntgQuad g0 l).
  assert (E : zIntgQuad (zIntgInit s0 x0) x1 h1 = Intg (s0 + (x0 + x1) / 2 * h1) x1 h1 x0).
  { unfold zIntgQuad. cbn. destruct (Reqb_spec 0 0) as [_|E]; [|lra]. unfold zIntgTR. cbn. f_equal. field. }
  rewrite E, (quad_tail _ _ (t + h1)) by auto. cbn [ig_s ig_x0 ig__dt ig__x].
  rewrite RInt_line by lra. replace (t + h1 - h1) with t by ring. reflexivity.
Qed.
(** exactness on polynomials *)
Definition quadf (a b c u : R) : R := a + b * u + c * u ^ 2.
Lemma RInt_quadf a b c s e : RInt (quadf a b c) s e = a * (e - s) + b / 2 * (e ^ 2 - s ^ 2) + c / 3 * (e ^ 3 - s ^ 3).
Proof.
  unfold quadf. rewrite (RInt_ext _ (fun u => a + b * (u - 0) + c * (u - 0) ^ 2)) by (intros; req; ring).
  rewrite RInt_quad. req. field.
Qed.
Lemma parab_quad a b c t0 t1 t2 u : t0 <> t1 -> t1 <> t2 -> t0 <> t2 ->
  parab t0 (quadf a b c t0) t1 (quadf a b c t1) t2 (quadf a b c t2) u = quadf a b c u.
Proof. intros. unfold parab, quadf. field. repeat split; lra. Qed.
Lemma parabI_quad a b c hs : forall t0 t, t0 < t -> Forall (fun h => 0 < h) hs ->
  parabI t0 (quadf a b c t0) t (quadf a b c t) (sample (quadf a b c) t hs) = RInt (quadf a b c) t (t + hsum hs).
Proof.
  induction hs as [|h hs IH]; intros t0 t L F; cbn [sample parabI hsum].
  - rewrite RInt_quadf. req. ring.
  - inversion F; subst. rewrite IH by (auto; lra).
    rewrite (RInt_ext _ (quadf a b c)) by (intros; apply parab_quad; lra).
    rewrite !RInt_quadf. req. field.
Qed.
Lemma sample_Forall (P : R -> Prop) F hs : forall t, Forall P hs -> Forall (fun xh => P (snd xh)) (sample F t hs).
Proof. induction hs; intros t H; cbn; constructor; inversion H; auto. Qed.
Lemma quad_poly a b c s0 t h1 hs : 0 < h1 -> Forall (fun h => 0 < h) hs ->
  ig_s (run zIntgQuad (zIntgInit s0 (quadf a b c t)) (sample (quadf a b c) t (h1 :: hs))) =
  s0 + RInt (quadf a b c) t (t + hsum (h1 :: hs)) + c * h1 ^ 3 / 6.
Proof.
  intros H F. cbn [sample]. rewrite (quad_ok _ _ _ _ _ t) by (auto using sample_Forall).
  rewrite parabI_quad by (auto; lra). cbn [hsum]. rewrite RInt_line by lra. rewrite !RInt_quadf. unfold quadf. req. field.
Qed.
Lemma lineI_affine a b hs : forall t, Forall (fun h => h <> 0) hs ->
  lineI t (a + b * t) (sample (fun u => a + b * u) t hs) = RInt (fun u => a + b * u) t (t + hsum hs).
Proof.
  assert (Q : forall s e, RInt (fun u => a + b * u) s e = RInt (quadf a b 0) s e).
  { intros. apply RInt_ext. intros. unfold quadf. req. ring. }
  induction hs as [|h hs IH]; intros t F; cbn [sample lineI hsum].
  - rewrite Q, RInt_quadf. req. ring.
  - inversion F; subst. rewrite IH by auto. rewrite RInt_line by auto. rewrite !Q, !RInt_quadf. req. field.
Qed.

(** *** second-order equations *)
Definition accel (n : nat) (f : fvec R -> nat -> R) : R -> fvec R -> fvec R -> fvec R := fun _ x _ => FV n (f x).
Definition sympl f dt (xv : fvec R * fvec R) := zODE2UpdateSymplectic f dcat dcat 0 (fst xv) (snd xv) dt.
(** n updates; [t] advances but an autonomous [f] does not see it *)
Fixpoint sympl_run f (k : nat) (t : R) (xv : fvec R * fvec R) (dt : R) : fvec R * fvec R :=
  match k with
  | O => xv
  | S k => sympl_run f k (t + dt) (zODE2UpdateSymplectic f dcat dcat t (fst xv) (snd xv) dt) dt
  end.
Fixpoint leap_run f (k : nat) (w : fvec R) (t : R) (xv : fvec R * fvec R) (dt : R) : fvec R * (fvec R * fvec R) :=
  match k with
  | O => (w, xv)
  | S k => let '(w, x, v) := zODE2UpdateLeapfrog f dcat dcat w t (fst xv) (snd xv) dt in leap_run f k w (t + dt) (x, v) dt
  end.
Lemma sympl_const n a k : forall t (x v : fvec R) dt,
  let '(x', v') := sympl_run (accel n (fun _ => a)) k t (x, v) dt in
  forall i, vel v' i = vel v i + INR k * dt * a i /\
            vel x' i = vel x i + INR k * dt * vel v i + INR k * (INR k + 1) / 2 * dt ^ 2 * a i.
Proof.
  induction k; intros t x v dt; cbn [sympl_run].
  - intros i. cbn [INR]. split; field.
  - unfold zODE2UpdateSymplectic. cbv zeta. cbn [fst snd].
    match goal with |- context [sympl_run _ k _ (?x1, ?v1) _] => specialize (IHk (t + dt) x1 v1 dt) end.
    destruct (sympl_run _ k _ _ _) as [x' v']. intros i. destruct (IHk i) as (E1 & E2). rewrite E1, E2.
    cbn [accel dcat vel]. rs. rewrite S_INR. split; field.
Qed.
Lemma leap_const n a k : forall t (w x v : fvec R) dt,
  let '(w', (x', v')) := leap_run (accel n (fun _ => a)) (S k) w t (x, v) dt in
  forall i, vel w' i = vel w i + INR (S k) * dt * a i /\
            vel v' i = vel w i + INR (S k) * dt * a i + dt / 2 * a i /\
            vel x' i = vel x i + INR (S k) * dt * vel w i + INR (S k) * (INR (S k) + 1) / 2 * dt ^ 2 * a i.
Proof.
  induction k; intros t w x v dt.
  - cbn [leap_run zODE2UpdateLeapfrog fst snd]. intros i. cbn. repeat split; field.
  - remember (S k) as m. cbn [leap_run]. unfold zODE2UpdateLeapfrog. cbv zeta. cbn [fst snd].
    match goal with |- context [leap_run _ m ?w1 _ (?x1, ?v1) _] => specialize (IHk (t + dt) w1 x1 v1 dt) end.
    rs.
    destruct (leap_run _ m _ _ _ _) as [w' [x' v']]. intros i. destruct (IHk i) as (E1 & E2 & E3). rewrite E1, E2, E3.
    cbn [accel dcat vel]. rs. rewrite (S_INR m). repeat split; field.
Qed.

(** *** symplecticity *)
Definition shiftv (x : fvec R) (s : R) (xi : nat -> R) : fvec R := FV (vlen x) (fun i => vel x i + s * xi i).
Definition omega (n : nat) (x1 v1 x2 v2 : nat -> R) : R := rsum n (fun i => x1 i * v2 i - x2 i * v1 i).
Lemma sympl_form n (f : fvec R -> nat -> R) (H : nat -> nat -> R) t (x v : fvec R) dt :
  (forall xi i, (i < n)%nat -> is_derive (fun s => f (shiftv x s xi) i) 0 (rsum n (fun j => H i j * xi j))) ->
  (forall i j, H i j = H j i) ->
  exists D : (nat -> R) -> (nat -> R) -> (nat -> R) * (nat -> R),
    (forall xi eta i, (i < n)%nat ->
       is_derive (fun s => vel (fst (zODE2UpdateSymplectic (accel n f) dcat dcat t (shiftv x s xi) (shiftv v s eta) dt)) i) 0 (fst (D xi eta) i) /\
       is_derive (fun s => vel (snd (zODE2UpdateSymplectic (accel n f) dcat dcat t (shiftv x s xi) (shiftv v s eta) dt)) i) 0 (snd (D xi eta) i)) /\
    forall x1 v1 x2 v2, omega n (fst (D x1 v1)) (snd (D x1 v1)) (fst (D x2 v2)) (snd (D x2 v2)) = omega n x1 v1 x2 v2.
Proof.
  intros HD HS.
  set (ev := fun (xi eta : nat -> R) i => eta i + rsum n (fun j => H i j * xi j) * dt).
  exists (fun xi eta => (fun i => xi i + ev xi eta i * dt, ev xi eta)). cbn [fst snd]. split.
  - intros xi eta i Hi.
    assert (DV : is_derive (fun s => vel v i + s * eta i + f (shiftv x s xi) i * dt) 0 (ev xi eta i)).
    { unfold ev. specialize (HD xi i Hi).
      apply (is_derive_plus (V:=R_NormedModule) (fun s => vel v i + s * eta i) (fun s => f (shiftv x s xi) i * dt)).
      - auto_derive; auto. ring.
      - apply (is_derive_ext (fun s => dt * f (shiftv x s xi) i)). { intros; req; ring. }
        replace (rsum n (fun j => H i j * xi j) * dt) with (dt * rsum n (fun j => H i j * xi j)) by ring.
        apply (is_derive_scal (fun s => f (shiftv x s xi) i) 0 dt). exact HD. }
    split; [|exact DV].
    change (is_derive (fun s => vel x i + s * xi i + (vel v i + s * eta i + f (shiftv x s xi) i * dt) * dt) 0 (xi i + ev xi eta i * dt)).
    apply (is_derive_plus (V:=R_NormedModule) (fun s => vel x i + s * xi i)).
    + auto_derive; auto. ring.
    + apply (is_derive_ext (fun s => dt * (vel v i + s * eta i + f (shiftv x s xi) i * dt))). { intros; req; ring. }
      rewrite (Rmult_comm (ev xi eta i)).
      apply (is_derive_scal (fun s => vel v i + s * eta i + f (shiftv x s xi) i * dt) 0 dt). exact DV.
  - intros x1 v1 x2 v2. unfold omega.
    rewrite (rsum_ext n _ (fun i => (x1 i * v2 i - x2 i * v1 i) +
       (rsum n (fun j => dt * (x1 i * H i j * x2 j)) - rsum n (fun j => dt * (x2 i * H i j * x1 j))))).
    + rewrite rsum_add, !rsum_sub. rewrite (rsum_swap n n (fun i j => dt * (x2 i * H i j * x1 j))).
      replace (rsum n (fun i => rsum n (fun j => dt * (x1 i * H i j * x2 j))))
        with (rsum n (fun j => rsum n (fun i => dt * (x2 i * H i j * x1 j)))); [ring|].
      apply rsum_ext. intros i Hi. apply rsum_ext. intros j Hj. rewrite (HS j i). ring.
    + intros i Hi. unfold ev.
      rewrite (rsum_ext n (fun j => dt * (x1 i * H i j * x2 j)) (fun j => (dt * x1 i) * (H i j * x2 j))) by (intros; ring).
      rewrite (rsum_ext n (fun j => dt * (x2 i * H i j * x1 j)) (fun j => (dt * x2 i) * (H i j * x1 j))) by (intros; ring).
      rewrite !rsum_scal. ring.
Qed.
Lemma leap_sympl n f w t x v dt :
  let '(w', x', v') := zODE2UpdateLeapfrog (accel n f) dcat dcat w t x v dt in
  (x', w') = zODE2UpdateSymplectic (accel n f) dcat dcat t x w dt /\ v' = dcat w' (1 / 2 * dt) (FV n (f x')).
Proof. cbn. split; reflexivity. Qed.

(** *** reversibility *)
Definition veq2 n (z1 z2 : fvec R * fvec R) : Prop := veq n (fst z1) (fst z2) /\ veq n (snd z1) (snd z2).
Definition flip (dt : R) (z : fvec R * fvec R) : fvec R * fvec R := (dcat (fst z) (- dt) (snd z), dmul (snd z) (-1)).
Section Rev.
  Variables (n : nat) (f : fvec R -> nat -> R) (dt : R).
  Hypothesis Hf : forall x y, veq n x y -> forall i, (i < n)%nat -> f x i = f y i.
  Let F := accel n f.
  Let Phi z := zODE2UpdateSymplectic F dcat dcat 0 (fst z) (snd z) dt.
  Lemma veq2_trans z1 z2 z3 : veq2 n z1 z2 -> veq2 n z2 z3 -> veq2 n z1 z3.
  Proof. intros (A & B) (C & D). split; intros i Hi; [rewrite A, C|rewrite B, D]; auto. Qed.
  Lemma Phi_veq z1 z2 : veq2 n z1 z2 -> veq2 n (Phi z1) (Phi z2).
  Proof.
    intros (A & B). split; intros i Hi; cbn; rewrite ?A, ?B, (Hf _ _ A) by auto; reflexivity.
  Qed.
  Lemma Phi_rev z : veq2 n (Phi (flip dt (Phi z))) (flip dt z).
  Proof.
    assert (A : veq n (fst (flip dt (Phi z))) (fst z)). { intros i Hi. cbn. ring. }
    split; intros i Hi; cbn; rewrite (Hf _ _ A) by auto; ring.
  Qed.
  Lemma run_S k : forall t z, sympl_run F (S k) t z dt = Phi (sympl_run F k t z dt).
  Proof.
    induction k; intros t z; [reflexivity|].
    change (sympl_run F (S (S k)) t z dt) with (sympl_run F (S k) (t + dt) (Phi z) dt).
    rewrite IHk. reflexivity.
  Qed.
  Lemma run_veq k : forall t t' z1 z2, veq2 n z1 z2 -> veq2 n (sympl_run F k t z1 dt) (sympl_run F k t' z2 dt).
  Proof. induction k; intros t t' z1 z2 H; [exact H|]. rewrite !run_S. apply Phi_veq. auto. Qed.
  Lemma run_rev k : forall t t' z, veq2 n (sympl_run F k t' (flip dt (sympl_run F k t z dt)) dt) (flip dt z).
  Proof.
    induction k; intros t t' z; [split; intros i Hi; reflexivity|].
    change (sympl_run F (S k) t z dt) with (sympl_run F k (t + dt) (Phi z) dt).
    rewrite run_S. eapply veq2_trans; [apply Phi_veq, IHk|]. apply Phi_rev.
  Qed.
End Rev.

(** *** regular solvers *)
Lemma div2 n : ((n + n) / 2 = n)%nat. Proof. replace (n + n)%nat with (n * 2)%nat by lia. apply Nat.div_mul. lia. Qed.
Lemma cat_eq n (y dy : fvec R) dt : vlen y = (n + n)%nat -> vlen dy = (n + n)%nat -> _zODE2Cat dcat dcat y dt dy = dcat y dt dy.
Proof.
  intros L1 L2. unfold _zODE2Cat, join, dcat, lo, hi. cbn [vlen vel]. rewrite L1, L2, div2. f_equal.
  apply functional_extensionality. intros i. destruct (Nat.ltb_spec i n); [reflexivity|].
  replace (i - n + n)%nat with i by lia. reflexivity.
Qed.
Lemma sub_eq n (y dy : fvec R) : vlen y = (n + n)%nat -> vlen dy = (n + n)%nat -> _zODE2Sub dsub dsub y dy = dsub y dy.
Proof.
  intros L1 L2. unfold _zODE2Sub, join, dsub, lo, hi. cbn [vlen vel]. rewrite L1, L2, div2. f_equal.
  apply functional_extensionality. intros i. destruct (Nat.ltb_spec i n); [reflexivity|].
  replace (i - n + n)%nat with i by lia. reflexivity.
Qed.
Section Reg.
  Variables (n : nat) (f : R -> fvec R -> fvec R -> fvec R).
  Hypothesis Lf : forall t x v, vlen (f t x v) = n.
  Let F := _zODE2RegularFunc f.
  Lemma LF t y : vlen y = (n + n)%nat -> vlen (F t y) = (n + n)%nat.
  Proof. intros L. cbn [F _zODE2RegularFunc lo hi join vlen vel]. unfold F, _zODE2RegularFunc. cbn [lo hi join vlen vel]. rewrite Lf, L, div2. reflexivity. Qed.
  Lemma Lcat (y dy : fvec R) k : vlen y = (n + n)%nat -> vlen (dcat y k dy) = (n + n)%nat.
  Proof. auto. Qed.
  Lemma Lmul (y : fvec R) k : vlen y = (n + n)%nat -> vlen (dmul y k) = (n + n)%nat.
  Proof. auto. Qed.
  Lemma LC (y dy : fvec R) k : vlen y = (n + n)%nat -> vlen (_zODE2Cat dcat dcat y k dy) = (n + n)%nat.
  Proof. intros L. unfold _zODE2Cat. cbn [lo hi join dcat vlen vel]. rewrite L, div2. reflexivity. Qed.
  Ltac ce := repeat (rewrite (cat_eq n) by (auto 40 using LF, Lcat, Lmul, LC)).
  Lemma reg_euler t y dt : vlen y = (n + n)%nat -> zODEUpdateEuler F (_zODE2Cat dcat dcat) t y dt = zODEUpdateEuler F dcat t y dt.
  Proof. intros L. unfold zODEUpdateEuler. ce. reflexivity. Qed.
  Lemma reg_heun t y dt : vlen y = (n + n)%nat -> zODEUpdateHeun F (_zODE2Cat dcat dcat) t y dt = zODEUpdateHeun F dcat t y dt.
  Proof. intros L. unfold zODEUpdateHeun. cbv zeta. ce. reflexivity. Qed.
  Lemma reg_rk4 t y dt : vlen y = (n + n)%nat -> zODEUpdateRK4 F (_zODE2Cat dcat dcat) t y dt = zODEUpdateRK4 F dcat t y dt.
  Proof. intros L. unfold zODEUpdateRK4. cbv zeta. ce. reflexivity. Qed.
  Lemma reg_rkg t y dt : vlen y = (n + n)%nat ->
    zODEUpdateRKG F (_zODE2Cat dcat dcat) dcat dmul t y dt = zODEUpdateRKG F dcat dcat dmul t y dt.
  Proof. intros L. unfold zODEUpdateRKG. cbv zeta. ce. reflexivity. Qed.
End Reg.
Lemma lo_join n (x v : fvec R) : vlen x = n -> vlen v = n -> veq n (lo (join x v)) x /\ vlen (lo (join x v)) = n.
Proof.
  intros L1 L2. split; [|cbn [lo hi join vlen vel]; rewrite L1, L2; apply div2]. intros i Hi. cbn [lo hi join vlen vel]. rewrite L1. destruct (Nat.ltb_spec i n); [auto|lia].
Qed.
Lemma hi_join n (x v : fvec R) : vlen x = n -> vlen v = n -> veq n (hi (join x v)) v /\ vlen (hi (join x v)) = n.
Proof.
  intros L1 L2. split; [|cbn [lo hi join vlen vel]; rewrite L1, L2; apply div2]. intros i Hi. cbn [lo hi join vlen vel]. rewrite L1, L2, div2.
  destruct (Nat.ltb_spec (i + n) n); [lia|]. f_equal. lia.
Qed.
Lemma join_lohi n (y : fvec R) : vlen y = (n + n)%nat -> join (lo y) (hi y) = y.
Proof.
  intros L. destruct y as [m g]. cbn in L. subst m. unfold join, lo, hi. cbn [vlen vel]. rewrite div2. f_equal.
  apply functional_extensionality. intros i. destruct (Nat.ltb_spec i n); [reflexivity|]. f_equal. lia.
Qed.
