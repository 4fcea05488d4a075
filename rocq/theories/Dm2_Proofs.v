(** Lemmas for C104 and C105: the quasi-Newton updates and the numerical gradient and Hessian. *)
From Coq Require Import Reals Lra Lia.
From Verif Require Import Prelude Prelude_Proofs Scalar RealLib Fmat Fmat_Proofs IP_Model IP_Proofs Vop Qp_Spec Qp_Proofs Asm_Model Asm_Proofs Dm_Model Dm_Spec Dm_Proofs.
Local Open Scope R_scope.

(** ** the updates *)
Section Upd.
  Variable n : nat.
  Lemma dfp_ok (s : @dm R) : sizes n s -> exists s', _zOptDMUpdateDFP s = Ok s' /\ sizes n s' /\ dg s' = dg s /\ dp s' = dp s /\ dq s' = dq s /\ dd s' = dd s /\
    forall i j, (i < n)%nat -> (j < n)%nat -> el (dh s') i j = bfgs n (el (dh s)) (vel (dp s)) (vel (dq s)) i j.
  Proof.
    intros [z1 z2 z3 z4 z5 z6 z7 z8]. unfold _zOptDMUpdateDFP, zMatCatDyadNC.
    destruct (mulmv_R (dh s) (dq s) (dr s)) as (r0 & -> & L0 & V0); try congruence. cbn [bind].
    destruct (store_ok r0) as [L V]. set (r := store r0) in *. clearbody r. rewrite L0 in *. rewrite z5, z6 in *.
    assert (VV : forall i, (i < n)%nat -> vel r i = mulv n (el (dh s)) (vel (dq s)) i) by (intros i Hi; rewrite V by lia; apply V0; lia). clear V V0. rename VV into V.
    rewrite ?ksum_R. rewrite z7, z8, z4, L. do 4 (rewrite ?Nat.leb_refl; cbn [andb bind nr nc]).
    match goal with |- context [mstore ?m] => destruct (mstore_ok m) as (M1 & M2 & M3); set (h := mstore m) in *; clearbody h end. cbn [nr nc el] in *.
    eexists. split; [reflexivity|]. cbn [dg dp dq dd dh]. conjs; auto.
    - constructor; cbn [dx dd dg dp dq dr dh]; congruence.
    - intros i j Hi Hj. rewrite M3 by lia. destruct (Nat.ltb_spec i n); [|lia]. destruct (Nat.ltb_spec j n); [|lia]. cbn [andb].
      rewrite !V by lia.
      match goal with |- context [rsum n ?f] => match f with context [vel r] => replace (rsum n f) with (dot n (vel (dq s)) (mulv n (el (dh s)) (vel (dq s)))) end end.
      2:{ apply rsum_ext. intros k Hk. rewrite V by lia. cbn [smul RealS]. ring. }
      match goal with |- context [rsum n ?f] => replace (rsum n f) with (dot n (vel (dp s)) (vel (dq s))) by reflexivity end.
      unfold bfgs. cbn [sadd smul sdiv sopp s1 RealS]. unfold Rdiv. ring.
  Qed.
  Lemma bfgs_ok (s : @dm R) : sizes n s -> exists s', _zOptDMUpdateBFGS s = Ok s' /\ sizes n s' /\ dg s' = dg s /\ dp s' = dp s /\ dq s' = dq s /\ dd s' = dd s /\
    forall i j, (i < n)%nat -> (j < n)%nat -> el (dh s') i j = bfgs n (el (dh s)) (vel (dp s)) (vel (dq s)) i j.
  Proof.
    intros [z1 z2 z3 z4 z5 z6 z7 z8]. unfold _zOptDMUpdateBFGS.
    destruct (mulmv_R (dh s) (dq s) (dr s)) as (r0 & -> & L0 & V0); try congruence. cbn [bind].
    destruct (store_ok r0) as [L V]. set (r := store r0) in *. clearbody r. rewrite L0 in *. rewrite z5, z6 in *.
    assert (VV : forall i, (i < n)%nat -> vel r i = mulv n (el (dh s)) (vel (dq s)) i) by (intros i Hi; rewrite V by lia; apply V0; lia). clear V V0. rename VV into V.
    rewrite !ksum_R. rewrite z4.
    set (k := sdiv s1 _). set (l := sadd _ s1). set (F := fun i j => el (dh s) i j + (l * vel (dp s) i * vel (dp s) j - vel r i * vel (dp s) j - vel r j * vel (dp s) i) * k).
    match goal with |- context [for_ 0 n ?f (dh s)] => destruct (for_inv (fun m h => nr h = n /\ nc h = n /\ forall i j, (i < n)%nat -> (j < n)%nat -> el h i j = if (i <? m)%nat then F i j else el (dh s) i j) 0 n f (dh s)) as (h1 & -> & N1 & N2 & E) end.
    - lia.
    - conjs; auto. 
    - intros i h Hi (N1 & N2 & E). rewrite !vget_ok by lia. cbn [bind].
      match goal with |- context [for_ 0 n ?f h] => destruct (for_inv (fun m h' => nr h' = n /\ nc h' = n /\ forall a j, (a < n)%nat -> (j < n)%nat -> el h' a j = if (a =? i)%nat && (j <? m)%nat then F a j else el h a j) 0 n f h) as (h2 & -> & N3 & N4 & E2) end.
      + lia.
      + conjs; auto. intros a j _ _. destruct (a =? i)%nat; auto.
      + intros j h' Hj (N3 & N4 & E2). rewrite !vget_ok by lia. cbn [bind]. rewrite mmod_ok, mset_ok by lia. eexists. split; [reflexivity|]. cbn [nr nc el]. conjs; auto.
        intros a b Ha Hb. rewrite !E2 by lia. destruct (Nat.eqb_spec a i) as [->|]; cbn [andb].
        * destruct (Nat.eqb_spec b j) as [->|].
          -- destruct (Nat.ltb_spec j (S j)); [|lia]. destruct (Nat.ltb_spec j j); [lia|]. rewrite E by lia. destruct (Nat.ltb_spec i i); [lia|]. rewrite Nat.eqb_refl. reflexivity.
          -- rewrite ?Nat.eqb_refl. cbn [andb]. destruct (Nat.ltb_spec b j), (Nat.ltb_spec b (S j)); auto; lia.
        * reflexivity.
      + eexists. split; [reflexivity|]. conjs; auto. intros a j Ha Hj. rewrite E2 by auto. rewrite E by auto.
        destruct (Nat.eqb_spec a i) as [->|].
        * destruct (Nat.ltb_spec j n); [|lia]. cbn [andb]. destruct (Nat.ltb_spec i (S i)); [auto|lia].
        * cbn [andb]. destruct (Nat.ltb_spec a i), (Nat.ltb_spec a (S i)); auto; lia.
    - cbn [bind]. destruct (mstore_ok h1) as (M1 & M2 & M3). set (h := mstore h1) in *. clearbody h.
      eexists. split; [reflexivity|]. cbn [dg dp dq dd dh]. conjs; auto.
      + constructor; cbn [dx dd dg dp dq dr dh]; congruence.
      + intros i j Hi Hj. rewrite M3 by lia. rewrite E by auto. destruct (Nat.ltb_spec i n); [|lia]. unfold F. rewrite !V by lia.
        replace l with (dot n (vel (dq s)) (mulv n (el (dh s)) (vel (dq s))) * k + 1).
        2:{ unfold l. cbn [sadd smul s1 RealS]. f_equal. f_equal. apply rsum_ext. intros a Ha. rewrite V by lia. reflexivity. }
        replace k with (/ dot n (vel (dp s)) (vel (dq s))). 2:{ unfold k. cbn [sdiv s1 RealS]. unfold Rdiv. rewrite Rmult_1_l. reflexivity. }
        unfold bfgs, Rdiv. ring.
  Qed.
End Upd.

(** ** the BFGS formula *)
Lemma zero_or (w : nat -> R) m : (exists j, (j < m)%nat /\ w j <> 0) \/ forall j, (j < m)%nat -> w j = 0.
Proof.
  induction m as [|m [(j & Hj & W)|IH]]; [right; intros; lia|left; exists j; auto|].
  destruct (Req_dec (w m) 0) as [E|E]; [right|left; exists m; auto]. intros j Hj. destruct (Nat.eq_dec j m) as [->|]; auto. apply IH; lia.
Qed.
Section Bfgs.
  Variables (n : nat) (H : nat -> nat -> R) (p q : nat -> R).
  Hypothesis SY : symmetric n H.
  Hypothesis PQ : dot n p q <> 0.
  Local Notation k := (dot n p q).
  Local Notation r := (mulv n H q).
  Local Notation t := (dot n q (mulv n H q)).
  Lemma bfgs_sym : symmetric n (bfgs n H p q).
  Proof. intros i j Hi Hj. unfold bfgs. rewrite (SY i j) by auto. unfold Rdiv. ring. Qed.
  Lemma bfgs_mulv v i : mulv n (bfgs n H p q) v i = mulv n H v i + (1 + t / k) * (dot n p v / k) * p i - (dot n r v / k) * p i - (dot n p v / k) * r i.
  Proof.
    unfold mulv at 1. rewrite (rsum_ext n _ (fun j => H i j * v j + (((1 + t / k) * (p i / k)) * (p j * v j) + (- (p i / k)) * (r j * v j) + (- (r i / k)) * (p j * v j)))).
    2:{ intros j Hj. unfold bfgs, Rdiv. ring. }
    rewrite rsum_add, rsum_add, rsum_add, !rsum_scal. unfold dot at 6. fold (mulv n H v i). unfold dot, mulv, Rdiv. ring.
  Qed.
  Lemma bfgs_secant i : mulv n (bfgs n H p q) q i = p i.
  Proof. rewrite bfgs_mulv. rewrite (dot_sym n r q). replace (mulv n H q i) with (r i) by reflexivity. field. auto. Qed.
  (** v'H'v = w'Hw + (p.v)^2/k with w = v - (p.v/k) q *)
  Lemma bfgs_form v : dot n v (mulv n (bfgs n H p q) v) =
    dot n (fun i => v i + (- (dot n p v / k)) * q i) (mulv n H (fun i => v i + (- (dot n p v / k)) * q i)) + dot n p v * dot n p v / k.
  Proof.
    rewrite (form_sq n H SY). rewrite (dot_ext n v v _ (fun i => (mulv n H v i + (- (dot n p v / k)) * r i) + ((1 + t / k) * (dot n p v / k) - dot n r v / k) * p i)); auto.
    2:{ intros i Hi. rewrite bfgs_mulv. ring. }
    rewrite !dot_lin. rewrite (form_sym n H SY v q). rewrite (dot_sym n v p), (dot_sym n r v). rewrite (form_sym n H SY q v). field. auto.
  Qed.
  Lemma bfgs_pd : pos_def n H -> 0 < k -> pos_def n (bfgs n H p q).
  Proof.
    intros PD K v (i & Hi & Vi). rewrite bfgs_form. set (w := fun i => v i + (- (dot n p v / k)) * q i).
    assert (D : (exists j, (j < n)%nat /\ w j <> 0) \/ forall j, (j < n)%nat -> w j = 0).
    { apply zero_or. }
    assert (Q2 : 0 <= dot n p v * dot n p v / k). { apply Rmult_le_pos; [apply Rle_0_sqr|]. left. apply Rinv_0_lt_compat. auto. }
    destruct D as [D|D].
    - specialize (PD w D). lra.
    - assert (E : dot n w (mulv n H w) = 0). { apply rsum_0. intros j Hj. rewrite D by auto. ring. }
      rewrite E. assert (dot n p v <> 0).
      { intros C. specialize (D i Hi). unfold w in D. rewrite C in D. unfold Rdiv in D. rewrite Rmult_0_l in D. lra. }
      assert (0 < dot n p v * dot n p v) by nra. assert (0 < dot n p v * dot n p v / k) by (apply Rdiv_lt_0_compat; auto). lra.
  Qed.
End Bfgs.

(** ** the numerical gradient *)
Section Num.
  Variables (eval : fvec R -> R) (eps : R) (n : nat).
  Hypothesis E0 : eps <> 0.
  Hypothesis RE : respects n eval.
  Lemma grad_ng_ok var g : vlen var = n -> vlen g = n -> exists var' g', _zOptDMGradNG eps eval var g = Ok (var', g') /\
    vlen var' = n /\ (forall i, (i < n)%nat -> vel var' i = vel var i) /\ vlen g' = n /\ forall i, (i < n)%nat -> vel g' i = central eval eps var i.
  Proof.
    intros Lv Lg. unfold _zOptDMGradNG. rewrite Lv.
    match goal with |- context [for_ 0 n ?f ?s] => destruct (for_inv (fun m w => vlen (fst w) = n /\ (forall i, (i < n)%nat -> vel (fst w) i = vel var i) /\ vlen (snd w) = n /\ forall i, (i < m)%nat -> vel (snd w) i = central eval eps var i) 0 n f s) as ([v1 g1] & -> & A & B & C & D) end.
    - lia.
    - cbn [fst snd]. conjs; auto. intros; lia.
    - intros i [v b] Hi (A & B & C & D). cbn [fst snd] in *. rewrite vget_ok by lia. cbn [bind]. rewrite vset_ok by lia. cbn [bind]. rewrite vset_ok by (cbn [vlen]; lia). cbn [bind].
      rewrite vset_ok by lia. cbn [bind]. rewrite vset_ok by (cbn [vlen]; lia). cbn [bind]. eexists. split; [reflexivity|]. cbn [fst snd vlen vel]. conjs; auto.
      + intros j Hj. destruct (Nat.eqb_spec j i) as [->|]; auto.
      + intros j Hj. destruct (Nat.eqb_spec j i) as [->|]; [|apply D; lia]. unfold central. cbn [sadd ssub smul sdiv sofZ RealS].
        rewrite (RE (FV (vlen v) _) (bumped var i eps)); [| cbn [vlen]; lia|unfold bumped; cbn [vlen]; lia|].
        2:{ intros j Hj'. unfold bumped. cbn [vel]. destruct (Nat.eqb_spec j i) as [->|]; rewrite B by auto; reflexivity. }
        match goal with |- context [_ - eval ?x] => rewrite (RE x (bumped var i (- eps))) end; [| cbn [vlen]; lia|unfold bumped; cbn [vlen]; lia|].
        2:{ intros j Hj'. unfold bumped. cbn [vel]. destruct (Nat.eqb_spec j i) as [->|]; rewrite B by auto; lra. }
        field. auto.
    - exists v1, g1. cbn [fst snd] in *. conjs; auto.
  Qed.
  (** exact for a quadratic objective *)
  Lemma central_quad Q c k x i : vlen x = n -> (i < n)%nat -> symmetric n Q -> (forall y, vlen y = n -> eval y = quad n Q c (vel y) + k) ->
    central eval eps x i = mulv n Q (vel x) i + c i.
  Proof.
    intros Lx Hi SY EQ. unfold central. rewrite !EQ by (unfold bumped; auto).
    set (e := fun j => if (j =? i)%nat then 1 else 0).
    assert (B : forall h, quad n Q c (vel (bumped x i h)) = quad n Q c (fun j => vel x j + h * e j)).
    { intros h. apply quad_ext; auto. intros j Hj. unfold bumped, e. cbn [vel]. destruct (j =? i)%nat; ring. }
    assert (DE : forall u, dot n e u = u i).
    { intros u. unfold dot, e. rewrite (rsum_delta n i _ Hi); [rewrite Nat.eqb_refl; ring|]. intros j Hj Hn. rewrite (proj2 (Nat.eqb_neq j i) Hn). ring. }
    rewrite !B, !(quad_step n Q SY). rewrite !DE.
    field. auto.
  Qed.
End Num.

(** ** the numerical Hessian *)
Section Hess.
  Variables (eval : fvec R -> R) (grad : option (fvec R -> fvec R)) (eps : R) (n : nat) (G : fvec R -> nat -> R).
  Hypothesis E0 : eps <> 0.
  Hypothesis HG : forall x b, vlen x = n -> vlen b = n -> exists r, _grad eps eval grad x b = Ok r /\ vlen r = n /\ forall i, (i < n)%nat -> vel r i = G x i.
  Hypothesis RG : forall j, (j < n)%nat -> respects n (fun x => G x j).
  Lemma hess_ng_ok var h : vlen var = n -> nr h = n -> nc h = n -> exists var' h', _zOptDMHessNG eps eval grad var h = Ok (var', h') /\
    vlen var' = n /\ (forall i, (i < n)%nat -> vel var' i = vel var i) /\ nr h' = n /\ nc h' = n /\
    forall i j, (i < n)%nat -> (j < n)%nat -> el h' i j = central (fun x => G x j) eps var i.
  Proof.
    intros Lv Hr Hc. unfold _zOptDMHessNG. rewrite Lv.
    match goal with |- context [for_ 0 n ?f ?s] => destruct (for_inv (fun m w => vlen (fst w) = n /\ (forall i, (i < n)%nat -> vel (fst w) i = vel var i) /\ nr (snd w) = n /\ nc (snd w) = n /\
      forall i j, (i < m)%nat -> (j < n)%nat -> el (snd w) i j = G (bumped var i eps) j - G (bumped var i (- eps)) j) 0 n f s) as ([v1 h1] & -> & A & B & C1 & C2 & D) end.
    - lia.
    - cbn [fst snd]. conjs; auto. intros; lia.
    - intros i [v b] Hi (A & B & C1 & C2 & D). cbn [fst snd] in *. rewrite vget_ok by lia. cbn [bind]. rewrite vset_ok by lia. cbn [bind vlen]. 
      match goal with |- context [_grad eps eval grad ?x ?y] => destruct (HG x y) as (g1 & -> & L1 & V1); [cbn; lia|cbn; lia|set (x1 := x) in *] end. cbn [bind].
      rewrite vset_ok by (cbn [vlen x1]; lia). cbn [bind]. 
      match goal with |- context [_grad eps eval grad ?x ?y] => destruct (HG x y) as (g2 & -> & L2 & V2); [cbn; lia|cbn; lia|set (x2 := x) in *] end. cbn [bind].
      assert (X1 : forall j, (j < n)%nat -> G x1 j = G (bumped var i eps) j).
      { intros j Hj. apply (RG j Hj); [cbn [vlen x1]; lia|unfold bumped; cbn [vlen]; lia|]. intros a Ha. unfold bumped, x1. cbn [vel]. destruct (Nat.eqb_spec a i) as [->|]; rewrite B by auto; reflexivity. }
      assert (X2 : forall j, (j < n)%nat -> G x2 j = G (bumped var i (- eps)) j).
      { intros j Hj. apply (RG j Hj); [cbn [vlen x1 x2]; lia|unfold bumped; cbn [vlen]; lia|]. intros a Ha. unfold bumped, x2, x1. cbn [vel]. destruct (Nat.eqb_spec a i) as [->|]; rewrite B by auto; [cbn [ssub RealS]; lra|reflexivity]. }
      rewrite C1. match goal with |- context [for_ 0 n ?f b] => destruct (for_inv (fun m h' => nr h' = n /\ nc h' = n /\ forall a j, (a < n)%nat -> (j < n)%nat -> el h' a j = if (a =? i)%nat && (j <? m)%nat then G (bumped var i eps) j - G (bumped var i (- eps)) j else el b a j) 0 n f b) as (b2 & -> & N1 & N2 & E2) end.
      + lia.
      + conjs; auto. intros a j _ _. destruct (a =? i)%nat; auto.
      + intros j h' Hj (N1 & N2 & E2). rewrite !vget_ok by lia. cbn [bind]. rewrite mset_ok by lia. eexists. split; [reflexivity|]. cbn [nr nc el]. conjs; auto.
        intros a c Ha Hcc. rewrite E2 by auto. destruct (Nat.eqb_spec a i) as [->|]; cbn [andb]; auto. destruct (Nat.eqb_spec c j) as [->|].
        * destruct (Nat.ltb_spec j (S j)); [|lia]. cbn [andb]. rewrite V1, V2, X1, X2 by auto. reflexivity.
        * cbn [andb]. destruct (Nat.ltb_spec c j), (Nat.ltb_spec c (S j)); auto; lia.
      + cbn [bind]. rewrite vset_ok by (cbn [vlen x2 x1]; lia). cbn [bind]. eexists. split; [reflexivity|]. cbn [fst snd vlen]. conjs; auto.
        * intros j Hj. unfold x2, x1. cbn [vel]. destruct (Nat.eqb_spec j i) as [->|]; auto.
        * intros a j Ha Hj. rewrite E2 by lia. destruct (Nat.eqb_spec a i) as [->|]; cbn [andb]; [destruct (Nat.ltb_spec j n); [auto|lia]|apply D; lia].
    - cbn [bind fst snd] in *. eexists _, _. split; [reflexivity|]. cbn [nr nc el]. conjs; auto. intros i j Hi Hj. rewrite D by auto. unfold central. cbn [smul sdiv sofZ RealS]. field. auto.
  Qed.
End Hess.
