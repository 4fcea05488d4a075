(** Lemma for C105: the error of a central difference. *)
From Coq Require Import Reals Lra Lia.
From Coquelicot Require Import Coquelicot.
Local Open Scope R_scope.

Lemma central_error (phi : R -> R) e M : 0 < e -> (forall t k, (k <= 3)%nat -> ex_derive_n phi k t) ->
  (forall t, - e <= t <= e -> Rabs (Derive_n phi 3 t) <= M) -> Rabs ((phi e - phi (- e)) / (2 * e) - Derive phi 0) <= M * (e * e) / 6.
Proof.
  intros E D B.
  assert (Lo : forall x k, (k <= 3)%nat -> locally (- x) (fun y => forall j, (j <= k)%nat -> ex_derive_n phi j y)).
  { intros x k Hk. exists (mkposreal _ E). intros y _ j Hj. apply D. lia. }
  destruct (Taylor_Lagrange phi 2 0 e E) as (z1 & Z1 & T1); [intros t Ht k Hk; apply D; auto; lra|].
  destruct (Taylor_Lagrange (fun t => phi (- t)) 2 0 e E) as (z2 & Z2 & T2).
  { intros t Ht k Hk. apply ex_derive_n_comp_opp. apply Lo. lia. }
  cbn [sum_f_R0] in T1, T2.
  rewrite (Derive_n_comp_opp phi 0 0), (Derive_n_comp_opp phi 1 0), (Derive_n_comp_opp phi 2 0), (Derive_n_comp_opp phi 3 z2) in T2 by (apply Lo; lia).
  rewrite !Ropp_0 in T2.
  assert (B1 := B z1 ltac:(lra)). assert (B2 := B (- z2) ltac:(lra)).
  change (Derive phi 0) with (Derive_n phi 1 0). set (d0 := Derive_n phi 0 0) in *. set (d1 := Derive_n phi 1 0) in *. set (d2 := Derive_n phi 2 0) in *.
  set (u := Derive_n phi 3 z1) in *. set (w := Derive_n phi 3 (- z2)) in *. clearbody d0 d1 d2 u w.
  rewrite T1, T2. simpl (INR (Factorial.fact _)).
  match goal with |- Rabs ?x <= _ => replace x with (e * e / 12 * (u + w)) end.
  2:{ simpl. field. lra. }
  assert (0 <= e * e) by (apply Rle_0_sqr). rewrite Rabs_mult, (Rabs_pos_eq (e * e / 12)) by lra.
  pose proof (Rabs_triang u w). replace (M * (e * e) / 6) with (e * e / 12 * (M + M)) by field. apply Rmult_le_compat_l; lra.
Qed.
