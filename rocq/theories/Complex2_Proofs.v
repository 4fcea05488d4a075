(** Complex vectors, pairing of conjugates, polynomials with complex roots: proofs. *)
From Coq Require Import Reals Lra Permutation.
From Verif Require Import Prelude Prelude_Proofs Scalar RealLib Pex_Model Pex_Spec Pex_Proofs Complex_Model Complex_Spec Complex_Proofs.
From Coquelicot Require Import Coquelicot.
From Coq Require Import List.
Import ListNotations.
Local Open Scope list_scope.
Local Open Scope R_scope.

(** ** element-wise vector operations *)
Lemma cvloop_ok n f (m : cmem R) v F :
  (forall i m', (i < n)%nat -> (forall k, ~ (v <= k < v + i)%nat -> m' k = m k) -> stored m' (v + i) (F i) (f i m')) ->
  vstored m v n F (cvloop n f m).
Proof.
  unfold cvloop. induction n as [|n IH]; intros H.
  - intros k. destruct (Nat.leb_spec v k), (Nat.ltb_spec k (v + 0)); cbn [andb]; try lia; reflexivity.
  - rewrite seq_S, fold_left_app. cbn [fold_left Nat.add]. 
    assert (vstored m v n F (fold_left (fun m0 i => f i m0) (List.seq 0 n) m)) as V by (apply IH; auto).
    set (m1 := fold_left (fun m0 i => f i m0) (List.seq 0 n) m) in *.
    assert (stored m1 (v + n) (F n) (f n m1)) as ST.
    { apply H; auto. intros k Hk. rewrite V. destruct (Nat.leb_spec v k), (Nat.ltb_spec k (v + n)); cbn [andb]; try lia; auto. }
    intros k. rewrite ST, V. destruct (Nat.eqb_spec k (v + n)) as [->|N].
    + replace (v <=? v + n)%nat with true by lia. replace (v + n <? v + S n)%nat with true by lia. cbn [andb]. f_equal. lia.
    + destruct (Nat.leb_spec v k), (Nat.ltb_spec k (v + n)), (Nat.ltb_spec k (v + S n)); cbn [andb]; try lia; auto.
Qed.
(** the operand at w is not overwritten (by results stored from v on) before it is read *)
Definition ahead (v w n : nat) : Prop := (v <= w \/ w + n <= v)%nat.
Definition ahead1 (v w n : nat) : Prop := (v < w \/ w + n <= v)%nat.
Definition outside (z v n : nat) : Prop := (z < v \/ v + n <= z)%nat.
Lemma ahead_keep (m m' : cmem R) v w n i : ahead v w n -> (i < n)%nat ->
  (forall k, ~ (v <= k < v + i)%nat -> m' k = m k) -> m' (w + i)%nat = m (w + i)%nat.
Proof. intros A Hi H. apply H. unfold ahead in A. lia. Qed.
Ltac cvop := intros; apply cvloop_ok; intros i m' Hi Hm.
Lemma zCVecZero_ok (m : cmem R) v n : vstored m v n (fun _ => RtoC 0) (zCVecZero m v n).
Proof. cvop. now apply create_stored. Qed.
Lemma zCVecCopyNC_ok (m : cmem R) src dest n : ahead dest src n -> vstored m dest n (fun i => m (src + i)%nat) (zCVecCopyNC m src dest n).
Proof. cvop. rewrite <- (ahead_keep m m' dest src n i) by auto. apply wr_stored. Qed.
Lemma zCVecAddNC_ok (m : cmem R) v1 v2 v n : ahead v v1 n -> ahead v v2 n ->
  vstored m v n (fun i => Cplus (m (v1 + i)%nat) (m (v2 + i)%nat)) (zCVecAddNC m v1 v2 v n).
Proof. cvop. rewrite <- (ahead_keep m m' v v1 n i), <- (ahead_keep m m' v v2 n i) by auto. apply zComplexAdd_ok. Qed.
Lemma zCVecSubNC_ok (m : cmem R) v1 v2 v n : ahead v v1 n -> ahead v v2 n ->
  vstored m v n (fun i => Cminus (m (v1 + i)%nat) (m (v2 + i)%nat)) (zCVecSubNC m v1 v2 v n).
Proof. cvop. rewrite <- (ahead_keep m m' v v1 n i), <- (ahead_keep m m' v v2 n i) by auto. apply zComplexSub_ok. Qed.
Lemma zCVecRevNC_ok (m : cmem R) v1 v n : ahead v v1 n -> vstored m v n (fun i => Copp (m (v1 + i)%nat)) (zCVecRevNC m v1 v n).
Proof. cvop. rewrite <- (ahead_keep m m' v v1 n i) by auto. apply zComplexRev_ok. Qed.
Lemma zCVecMulNC_ok (m : cmem R) v1 k v n : ahead v v1 n ->
  vstored m v n (fun i => Cmult (m (v1 + i)%nat) (RtoC k)) (zCVecMulNC m v1 k v n).
Proof. cvop. rewrite <- (ahead_keep m m' v v1 n i) by auto. apply zComplexMul_ok. Qed.
Lemma zCVecDivNC_ok (m : cmem R) v1 k v n : k <> 0 -> ahead v v1 n ->
  vstored m v n (fun i => Cdiv (m (v1 + i)%nat) (RtoC k)) (zCVecDivNC m v1 k v n).
Proof.
  intros Hk. cvop. rewrite <- (ahead_keep m m' v v1 n i) by auto. unfold Cdiv. rewrite <- RtoC_inv by auto.
  rs. replace (1 / k) with (/ k) by (field; auto). apply zComplexMul_ok.
Qed.
Lemma zCVecCMulNC_ok (m : cmem R) v1 z v n : ahead1 v v1 n -> outside z v n ->
  vstored m v n (fun i => Cmult (m (v1 + i)%nat) (m z)) (zCVecCMulNC m v1 z v n).
Proof.
  cvop. unfold ahead1, outside in *.
  rewrite <- (ahead_keep m m' v v1 n i) by (auto; unfold ahead; lia). rewrite <- (Hm z) by lia.
  apply zComplexCMul_ok; lia.
Qed.
Lemma zCVecCDivNC_ok tol (m : cmem R) v1 z v n : 0 <= tol -> tol < Cmod (m z) * Cmod (m z) -> ahead1 v v1 n ->
  vstored m v n (fun i => Cdiv (m (v1 + i)%nat) (m z)) (zCVecCDivNC tol m v1 z v n).
Proof.
  intros Ht Hz A. unfold zCVecCDivNC. rewrite is_tol_R. rewrite <- sqrabs_Cmod in Hz.
  rewrite (Rabs_pos_eq (sqrabs (m z))) by apply sqrabs_nonneg. destruct (Rleb_spec (sqrabs (m z)) tol); [lra|].
  apply cvloop_ok. intros i m' Hi Hm. unfold ahead1 in A.
  rewrite <- (ahead_keep m m' v v1 n i) by (auto; unfold ahead; lia). unfold Cdiv. rewrite Cinv_eq by lra. apply create_stored; cbn; auto.
  unfold wr_re. replace (v1 + i =? v + i)%nat with false by lia. reflexivity.
Qed.
Lemma zCVecCatNC_ok (m : cmem R) v1 z v2 v n : ahead v v1 n -> ahead v v2 n -> outside z v n ->
  vstored m v n (fun i => Cplus (m (v1 + i)%nat) (Cmult (m (v2 + i)%nat) (m z))) (zCVecCatNC m v1 z v2 v n).
Proof.
  cvop. unfold outside in *. rewrite <- (ahead_keep m m' v v1 n i), <- (ahead_keep m m' v v2 n i) by auto. rewrite <- (Hm z) by lia.
  apply create_stored; auto. cbn. unfold wr_re. destruct (Nat.eqb_spec (v1 + i) (v + i)); reflexivity.
Qed.
Lemma zCVecInnerProd_ok (m : cmem R) v1 v2 n :
  zCVecInnerProd m v1 v2 n = csum n (fun i => Cmult (m (v1 + i)%nat) (Cconj (m (v2 + i)%nat))).
Proof.
  unfold zCVecInnerProd. induction n as [|n IH]; auto. rewrite seq_S, fold_left_app, IH. cbn [fold_left csum Nat.add].
  set (s := csum n _). ceq; rs; ring.
Qed.

(** ** pairing *)
Inductive paired (tol : R) : list C -> Prop :=
| paired_nil : paired tol []
| paired_cons x y w : coconj tol x y = true -> paired tol w -> paired tol (x :: y :: w).
Lemma upd_app {A} (l1 l2 : list A) a b : upd (l1 ++ a :: l2) (length l1) b = l1 ++ b :: l2.
Proof. induction l1; cbn; congruence. Qed.
Lemma get_app {A} (l1 l2 : list A) a : get (l1 ++ a :: l2) (length l1) = Ok a.
Proof. unfold get. rewrite nth_error_app2 by lia. now rewrite Nat.sub_diag. Qed.
Lemma set_app {A} (l1 l2 : list A) a b : set (l1 ++ a :: l2) (length l1) b = Ok (l1 ++ b :: l2).
Proof. rewrite set_ok by (rewrite app_length; cbn; lia). now rewrite upd_app. Qed.
Lemma find_conj_ok tol (pre rest : list C) x :
  (exists r1 y r2, rest = r1 ++ y :: r2 /\ coconj tol x y = true /\
     find_conj tol (pre ++ rest) x (length rest) (length pre) = Ok (Some (length pre + length r1)%nat)) \/
  (find_conj tol (pre ++ rest) x (length rest) (length pre) = Ok None /\ forall y, In y rest -> coconj tol x y = false).
Proof.
  revert pre; induction rest as [|a rest IH]; intros pre; cbn [length find_conj].
  - right. split; auto. intros y [].
  - rewrite get_app. cbn [bind]. destruct (coconj tol x a) eqn:E.
    + left. exists [], a, rest. cbn. rewrite Nat.add_0_r. auto.
    + specialize (IH (pre ++ (a :: nil))). rewrite <- app_assoc in IH. cbn [app] in IH. rewrite app_length in IH. cbn [length] in IH.
      replace (length pre + 1)%nat with (S (length pre)) in IH by lia.
      destruct IH as [(r1 & y & r2 & -> & H1 & H2)|(H1 & H2)].
      * left. exists (a :: r1), y, r2. split; auto. split; auto. rewrite H2. cbn. f_equal. f_equal. lia.
      * right. split; auto. intros y [->|Hy]; auto.
Qed.
Lemma pair_step tol (pre rest : list C) x : let v := pre ++ x :: rest in
  forall k : list C -> res (bool * list C),
  (exists y rest', Permutation rest (y :: rest') /\ coconj tol x y = true /\
     (r <- find_conj tol v x (length v - (length pre + 1)) (length pre + 1) ;;
      match r with
      | None => Ok (false, v)
      | Some j =>
          v <- (if (length pre + 1 <? j)%nat then a <- get v (length pre + 1) ;; b <- get v j ;; v <- set v (length pre + 1) b ;; set v j a else Ok v) ;;
          k v
      end) = k (pre ++ x :: y :: rest')) \/
  ((r <- find_conj tol v x (length v - (length pre + 1)) (length pre + 1) ;;
      match r with
      | None => Ok (false, v)
      | Some j =>
          v <- (if (length pre + 1 <? j)%nat then a <- get v (length pre + 1) ;; b <- get v j ;; v <- set v (length pre + 1) b ;; set v j a else Ok v) ;;
          k v
      end) = Ok (false, v) /\ forall y, In y rest -> coconj tol x y = false).
Proof.
  intros v k. unfold v. replace (length (pre ++ x :: rest) - (length pre + 1))%nat with (length rest) by (rewrite app_length; cbn; lia).
  replace (pre ++ x :: rest) with ((pre ++ (x :: nil)) ++ rest) by (now rewrite <- app_assoc).
  assert (length (pre ++ (x :: nil)) = length pre + 1)%nat as L by (rewrite app_length; cbn; lia). rewrite <- L.
  destruct (find_conj_ok tol (pre ++ (x :: nil)) rest x) as [(r1 & y & r2 & -> & H1 & H2)|(H1 & H2)].
  - left. rewrite H2. cbn [bind]. destruct r1 as [|a r1].
    + exists y, r2. split; [reflexivity|]. split; auto. cbn [length]. rewrite Nat.add_0_r, Nat.ltb_irrefl. cbn [bind app].
      now rewrite <- app_assoc.
    + exists y, (r1 ++ a :: r2). split.
      { cbn [app]. transitivity (a :: y :: r1 ++ r2); [apply perm_skip; symmetry; apply Permutation_middle|].
        transitivity (y :: a :: r1 ++ r2); [apply perm_swap|]. apply perm_skip. apply Permutation_middle. }
      split; auto. cbn [length]. replace (length (pre ++ (x :: nil)) <? length (pre ++ (x :: nil)) + S (length r1))%nat with true by lia.
      cbn [app]. rewrite get_app. cbn [bind].
      replace ((pre ++ (x :: nil)) ++ a :: r1 ++ y :: r2) with (((pre ++ (x :: nil)) ++ a :: r1) ++ y :: r2) by (now rewrite <- app_assoc).
      replace (length (pre ++ (x :: nil)) + S (length r1))%nat with (length ((pre ++ (x :: nil)) ++ a :: r1)) by (rewrite app_length; cbn; lia).
      rewrite get_app. cbn [bind]. rewrite <- (app_assoc (pre ++ (x :: nil))). cbn [app]. rewrite set_app. cbn [bind].
      replace ((pre ++ (x :: nil)) ++ y :: r1 ++ y :: r2) with (((pre ++ (x :: nil)) ++ y :: r1) ++ y :: r2) by (now rewrite <- app_assoc).
      replace (length ((pre ++ (x :: nil)) ++ a :: r1)) with (length ((pre ++ (x :: nil)) ++ y :: r1)) by (rewrite !app_length; reflexivity).
      rewrite set_app. cbn [bind]. f_equal. rewrite <- !app_assoc. reflexivity.
  - right. split; auto. rewrite H1. reflexivity.
Qed.
Lemma pair_loop_ok tol cnt : forall pre rest : list C, length rest = (2 * cnt)%nat ->
  exists b (w : list C), pair_loop tol cnt (length pre) (pre ++ rest) = Ok (b, pre ++ w) /\ Permutation rest w /\ (b = true -> paired tol w).
Proof.
  induction cnt as [|cnt IH]; intros pre rest L.
  - destruct rest; [|discriminate]. exists true, []. cbn. repeat split; auto. intros _. constructor.
  - destruct rest as [|x rest]; [discriminate|]. cbn [pair_loop]. rewrite get_app. cbn [bind].
    destruct (pair_step tol pre rest x (pair_loop tol cnt (length pre + 2))) as [(y & rest' & P & Hc & E)|(E & _)]; cbv zeta in E; match type of E with ?l = _ => match goal with |- context [bind ?e ?k] => change (bind e k) with l end end; rewrite E.
    + replace (length pre + 2)%nat with (length (pre ++ [x; y])) by (rewrite app_length; cbn; lia).
      replace (pre ++ x :: y :: rest') with ((pre ++ [x; y]) ++ rest') by (now rewrite <- app_assoc).
      destruct (IH (pre ++ [x; y]) rest') as (b & w & E' & P' & Hb).
      { apply Permutation_length in P. cbn [length] in *. lia. }
      exists b, (x :: y :: w). rewrite E', <- app_assoc. split; auto. split.
      * apply perm_skip. rewrite P. now apply perm_skip.
      * intros ->. constructor; auto.
    + exists false, (x :: rest). split; [|split]; [reflexivity|reflexivity|discriminate].
Qed.
Lemma zCVecConjPair_ok tol (v : list C) :
  exists b (w : list C), zCVecConjPair tol v = Ok (b, w) /\ Permutation v w /\ (b = true -> paired tol w).
Proof.
  unfold zCVecConjPair. change (cplx R) with C in *. destruct (Nat.odd (length v)) eqn:O.
  - exists false, v. split; [|split]; [reflexivity|reflexivity|discriminate].
  - destruct (pair_loop_ok tol (length v / 2) [] v) as (b & w & E & P & H).
    + apply Nat.div_exact; [lia|]. rewrite <- Nat.negb_even in O. destruct (Nat.even (length v)) eqn:Ev; [|discriminate].
      apply Nat.even_spec in Ev. destruct Ev as (k & ->). rewrite Nat.mul_comm. apply Nat.mod_mul. lia.
    + exists b, w. auto.
Qed.
Lemma paired_nth tol w : paired tol w -> forall k, (2 * k + 1 < length w)%nat ->
  coconj tol (nth (2 * k) w (RtoC 0)) (nth (2 * k + 1) w (RtoC 0)) = true.
Proof.
  induction 1 as [|x y w Hc _ IH]; intros k Hk; [cbn in Hk; lia|].
  destruct k as [|k]; [exact Hc|]. cbn [length] in Hk. replace (2 * S k)%nat with (S (S (2 * k))) by lia.
  cbn [nth Nat.add]. apply IH. lia.
Qed.
(** completeness when the comparison is exact on the elements of the vector *)
Definition conj_closed (l : list C) : list C := flat_map (fun z => [z; Cconj z]) l.
Lemma Cconj_conj z : Cconj (Cconj z) = z. Proof. ceq; ring. Qed.
Lemma conj_closed_perm l l' : Permutation l l' -> Permutation (conj_closed l) (conj_closed l').
Proof. intros P. unfold conj_closed. now apply Permutation_flat_map. Qed.
Lemma conj_remove x rest l : Permutation (x :: rest) (conj_closed l) ->
  exists l', Permutation rest (Cconj x :: conj_closed l').
Proof.
  intros P. assert (In x (conj_closed l)) as I by (eapply Permutation_in; [exact P|now left]).
  apply in_flat_map in I. destruct I as (z & Hz & Hx).
  destruct (in_split _ _ Hz) as (l1 & l2 & ->).
  assert (Permutation (conj_closed (l1 ++ z :: l2)) (z :: Cconj z :: conj_closed (l1 ++ l2))) as Q.
  { transitivity (conj_closed (z :: l1 ++ l2)); [|reflexivity]. apply conj_closed_perm. symmetry. apply Permutation_middle. }
  exists (l1 ++ l2). rewrite Q in P. destruct Hx as [<-|[<-|[]]].
  - now apply Permutation_cons_inv in P.
  - rewrite perm_swap in P. apply Permutation_cons_inv in P. now rewrite Cconj_conj.
Qed.
Lemma pair_loop_complete tol cnt : forall pre rest l : list C, length rest = (2 * cnt)%nat ->
  (forall x y, In x rest -> In y rest -> (coconj tol x y = true <-> y = Cconj x)) ->
  Permutation rest (conj_closed l) ->
  exists w, pair_loop tol cnt (length pre) (pre ++ rest) = Ok (true, w).
Proof.
  induction cnt as [|cnt IH]; intros pre rest l L HE P.
  - destruct rest; [|discriminate]. eexists; reflexivity.
  - destruct rest as [|x rest]; [discriminate|]. cbn [pair_loop]. rewrite get_app. cbn [bind].
    destruct (conj_remove x rest l P) as (l' & P').
    assert (In (Cconj x) rest) as I by (eapply Permutation_in; [symmetry; exact P'|now left]).
    destruct (pair_step tol pre rest x (pair_loop tol cnt (length pre + 2))) as [(y & rest' & Q & Hc & E)|(E & F)]; cbv zeta in E; match type of E with ?l = _ => match goal with |- context [bind ?e ?k] => change (bind e k) with l end end.
    + rewrite E. replace (length pre + 2)%nat with (length (pre ++ [x; y])) by (rewrite app_length; cbn; lia).
      replace (pre ++ x :: y :: rest') with ((pre ++ [x; y]) ++ rest') by (now rewrite <- app_assoc).
      assert (In y rest) as Iy by (eapply Permutation_in; [symmetry; exact Q|now left]).
      assert (y = Cconj x) as Ey by (apply HE; cbn; auto).
      assert (Permutation rest' (conj_closed l')) as R.
      { rewrite Q, Ey in P'. now apply Permutation_cons_inv in P'. }
      apply (IH (pre ++ [x; y]) rest' l').
      * apply Permutation_length in Q. cbn [length] in *. lia.
      * intros a b Ha Hb. apply HE; right; (eapply Permutation_in; [symmetry; exact Q|now right]).
      * exact R.
    + exfalso. specialize (F _ I). assert (coconj tol x (Cconj x) = true) as G by (apply HE; cbn; auto). congruence.
Qed.
Lemma conj_closed_length l : length (conj_closed l) = (2 * length l)%nat.
Proof. induction l as [|z l IH]; auto. unfold conj_closed in *. cbn [flat_map app length]. rewrite IH. lia. Qed.
Lemma zCVecConjPair_complete tol (v l : list C) :
  (forall x y, In x v -> In y v -> (coconj tol x y = true <-> y = Cconj x)) -> Permutation v (conj_closed l) ->
  exists w, zCVecConjPair tol v = Ok (true, w).
Proof.
  intros HE P. assert (length v = 2 * length l)%nat as L by (rewrite (Permutation_length P); apply conj_closed_length).
  unfold zCVecConjPair. change (cplx R) with C in *. rewrite L. replace (Nat.odd (2 * length l)) with false.
  2:{ symmetry. rewrite <- Nat.negb_even. replace (Nat.even (2 * length l)) with true; auto.
      symmetry. apply Nat.even_spec. now exists (length l). }
  replace (2 * length l / 2)%nat with (length l) by (rewrite Nat.mul_comm, Nat.div_mul; lia).
  apply (pair_loop_complete tol (length l) [] v l); auto.
Qed.

(** ** evaluation of a polynomial at a complex point *)
Lemma Cpown_S z n : Cpown z (S n) = Cmult (Cpown z n) z.
Proof. cbn. ring. Qed.
Lemma csum_ext n f g : (forall i, (i < n)%nat -> f i = g i) -> csum n f = csum n g.
Proof. induction n as [|n IH]; intros H; cbn; auto. rewrite IH, H; auto. Qed.
Lemma csum_S_l n f : csum (S n) f = Cplus (f O) (csum n (fun i => f (S i))).
Proof. induction n as [|n IH]; [cbn; ring|]. cbn [csum] in *. rewrite IH. ring. Qed.
Lemma csum_scal_r n f c : csum n (fun i => Cmult (f i) c) = Cmult (csum n f) c.
Proof. induction n as [|n IH]; cbn; [ring|]. rewrite IH. ring. Qed.
Lemma zPexCVal_ok p (m : cmem R) arg c : p <> [] -> arg <> c ->
  exists m', zPexCVal p m arg c = Ok m' /\ stored m c (Cpeval p (m arg)) m'.
Proof.
  intros N Nc. assert (0 < length p)%nat by (destruct p; cbn; [congruence|lia]).
  unfold zPexCVal, getZ. replace (Z.of_nat (length p) - 1 <? 0)%Z with false by lia.
  replace (Z.to_nat (Z.of_nat (length p) - 1)) with (length p - 1)%nat by lia. rewrite getc by lia. cbn [bind].
  match goal with |- context [for_down ?n ?f ?s] =>
    destruct (for_down_inv (fun k m' => stored m c (csum (length p - k) (fun i => Cmult (RtoC (coef p (k + i))) (Cpown (m arg) i))) m') n f s)
      as (m' & E & V) end.
  - replace (length p - (length p - 1))%nat with 1%nat by lia. apply create_stored; cbn; rewrite ?Nat.add_0_r; rs; ring.
  - intros k m1 Hk V. rewrite getc by lia. cbn [bind]. eexists; split; [reflexivity|].
    assert (m1 c = csum (length p - S k) (fun i => Cmult (RtoC (coef p (S k + i))) (Cpown (m arg) i))) as E1 by (rewrite V; now rewrite Nat.eqb_refl).
    assert (m1 arg = m arg) as E2 by (rewrite V; now replace (arg =? c)%nat with false by lia).
    replace (length p - k)%nat with (S (length p - S k)) by lia. rewrite csum_S_l.
    assert (csum (length p - S k) (fun i => Cmult (RtoC (coef p (k + S i))) (Cpown (m arg) (S i))) = Cmult (m1 c) (m arg)) as ->.
    { rewrite E1, <- csum_scal_r. apply csum_ext. intros i Hi. rewrite Cpown_S. replace (k + S i)%nat with (S k + i)%nat by lia. ring. }
    rewrite E2, Nat.add_0_r. set (z := m1 c). cbn [Cpown].
    match goal with |- stored m c ?w (create m1 c ?f ?g) => assert (stored m1 c w (create m1 c f g)) as S1 end.
    { apply create_stored; cbn; rs; ring. }
    intros i. rewrite S1, V. destruct (Nat.eqb_spec i c); auto.
  - exists m'. split; [exact E|]. rewrite Nat.sub_0_r in V. exact V.
Qed.

(** ** expansion of complex roots *)
Lemma Croots_app l1 l2 x : Croots (l1 ++ l2) x = Cmult (Croots l1 x) (Croots l2 x).
Proof. unfold Croots. induction l1 as [|r l1 IH]; cbn [app fold_right]; [ring|]. rewrite IH. ring. Qed.
Lemma Croots_perm l1 l2 x : Permutation l1 l2 -> Croots l1 x = Croots l2 x.
Proof.
  unfold Croots. induction 1 as [|a l1 l2 _ IH|a b l|l1 l2 l3 _ IH1 _ IH2]; cbn [fold_right]; [reflexivity|now rewrite IH|ring|congruence].
Qed.
Inductive epaired : list C -> Prop :=
| epaired_nil : epaired []
| epaired_cons x w : epaired w -> epaired (x :: Cconj x :: w).
Lemma epaired_firstn w : epaired w -> forall k, epaired (firstn (2 * k) w) /\ epaired (skipn (2 * k) w).
Proof.
  induction 1 as [|x w _ IH]; intros k.
  - rewrite firstn_nil, skipn_nil. split; constructor.
  - destruct k as [|k]; [cbn; split; [constructor|now constructor; apply (IH O)]|].
    replace (2 * S k)%nat with (S (S (2 * k))) by lia. cbn [firstn skipn]. destruct (IH k). split; auto. now constructor.
Qed.
Lemma pexexpim_ok : forall fuel h (b : list C), (1 <= h <= fuel)%nat -> (2 * h <= length b)%nat -> epaired (firstn (2 * h) b) ->
  exists p (b' : list C), pexexpim fuel false (2 * h) b = Ok (Some p, b') /\ length b' = length b /\ skipn (2 * h) b' = skipn (2 * h) b /\
    monic (2 * h) p /\ forall x, RtoC (peval p x) = Croots (firstn (2 * h) b) (RtoC x).
Proof.
  induction fuel as [|fuel IH]; intros h b Hs Hb HP; [lia|]. cbn [pexexpim]. change (cplx R) with C in *.
  replace (2 * h / 2)%nat with h by (rewrite Nat.mul_comm, Nat.div_mul; lia).
  destruct (Nat.eqb_spec h 1) as [->|N1].
  - destruct b as [|z [|z' b]]; cbn in Hb; try lia. cbn [firstn Nat.mul Nat.add] in *. inversion HP; subst. cbn [get nth_error bind].
    eexists _, _. split; [reflexivity|]. split; auto. split; auto. split; [split; reflexivity|].
    intros x. rewrite !peval_cons. unfold peval, Croots, sqrabs. cbn [length rsum fold_right]. rs. ceq; ring.
  - set (h2 := (h / 2)%nat).
    assert (1 <= h2)%nat by (apply Nat.div_le_lower_bound; lia).
    assert (h2 < h)%nat by (apply Nat.div_lt; lia).
    replace (h2 * 2)%nat with (2 * h2)%nat by lia.
    assert (epaired (firstn (2 * h2) b)) as P1.
    { replace (firstn (2 * h2) b) with (firstn (2 * h2) (firstn (2 * h) b)) by (rewrite firstn_firstn; f_equal; lia).
      now apply epaired_firstn. }
    destruct (IH h2 b ltac:(lia) ltac:(lia) P1) as (p1 & b1 & E1 & L1 & K1 & M1 & V1). rewrite E1. cbn [bind].
    unfold cmemcpy_down. cbn [andb]. change (cplx R) with C in *. replace (length b1 <? 2 * h2 + (2 * h - 2 * h2))%nat with false by lia. cbn [bind].
    replace (2 * h - 2 * h2)%nat with (2 * (h - h2))%nat by lia.
    set (n2 := (2 * (h - h2))%nat) in *. set (b2 := firstn n2 (skipn (2 * h2) b1) ++ skipn n2 b1).
    assert (length b2 = length b) as L2 by (unfold b2; rewrite app_length, firstn_length, !skipn_length; lia).
    assert (length (firstn n2 (skipn (2 * h2) b1)) = n2) as LF by (rewrite firstn_length, skipn_length; lia).
    assert (firstn n2 b2 = firstn n2 (skipn (2 * h2) b)) as F2.
    { unfold b2. rewrite firstn_app, LF, Nat.sub_diag. cbn [firstn]. rewrite app_nil_r, firstn_all2 by (rewrite LF; lia). now rewrite K1. }
    assert (firstn n2 (skipn (2 * h2) b) = skipn (2 * h2) (firstn (2 * h) b)) as F3.
    { rewrite skipn_firstn_comm. f_equal. lia. }
    assert (epaired (firstn n2 b2)) as P2 by (rewrite F2, F3; now apply epaired_firstn).
    destruct (IH (h - h2)%nat b2 ltac:(lia) ltac:(lia) P2) as (p2 & b3 & E2 & L3 & K3 & M2 & V2). fold n2 in E2, K3, M2, V2. rewrite E2. cbn [bind].
    destruct (monic_mul p1 p2 (2 * h2) n2 M1 M2) as (p & E & M & V). rewrite E. cbn [bind].
    exists p, b3. split; auto. split; [lia|]. split; [|split].
    + assert (forall (l l' : list C) a c, (a <= c)%nat -> skipn a l = skipn a l' -> skipn c l = skipn c l') as SK.
      { intros l l' a c Hac Hl. replace c with ((c - a) + a)%nat by lia. now rewrite <- !skipn_skipn, Hl. }
      rewrite (SK b3 b2 n2 (2 * h)%nat) by (auto; lia). unfold b2.
      rewrite skipn_app, LF. rewrite skipn_all2 by (rewrite LF; lia). cbn [app].
      rewrite skipn_skipn. replace (2 * h - n2 + n2)%nat with (2 * h)%nat by lia.
      apply (SK b1 b (2 * h2)%nat (2 * h)%nat); auto. lia.
    + replace (2 * h)%nat with (2 * h2 + n2)%nat by lia. auto.
    + intros x. rewrite V, RtoC_mult, V1, V2, F2. rewrite <- Croots_app. f_equal.
      rewrite F3. replace (firstn (2 * h2) b) with (firstn (2 * h2) (firstn (2 * h) b)) by (rewrite firstn_firstn; f_equal; lia).
      apply firstn_skipn.
Qed.
Lemma filter_split {A} (f : A -> bool) l : Permutation l (filter f l ++ filter (fun x => negb (f x)) l).
Proof.
  induction l as [|a l IH]; cbn; auto. destruct (f a); cbn; [now apply perm_skip|].
  rewrite IH at 1. apply Permutation_middle.
Qed.
Lemma Croots_real l x : Croots (map RtoC l) (RtoC x) = RtoC (roots_prod l x).
Proof.
  unfold Croots, roots_prod. induction l as [|r l IH]; cbn [map fold_right]; auto. rewrite IH. now rewrite <- RtoC_minus, <- RtoC_mult.
Qed.
Lemma paired_exact tol w : (forall x y, In x w -> In y w -> coconj tol x y = true -> y = Cconj x) -> paired tol w -> epaired w.
Proof.
  intros H P. induction P as [|x y w Hc _ IH]; [constructor|].
  rewrite (H x y) by (cbn; auto). constructor. apply IH. intros a b Ha Hb. apply H; cbn; auto.
Qed.
Lemma epaired_even w : epaired w -> exists h, length w = (2 * h)%nat.
Proof. induction 1 as [|x w _ (h & IH)]; [now exists O|]. exists (S h). cbn. lia. Qed.
Lemma zCVecToReImVec_ok tol (v : list C) :
  exists b (iv : list C), zCVecToReImVec tol v = Ok (b, map fst (filter (isreal tol) v), iv) /\
    Permutation (filter (fun c => negb (isreal tol c)) v) iv /\ (b = true -> paired tol iv).
Proof.
  unfold zCVecToReImVec. unfold cplx, C in *. set (il := @filter (R * R) (fun c : R * R => negb (isreal tol c)) v). set (r := @map (R * R) R fst (@filter (R * R) (isreal tol) v)).
  destruct (zCVecConjPair_ok tol il) as (b & w & E & P & Hb). clearbody il r.
  destruct il as [|z il]; destruct r as [|x r].
  - exists false, []. split; [|split]; [reflexivity|reflexivity|discriminate].
  - exists true, []. split; [|split]; [reflexivity|reflexivity|constructor].
  - exists b, w. rewrite E. cbn [bind]. auto.
  - exists b, w. rewrite E. cbn [bind]. auto.
Qed.
Lemma zCVecToReImVec_complete tol (v l : list C) : v <> [] ->
  (forall x y, In x (filter (fun c => negb (isreal tol c)) v) -> In y (filter (fun c => negb (isreal tol c)) v) ->
     (coconj tol x y = true <-> y = Cconj x)) ->
  Permutation (filter (fun c => negb (isreal tol c)) v) (conj_closed l) ->
  exists iv : list C, zCVecToReImVec tol v = Ok (true, map fst (filter (isreal tol) v), iv).
Proof.
  intros N HI HP. pose proof (filter_split (isreal tol) v) as PS.
  destruct (zCVecConjPair_complete tol _ l HI HP) as (w & E). clear HI HP.
  unfold zCVecToReImVec. unfold cplx, C in *. set (il := @filter (R * R) (fun c : R * R => negb (isreal tol c)) v) in *. set (rl := @filter (R * R) (isreal tol) v) in *.
  clearbody il rl. destruct il as [|z il]; destruct rl as [|x r].
  - cbn in PS. apply Permutation_sym, Permutation_nil in PS. congruence.
  - exists []. reflexivity.
  - exists w. rewrite E. reflexivity.
  - exists w. rewrite E. reflexivity.
Qed.
Lemma zPexCExp_ok tol (v : list C) l : v <> [] ->
  (forall z, In z v -> Rabs (snd z) <= tol -> snd z = 0) ->
  (forall x y, In x v -> In y v -> tol < Rabs (snd x) -> tol < Rabs (snd y) -> (coconj tol x y = true <-> y = Cconj x)) ->
  Permutation (filter (fun c => negb (isreal tol c)) v) (conj_closed l) ->
  exists p, zPexCExp false tol v = Ok (Some p) /\ monic (length v) p /\ forall x, RtoC (peval p x) = Croots v (RtoC x).
Proof.
  intros Nv HR HC HP. unfold zPexCExp. unfold cplx, C in *.
  set (rl := @filter (R * R) (isreal tol) v). set (il := @filter (R * R) (fun c : R * R => negb (isreal tol c)) v) in *.
  assert (map RtoC (map fst rl) = rl) as Er.
  { rewrite map_map. rewrite <- (map_id rl) at 2. apply map_ext_in. intros z Hz. apply filter_In in Hz. destruct Hz as (Hz & Ht).
    unfold isreal in Ht. rewrite is_tol_R in Ht. destruct (Rleb_spec (Rabs (snd z)) tol); [|discriminate].
    specialize (HR z Hz r). destruct z as (a, b); cbn in *. now subst. }
  assert (Permutation v (rl ++ il)) as PS by apply filter_split.
  assert (forall x y, In x il -> In y il -> (coconj tol x y = true <-> y = Cconj x)) as HI.
  { assert (forall z, In z il -> In z v /\ tol < Rabs (snd z)) as II.
    { intros z Hz. apply filter_In in Hz. destruct Hz as (Hz & Ht). split; auto. unfold isreal in Ht. rewrite is_tol_R in Ht.
      destruct (Rleb_spec (Rabs (snd z)) tol); [discriminate|lra]. }
    intros x y Hx Hy. apply II in Hx. apply II in Hy. now apply HC. }
  set (r := map fst rl) in *.
  assert (exists iv, zCVecToReImVec tol v = Ok (true, r, iv) /\ Permutation il iv /\ epaired iv) as (iv & Ev & PI & EP).
  { destruct (zCVecToReImVec_ok tol v) as (b & iv & E & P & Hb).
    destruct (zCVecToReImVec_complete tol v l Nv HI HP) as (iv' & E'). rewrite E in E'. injection E' as -> <-.
    exists iv. split; auto. split; auto. apply (paired_exact tol); auto.
    intros x y Hx Hy. apply HI; (eapply Permutation_in; [symmetry; exact P|auto]). }
  rewrite Ev. unfold cplx, C in *.
  cbn [bind negb].
  assert (length v = length r + length iv)%nat as LV.
  { rewrite (Permutation_length PS), app_length, (Permutation_length PI). unfold r. now rewrite map_length. }
  assert (forall x, Croots v (RtoC x) = Cmult (RtoC (roots_prod r x)) (Croots iv (RtoC x))) as RV.
  { intros x. rewrite (Croots_perm _ _ _ PS), Croots_app. rewrite <- Er, Croots_real. f_equal. now apply Croots_perm. }
  assert (match r with [] => Ok None | _ => '(p, _) <- pexexp (length r) false (length r) r ;; Ok p end = Ok None /\ r = [] \/
     exists p, match r with [] => Ok None | _ => '(p, _) <- pexexp (length r) false (length r) r ;; Ok p end = Ok (Some p) /\ monic (length r) p /\
        forall x, peval p x = roots_prod r x) as HRe.
  { destruct r as [|r0 r'] eqn:E; [now left|right].
    destruct (pexexp_ok false (length r) (length r) r ltac:(rewrite E; cbn; lia) ltac:(lia) (or_introl eq_refl)) as (p & b & E1 & _ & _ & M & V).
    rewrite <- E in *. rewrite E1. exists p. split; auto. split; auto. intros x. rewrite V. now rewrite firstn_all. }
  destruct (epaired_even iv EP) as (h & Lh).
  assert (match iv with [] => Ok None | _ => '(p, _) <- pexexpim (length iv) false (length iv) iv ;; Ok p end = Ok None /\ iv = [] \/
     exists p, match iv with [] => Ok None | _ => '(p, _) <- pexexpim (length iv) false (length iv) iv ;; Ok p end = Ok (Some p) /\ monic (length iv) p /\
        forall x, RtoC (peval p x) = Croots iv (RtoC x)) as HIm.
  { destruct iv as [|z iv'] eqn:E; [now left|right].
    rewrite <- E in *. assert (1 <= length iv)%nat by (rewrite E; cbn; lia).
    destruct (pexexpim_ok (length iv) h iv) as (p & b & E1 & _ & _ & M & V); [change (@length C iv) with (@length (R*R) iv) in *; lia|change (@length C iv) with (@length (R*R) iv) in *; lia|rewrite <- Lh, firstn_all; auto|].
    rewrite <- Lh in *. match type of E1 with ?l = _ => match goal with |- context [pexexpim ?a ?b ?c ?d] => change (pexexpim a b c d) with l end end. rewrite E1. exists p. split; auto. split; auto. intros x. rewrite V. now rewrite firstn_all. }
  unfold cplx, C in *. destruct HRe as [(-> & E1)|(p1 & -> & M1 & V1)]; cbn [bind]; destruct HIm as [(-> & E2)|(p2 & -> & M2 & V2)]; cbn [bind].
  - exfalso. rewrite E1, E2 in LV. destruct v; [congruence|discriminate].
  - exists p2. rewrite LV, E1. split; auto. split; auto. intros x. rewrite RV, V2, E1. apply C_eq; cbn; ring.
  - exists p1. rewrite LV, E2, Nat.add_0_r. split; auto. split; auto. intros x. rewrite RV, V1, E2. apply C_eq; cbn; ring.
  - destruct (monic_mul p1 p2 _ _ M1 M2) as (p & -> & M & V). exists p. rewrite LV. split; auto. split; auto.
    intros x. rewrite V, RtoC_mult, V1, V2, RV. reflexivity.
Qed.
