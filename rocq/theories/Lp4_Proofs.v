(** Proofs about Lemke's method (C44), concluded. *)
From Coq Require Import Reals Lra Lia List Permutation.
From Verif Require Import Prelude Prelude_Proofs Scalar RealLib Fmat Fmat_Proofs LE_Model IP_Model Vop Stat_Model Stat_Proofs Curve_Proofs Eig4_Proofs Qp_Spec Lp_Model Lp_Proofs Lp2_Proofs Lp3_Proofs.
Import ListNotations.
Local Open Scope R_scope.

Ltac nbq := repeat (match goal with
  | |- context [Nat.eqb ?a ?b] => destruct (Nat.eqb_spec a b)
  | |- context [Nat.ltb ?a ?b] => destruct (Nat.ltb_spec a b)
  | |- context [Nat.leb ?a ?b] => destruct (Nat.leb_spec a b)
  end; try (exfalso; lia); cbn [andb orb negb]); auto; try lia.
(** the components of the basic solution, written one by one *)
Lemma answer_loop (ib : list nat) (p : fvec R) n (V : fvec R) (off : nat) (cond : nat -> bool) f :
  length ib = n -> NoDup ib -> vlen p = n -> (forall j, vel V j = 0) ->
  (forall x, cond x = true <-> exists j, (j < vlen V)%nat /\ x = (off + j)%nat) ->
  (forall i v, (i < n)%nat -> vlen v = vlen V -> f i v = if cond (bc ib i) then vset v (bc ib i - off) (vel p i) else Ok v) ->
  exists v, for_ 0 n f V = Ok v /\ vlen v = vlen V /\ forall j, (j < vlen V)%nat -> vel v j = bsol n ib (vel p) (off + j).
Proof.
  intros L ND Lp VZ CO F.
  destruct (for_inv (fun k (v : fvec R) => vlen v = vlen V /\ forall j, (j < vlen V)%nat -> vel v j = bsol k ib (vel p) (off + j)) 0 n f V) as (v & E & P); [lia| | |].
  - split; auto.
  - intros k v Hk (A & B). rewrite F by (auto; lia). destruct (cond (bc ib k)) eqn:Ec.
    + apply CO in Ec. destruct Ec as (j0 & Hj0 & Ej0). rewrite Ej0. replace (off + j0 - off)%nat with j0 by lia. rewrite vset_ok by lia.
      eexists. split; [reflexivity|]. cbn [vlen vel]. split; auto. intros j Hj. unfold bsol. cbn [rsum]. fold (bsol k ib (vel p) (off + j)). rewrite Ej0.
      destruct (Nat.eqb_spec j j0) as [->|Nj].
      * rewrite Nat.eqb_refl. unfold bsol. rewrite rsum_0; [ring|]. intros i Hi. destruct (Nat.eqb_spec (bc ib i) (off + j0)) as [E|]; auto.
        exfalso. rewrite <- Ej0 in E. apply (proj1 (NoDup_nth ib O) ND) in E; lia.
      * destruct (Nat.eqb_spec (off + j0) (off + j)); [lia|]. rewrite B by auto. ring.
    + eexists. split; [reflexivity|]. split; auto. intros j Hj. unfold bsol. cbn [rsum]. fold (bsol k ib (vel p) (off + j)).
      destruct (Nat.eqb_spec (bc ib k) (off + j)) as [E|].
      * exfalso. assert (cond (bc ib k) = true) by (apply CO; eauto). congruence.
      * rewrite B by auto. ring.
  - eauto.
Qed.

Lemma bsol_nonneg m ib g j : (forall k, (k < m)%nat -> 0 <= g k) -> 0 <= bsol m ib g j.
Proof. intros H. unfold bsol. apply rsum_nonneg. intros k Hk. nbt; auto; lra. Qed.
Lemma bsol_out m ib g j : length ib = m -> ~ In j ib -> bsol m ib g j = 0.
Proof. intros L H. unfold bsol. apply rsum_0. intros k Hk. destruct (Nat.eqb_spec (bc ib k) j); auto. exfalso. apply H. subst. apply bc_in. auto. Qed.

Section Solve.
  Context (n : nat) (Hn : (0 < n)%nat) (tol : R) (Ht : 0 < tol) (M : fmat R) (q : fvec R)
    (M1 : nr M = n) (M2 : nc M = n) (Q1 : vlen q = n).
  Let N := (2 * n + 1)%nat.
  (** the system w - M z - e z0 = q; z, w, z0 are the columns 0.., n.., 2n *)
  Definition lT (i j : nat) : R := if (j =? 2 * n)%nat then -1 else if (j =? i + n)%nat then 1 else if (j <? n)%nat then - el M i j else 0.
  Lemma lT_sum i x : (i < n)%nat -> rsum N (fun j => lT i j * x j) = - mulv n (el M) x i + x (n + i)%nat - x (2 * n)%nat.
  Proof.
    intros Hi. unfold N. replace (2 * n + 1)%nat with (S (n + n)) by lia. cbn [rsum]. rewrite rsum_app.
    rewrite (rsum_ext n _ (fun j => - (el M i j * x j))).
    2:{ intros j Hj. unfold lT. nbp. ring. }
    rewrite rsum_opp. unfold mulv. rewrite (rsum_delta n i (fun j => lT i (n + j) * x (n + j)%nat)); auto.
    2:{ intros j Hj Nj. unfold lT. nbp. ring. }
    unfold lT. replace (n + n =? 2 * n)%nat with true by nbp. replace (n + i =? 2 * n)%nat with false by nbp. replace (n + i =? i + n)%nat with true by nbp.
    replace (2 * n)%nat with (n + n)%nat by lia. ring.
  Qed.
  Let L0 := _zLemkeCreate M q.
  Lemma create_wf : lwf n N L0.
  Proof.
    unfold L0, _zLemkeCreate. cbv zeta. rewrite M1. split; cbn [ltab lp lib lin lact nr nc]; auto.
    - now rewrite seq_length.
    - unfold N. replace (2 * n + 1)%nat with (n + (n + 1))%nat by lia. rewrite !seq_app. cbn [Nat.add List.seq].
      replace (2 * n)%nat with (n + n)%nat by lia. eapply perm_trans; [apply Permutation_cons_append|]. rewrite <- app_assoc. 
      eapply perm_trans; [apply Permutation_app_head, Permutation_app_comm|]. 
      rewrite !app_assoc. eapply perm_trans; [apply Permutation_app_comm|]. rewrite <- app_assoc. cbn [app]. reflexivity.
  Qed.
  Lemma create_val : lval n N lT (vel q) L0.
  Proof.
    unfold L0, lval, _zLemkeCreate. cbv zeta. rewrite M1. cbn [ltab lp lib el].
    assert (B : forall k, (k < n)%nat -> bc (List.seq n n) k = (n + k)%nat) by (intros; unfold bc; now rewrite seq_nth).
    split.
    - now rewrite seq_length.
    - intros k Hk. rewrite B by auto. unfold N. lia.
    - intros i k Hi Hk. rewrite B by auto. rs. nbp.
    - intros x. unfold lT, sol. rs. replace (- (1)) with (-1) by lra. reflexivity.
  Qed.

  Definition lemke_ok (c0 : nat -> R) (l : @lemke R) : Prop := lfin n lT (vel q) l /\ pos_p n tol lT (vel q) c0 l.
  Lemma init_ok c0 : exists l fin, _zLemkeInit L0 = Ok (l, fin) /\ (if fin : bool then lemke_ok c0 l /\ l = L0 /\ (forall i, (i < n)%nat -> 0 <= vel q i) else linv n lT (vel q) l /\ pos_p n tol lT (vel q) c0 l /\ exists i, (i < n)%nat /\ vel q i < 0).
  Proof.
    unfold _zLemkeInit. assert (EL : lp L0 = q) by reflexivity. rewrite EL.
    destruct (extremum_ok (fun x => x) (fun y m => slt y m) (fun a b => b < a)) with (data := to_list q) (size := vlen q) as ((qm & p) & E & B1 & B2 & B3 & _).
    { intros y m. cbn [slt RealS]. destruct (Rltb_spec y m); split; intros; auto; try discriminate; lra. }
    { intros; lra. } { intros; lra. } { intros; lra. } { rewrite length_to_list. lia. }
    cbn [fst snd] in *. rewrite nth_to_list_ in B2 by auto.
    unfold zDataMin. rewrite E. cbn [bind].
    assert (MN : forall i, (i < n)%nat -> qm <= vel q i). { intros i Hi. specialize (B3 i). rewrite nth_to_list_ in B3 by lia. apply Rnot_lt_le. apply B3. lia. }
    pose proof create_wf as W. pose proof create_val as V.
    rs. destruct (Rleb_spec 0 qm) as [G|G].
    - exists L0, true. split; auto. conjs; auto.
      + split; [split; auto|].
        * unfold L0, _zLemkeCreate. cbn [lib]. rewrite M1. rewrite in_seq. lia.
        * unfold L0, _zLemkeCreate. cbn [lib]. apply seq_NoDup.
        * unfold L0, _zLemkeCreate. cbn [lib]. rewrite M1. intros v. rewrite !in_seq. intros Hv Hv2. rewrite comp_eq by auto. nbq.
        * intros _ i Hi. rewrite EL. pose proof (MN i Hi). lra.
      + intros i Hi. pose proof (MN i Hi). lra.
    - assert (Hp : (p < n)%nat) by lia.
      assert (LA : lact L0 = (2 * n)%nat) by (unfold L0, _zLemkeCreate; cbn [lact]; now rewrite M1).
      assert (LB : lib L0 = List.seq n n) by (unfold L0, _zLemkeCreate; cbn [lib]; now rewrite M1).
      assert (LI : lin L0 = List.seq 0 n) by (unfold L0, _zLemkeCreate; cbn [lin]; now rewrite M1).
      assert (TA : forall i, el (ltab L0) i (2 * n)%nat = -1). { intros i. unfold L0, _zLemkeCreate. cbn [ltab el]. rewrite M1. rewrite Nat.eqb_refl. rs. lra. }
      destruct (sweep_ok n N lT (vel q) L0 p W V Hp) as (a & b & ES & S1 & S2 & S3 & Ea & Eb).
      { rewrite LA, TA. lra. }
      rewrite ES. cbn [bind]. rewrite LA, LB, LI in *.
      set (l1 := Lemke a b (List.seq n n) (List.seq 0 n) (2 * n)%nat) in *.
      assert (BC : bc (List.seq n n) p = (n + p)%nat) by (unfold bc; now rewrite seq_nth).
      destruct (swap_run n Hn l1 p) as (in' & E2 & EI); [now cbn; rewrite seq_length|auto|]. cbn [lib l1 lp ltab lin lact] in E2, EI. rewrite BC in E2, EI.
      assert (CP : comp n (n + p) = p) by (rewrite comp_eq by lia; nbq).
      rewrite CP in *. rewrite E2. cbn [bind]. eexists _, false. split; [reflexivity|].
      set (l2 := Lemke a b (upd (List.seq n n) p (2 * n)%nat) in' p).
      assert (W1 : lwf n N l1). { destruct W. rewrite LA, LB, LI in *. split; auto. }
      assert (INu : forall c, In c (upd (List.seq n n) p (2 * n)%nat) -> c = (2 * n)%nat \/ (n <= c < 2 * n /\ c <> n + p)%nat).
      { intros c Hc. apply in_upd in Hc; [|apply seq_NoDup|now rewrite seq_length]. rewrite in_seq, seq_nth in Hc by auto. lia. }
      split; [|split].
      + split.
        * unfold l2. split; cbn [ltab lp lib lin lact]; auto. { now rewrite upd_length, seq_length. }
          pose proof (swap_perm n Hn l1 p in' W1 Hp) as SP. cbn [l1 lib lin lact] in SP. rewrite BC, CP in SP. apply SP; auto. apply in_seq. lia.
        * unfold lval, l2. cbn [lib ltab lp]. apply valid_ext with (T := pivT (el (ltab L0)) p (2 * n)%nat) (p := pivp (el (ltab L0)) (vel q) p (2 * n)%nat); auto.
          apply piv_valid; auto. { unfold lval in V. rewrite LB in V. exact V. } { unfold N; lia. } { rewrite TA. lra. }
        * unfold l2. cbn [lib]. rewrite <- (nth_upd_eq (List.seq n n) p (2 * n)%nat O) at 1 by now rewrite seq_length. apply nth_In. now rewrite upd_length, seq_length.
        * unfold l2. cbn [lib]. intros v Hv Hv2 Hc. apply INu in Hv, Hc. rewrite comp_eq in Hc by auto. revert Hc. nbq.
        * unfold l2. cbn [lib lact]. split; [lia|]. intros Hc. apply INu in Hc. rewrite comp_eq in Hc by lia. revert Hc. nbq.
      + intros _ i Hi. unfold l2. cbn [lp]. rewrite Eb by auto. unfold pivp. rewrite !TA. pose proof (MN i Hi). rewrite EL. destruct (Nat.eqb_spec i p); lra.
      + exists p. split; auto. lra.
  Qed.

  (** the result of a successful run *)
  Lemma answer_ok l (w0 : option (fvec R)) z0 c0 : lemke_ok c0 l -> vlen z0 = n -> match w0 with Some w => vlen w = n | None => True end ->
    exists w z, _zLemkeAnswer l w0 z0 = Ok (w, z) /\ vlen z = n /\
      (forall i, (i < n)%nat -> (mulv n (el M) (vel z) i + vel q i) * vel z i = 0) /\
      match w0, w with
      | Some _, Some w => vlen w = n /\ forall i, (i < n)%nat -> vel w i = mulv n (el M) (vel z) i + vel q i
      | None, None => True | _, _ => False end /\
      (good n N lT (vel q) c0 tol -> forall i, (i < n)%nat -> 0 <= vel z i /\ 0 <= mulv n (el M) (vel z) i + vel q i) /\
      (l = L0 -> forall i, (i < n)%nat -> vel z i = 0).
  Proof.
    intros (F & PP) Z1 W1. destruct F as [V FP FA FN FC]. pose proof (v_len _ _ _ _ _ _ _ V) as L.
    set (x := bsol n (lib l) (vel (lp l))).
    unfold _zLemkeAnswer. rewrite L.
    destruct (answer_loop (lib l) (lp l) n (FV (vlen z0) (fun _ => 0)) 0 (fun c => (c <? vlen z0)%nat)
       (fun i z => ibi <- get (lib l) i ;; if (ibi <? vlen z)%nat then x <- vget (lp l) i ;; vset z ibi x else Ok z)) as (z & EZ & LZ & PZ); auto.
    { intros c. cbn [vlen]. rewrite Nat.ltb_lt. split; [intros; exists c; split; auto|intros (j & Hj & ->); auto]. }
    { intros i v Hi Hv. rewrite (get_ok _ _ O) by lia. cbn [bind]. rewrite Hv. cbn [vlen]. change (nth i (lib l) O) with (bc (lib l) i). rewrite Nat.sub_0_r. rewrite vget_ok by lia. reflexivity. }
    cbn [vlen] in *. cbn [Nat.add] in PZ. fold x in PZ.
    assert (EW : exists w, match w0 with
         | None => Ok None
         | Some w =>
             w <- for_ 0 n (fun i w =>
                    ibi <- get (lib l) i ;;
                    if (vlen w <=? ibi)%nat && (ibi - vlen w <? vlen w)%nat then x <- vget (lp l) i ;; vset w (ibi - vlen w) x
                    else Ok w) (FV (vlen w) (fun _ => 0)) ;;
             Ok (Some w)
         end = Ok w /\ match w0, w with Some _, Some w => vlen w = n /\ (forall i, (i < n)%nat -> vel w i = x (n + i)%nat) | None, None => True | _, _ => False end).
    { destruct w0 as [w1|]; [|eauto].
      destruct (answer_loop (lib l) (lp l) n (FV (vlen w1) (fun _ => 0)) n (fun c => (n <=? c)%nat && (c - n <? n)%nat)
       (fun i w => ibi <- get (lib l) i ;; if (vlen w <=? ibi)%nat && (ibi - vlen w <? vlen w)%nat then x <- vget (lp l) i ;; vset w (ibi - vlen w) x else Ok w)) as (w & EW & LW & PW); auto.
      { intros c. cbn [vlen]. rewrite Bool.andb_true_iff, Nat.leb_le, Nat.ltb_lt. rewrite W1. split; [intros; exists (c - n)%nat; split; lia|intros (j & Hj & ->); lia]. }
      { intros i v Hi Hv. rewrite (get_ok _ _ O) by lia. cbn [bind]. rewrite Hv. cbn [vlen]. change (nth i (lib l) O) with (bc (lib l) i). rewrite W1. rewrite vget_ok by lia. reflexivity. }
      rs. rewrite EW. cbn [bind]. eexists. split; [reflexivity|]. cbn [vlen] in *. rewrite W1 in *. auto. }
    destruct EW as (w & EW & PW). rs. rewrite EW. cbn [bind]. rs. rewrite EZ. cbn [bind].
    exists w, z. split; auto. split; [lia|].
    assert (MX : forall i, mulv n (el M) (vel z) i = mulv n (el M) x i). { intros i. unfold mulv. apply rsum_ext. intros j Hj. rewrite PZ by lia. reflexivity. }
    assert (WX : forall i, (i < n)%nat -> mulv n (el M) (vel z) i + vel q i = x (n + i)%nat).
    { intros i Hi. rewrite MX. pose proof (proj2 (v_sol _ _ _ _ _ _ _ V x) (bsol_sol _ _ _ _ _ _ _ V) i Hi) as E.
      fold N in E. rewrite lT_sum in E by auto. unfold x in E at 3. rewrite (bsol_out n (lib l) _ (2 * n)%nat) in E by auto. lra. }
    conjs.
    - intros i Hi. rewrite WX by auto. rewrite PZ by lia.
      destruct (in_dec Nat.eq_dec i (lib l)) as [I|NI].
      + unfold x at 1. rewrite (bsol_out n (lib l) _ (n + i)%nat); auto; [ring|]. intros I'. apply (FC i I); [lia|]. rewrite comp_eq by lia. replace (i <? n)%nat with true by nbq. now rewrite Nat.add_comm.
      + unfold x at 2. rewrite (bsol_out n (lib l) _ i); auto. ring.
    - destruct w0, w; auto. destruct PW as (P1 & P2). split; auto. intros i Hi. rewrite WX by auto. auto.
    - intros G i Hi. rewrite WX by auto. rewrite PZ by lia. split; apply bsol_nonneg; intros; apply PP; auto.
    - intros -> i Hi. rewrite PZ by lia. unfold x. apply bsol_out; auto. unfold L0, _zLemkeCreate. cbn [lib]. rewrite M1. rewrite in_seq. lia.
  Qed.

  Theorem lemke_main fuel (w0 : option (fvec R)) z0 c0 : vlen z0 = n -> match w0 with Some w => vlen w = n | None => True end ->
    exists r, zLCPSolveLemke tol fuel M q w0 z0 = Ok r /\
    match r with
    | Done (w, z) => vlen z = n /\
        (forall i, (i < n)%nat -> (mulv n (el M) (vel z) i + vel q i) * vel z i = 0) /\
        match w0, w with
        | Some _, Some w => vlen w = n /\ forall i, (i < n)%nat -> vel w i = mulv n (el M) (vel z) i + vel q i
        | None, None => True | _, _ => False end /\
        (good n N lT (vel q) c0 tol -> forall i, (i < n)%nat -> 0 <= vel z i /\ 0 <= mulv n (el M) (vel z) i + vel q i) /\
        ((forall i, (i < n)%nat -> 0 <= vel q i) -> forall i, (i < n)%nat -> vel z i = 0)
    | _ => ~ (forall i, (i < n)%nat -> 0 <= vel q i)
    end.
  Proof.
    intros Z1 W1. unfold zLCPSolveLemke. rewrite M1, M2, Q1, !Nat.eqb_refl. cbn [negb].
    replace (match w0 with Some w => negb ((vlen w =? n) && (vlen w =? vlen z0))%nat | None => false end) with false
      by (destruct w0; auto; rewrite W1, Z1, Nat.eqb_refl; reflexivity).
    destruct (init_ok c0) as (l & fin & E & F). fold L0. rewrite E. cbn [bind]. destruct fin.
    - destruct F as (F & E0 & QP). cbn [bind]. destruct (answer_ok l w0 z0 c0 F Z1 W1) as (w & z & EA & A1 & A2 & A3 & A4 & A5). rewrite EA. cbn [bind].
      eexists. split; [reflexivity|]. cbv beta iota. conjs; auto.
    - destruct F as (F & PP & (i0 & Hi0 & Q0)). assert (NQ : ~ (forall i, (i < n)%nat -> 0 <= vel q i)) by (intros X; specialize (X i0 Hi0); lra).
      destruct (iter_ok n Hn tol Ht lT (vel q) c0 fuel l F PP) as (r & ER & H). rewrite ER. cbn [bind].
      destruct r as [|l'|]; [eexists; split; [reflexivity|exact NQ]| |eexists; split; [reflexivity|exact NQ]].
      destruct (answer_ok l' w0 z0 c0 H Z1 W1) as (w & z & EA & A1 & A2 & A3 & A4 & A5). rewrite EA. cbn [bind].
      eexists. split; [reflexivity|]. cbv beta iota. conjs; auto. intros X. now apply NQ in X.
  Qed.
End Solve.
