(** Proofs about clustering (C57): the reassignment of the points to the cores. *)
From Coq Require Import List Permutation Lia.
From Verif Require Import Prelude Prelude_Proofs Scalar Fmat Fmat_Proofs LE_Model IP_Model Vop Stat_Model Stat2_Proofs Cluster_Model.
Import ListNotations.

Lemma purge_perm l j p : nth_error l j = Some p -> Permutation l (p :: purge l j).
Proof.
  intros H. unfold purge. rewrite <- (firstn_skipn j l) at 1.
  assert (E : skipn j l = p :: skipn (S j) l).
  { revert j H. induction l as [|a l IH]; intros [|j] H; cbn in *; try discriminate; [now injection H as ->|]. now apply IH. }
  rewrite E. symmetry. apply Permutation_middle.
Qed.
Lemma purge_length l j p : nth_error l j = Some p -> length l = S (length (purge l j)).
Proof. intros H. apply purge_perm, Permutation_length in H. exact H. Qed.
Lemma purge_nth l j k : k < j -> j < length l -> nth k (purge l j) O = nth k l O.
Proof.
  intros H1 H2. unfold purge. rewrite app_nth1 by (rewrite firstn_length; lia).
  revert j k H1 H2. induction l as [|a l IH]; intros [|j] [|k] H1 H2; cbn in *; try lia; auto. apply IH; lia.
Qed.
Lemma concat_upd {A} (l : list (list A)) i x d : i < length l -> Permutation (concat (upd l i x) ++ nth i l d) (concat l ++ x).
Proof.
  revert i. induction l as [|a l IH]; intros [|i] H; cbn in *; try lia.
  - rewrite <- !app_assoc. rewrite (Permutation_app_comm x). rewrite <- app_assoc. rewrite (Permutation_app_comm (concat l)). rewrite <- app_assoc. apply Permutation_app_head.
    apply Permutation_app_comm.
  - rewrite <- !app_assoc. apply Permutation_app_head. apply IH. lia.
Qed.
Lemma perm_move {A} (X Y Z c l q : list A) p : Permutation (X ++ c) (Y ++ (c ++ [p])) -> Permutation (Y ++ l) (Z ++ q) -> Permutation l (p :: q) -> Permutation X Z.
Proof.
  intros P1 P2 P3. rewrite (Permutation_app_comm c [p]), app_assoc in P1. apply Permutation_app_inv_r in P1. rewrite P3 in P2.
  rewrite P1. apply (Permutation_app_inv_r q). rewrite <- P2, <- app_assoc. reflexivity.
Qed.
Lemma map_upd {A B} (f : A -> B) l i x : map f (upd l i x) = upd (map f l) i (f x).
Proof. revert i. induction l as [|a l IH]; intros [|i]; cbn; auto. now rewrite IH. Qed.
Lemma nth_of_error {A} (l : list A) i x d : nth_error l i = Some x -> nth i l d = x.
Proof. intros H. now apply nth_error_nth. Qed.

Section Near.
  Context {T : Type} {ST : Scalar T}.
  Local Notation vec := (fvec T).
  Context (D : nat -> vec -> T).
  (** the first of the nearest cores, of [n] ones given by [g] *)
  Definition bestT (s : option T * nat) (d : T) (j : nat) : option T * nat :=
    if match fst s with None => true | Some m => slt d m end then (Some d, j) else s.
  Fixpoint near (g : nat -> vec) (p n : nat) : option T * nat :=
    match n with O => (None, O) | S k => bestT (near g p k) (D p (g k)) k end.
  Lemma near_ext g g' p n : (forall j, j < n -> g j = g' j) -> near g p n = near g' p n.
  Proof. induction n as [|n IH]; intros H; cbn; auto. rewrite IH by (intros; apply H; lia). now rewrite (H n) by lia. Qed.
  Lemma near_lt g p n : 0 < n -> snd (near g p n) < n /\ fst (near g p n) = Some (D p (g (snd (near g p n)))).
  Proof.
    induction n as [|n IH]; [lia|]. intros _. cbn [near]. unfold bestT. destruct n as [|n].
    - cbn. auto.
    - destruct IH as (A & B); [lia|]. rewrite B. destruct (slt _ _); cbn [fst snd]; auto.
  Qed.
End Near.

Section Cluster.
  Context {T : Type} {ST : Scalar T}.
  Local Notation vec := (fvec T).
  Local Notation cluster := (@cluster T).
  Context (errsq : vec -> vec -> res T) (coref : list vec -> vec -> res vec) (pt : nat -> vec).
  (** the points, the vectors that may be cores; the functions of the method do not fail on them *)
  Context (points : list nat) (cok : vec -> Prop) (D : nat -> vec -> T).
  Context (HD : forall p c, In p points -> cok c -> errsq (pt p) c = Ok (D p c)).
  Definition all (cs : list cluster) : list nat := concat (map sam cs).
  Definition c0 : cluster := Cl [] (vzero 0) s0.
  Definition csam (cs : list cluster) (i : nat) : list nat := sam (nth i cs c0).
  Definition ccore (cs : list cluster) (i : nat) : vec := core (nth i cs c0).

  Local Notation near := (near D).
  Definition wf (cs : list cluster) : Prop := (forall p, In p (all cs) -> In p points) /\ forall i, i < length cs -> cok (ccore cs i).
  Lemma nearest_ok cs i p : wf cs -> 0 < length cs -> In p points -> nearest_core errsq pt cs i p = Ok (snd (near (ccore cs) p (length cs))).
  Proof.
    intros (W1 & W2) L P. unfold nearest_core.
    match goal with |- context [for_ 0 (length cs) ?f ?s] => destruct (for_inv (fun k st => st = if k =? 0 then (None, i) else near (ccore cs) p k) 0 (length cs) f s) as (s' & E & ->) end; [lia|reflexivity| |].
    - intros k s Hk ->. rewrite (get_ok _ k c0) by lia. cbn [bind]. change (core (nth k cs c0)) with (ccore cs k).
      destruct (Nat.eqb_spec k 0) as [->|N].
      + rewrite (HD p) by (auto; apply W2; lia). cbn [bind]. eexists. split; [reflexivity|]. reflexivity.
      + rewrite (HD p) by (auto; apply W2; lia). cbn [near Nat.eqb]. destruct (near (ccore cs) p k) as (dm & c). cbn [bind]. unfold bestT. cbn [fst].
        destruct dm as [m|]; [destruct (slt _ _)|]; eexists; (split; [reflexivity|]); reflexivity.
    - rewrite E. destruct (Nat.eqb_spec (length cs) 0); [lia|]. destruct (near _ _ _). reflexivity.
  Qed.

  Lemma csam_upd cs i c j : i < length cs -> csam (upd cs i c) j = if j =? i then sam c else csam cs j.
  Proof. intros H. unfold csam. rewrite nth_upd by auto. now destruct (j =? i). Qed.
  Lemma ccore_upd cs i c j : i < length cs -> core c = ccore cs i -> ccore (upd cs i c) j = ccore cs j.
  Proof. intros H E. unfold ccore in *. rewrite nth_upd by auto. destruct (Nat.eqb_spec j i); subst; auto. Qed.
  Lemma all_upd cs i c : i < length cs -> Permutation (all (upd cs i c) ++ csam cs i) (all cs ++ sam c).
  Proof.
    intros H. unfold all, csam. rewrite map_upd. pose proof (concat_upd (map sam cs) i (sam c) (sam c0)) as P. rewrite map_length in P. specialize (P H).
    now rewrite map_nth in P.
  Qed.
  Lemma in_all cs i p : i < length cs -> In p (csam cs i) -> In p (all cs).
  Proof. intros H I. unfold all. apply in_concat. exists (csam cs i). split; auto. unfold csam. apply in_map, nth_In. auto. Qed.
  Lemma all_in cs p : In p (all cs) -> exists i, i < length cs /\ In p (csam cs i).
  Proof.
    unfold all. intros I. apply in_concat in I. destruct I as (l & Il & Ip). apply in_map_iff in Il. destruct Il as (c & <- & Ic).
    apply (In_nth _ _ c0) in Ic. destruct Ic as (i & Hi & <-). eauto.
  Qed.

  (** ** the cores *)
  Definition vsum (l : list nat) (c : vec) : T := fold_left (fun v p => sadd v (D p c)) l s0.
  Lemma var_ok (c : cluster) : (forall p, In p (sam c) -> In p points) -> cok (core c) ->
    _zVecMultiClusterVar errsq pt c = Ok (Cl (sam c) (core c) (sdiv (vsum (sam c) (core c)) (sofZ (Z.of_nat (length (sam c)))))).
  Proof.
    intros I K. unfold _zVecMultiClusterVar.
    destruct (foreach_inv (fun pre v => v = vsum pre (core c)) (fun p v => d <- errsq (pt p) (core c) ;; Ok (sadd v d)) (sam c) [] s0) as (v & E & V).
    - reflexivity.
    - intros pre a s Ia ->. rewrite HD by auto. cbn [bind]. eexists. split; [reflexivity|]. unfold vsum. now rewrite fold_left_app.
    - rewrite E. cbn [bind]. now rewrite V.
  Qed.
  Definition fine (cs : list cluster) : Prop := forall i, i < length cs -> exists m, coref (map pt (csam cs i)) (ccore cs i) = Ok m /\ cok m.
  (** the cores, and the variances, of [cs'] are those of the samples of [cs] *)
  Definition cores_of (cs cs' : list cluster) : Prop :=
    length cs' = length cs /\ wf cs' /\
    (forall i, csam cs' i = csam cs i) /\ all cs' = all cs /\
    (forall i, i < length cs -> coref (map pt (csam cs i)) (ccore cs i) = Ok (ccore cs' i)) /\
    (forall i, i < length cs -> var (nth i cs' c0) = sdiv (vsum (csam cs i) (ccore cs' i)) (sofZ (Z.of_nat (length (csam cs i))))).
  Lemma cores_ok cs : wf cs -> fine cs -> exists cs', compute_cores errsq coref pt cs = Ok cs' /\ cores_of cs cs'.
  Proof.
    intros W HC. revert W. unfold cores_of.
    intros (W1 & W2). unfold compute_cores.
    match goal with |- context [for_ 0 (length cs) ?f ?s] => destruct (for_inv (fun k cs' => length cs' = length cs /\ (forall i, csam cs' i = csam cs i) /\
      (forall i, i < length cs -> cok (ccore cs' i)) /\ (forall i, i < length cs -> k <= i -> ccore cs' i = ccore cs i) /\
      (forall i, i < k -> coref (map pt (csam cs i)) (ccore cs i) = Ok (ccore cs' i)) /\
      (forall i, i < k -> var (nth i cs' c0) = sdiv (vsum (csam cs i) (ccore cs' i)) (sofZ (Z.of_nat (length (csam cs i))))))
      0 (length cs) f s) as (cs' & E & A1 & A2 & A3 & A4 & A5 & A6) end; [lia| | |].
    - conjs; auto; intros; lia.
    - intros k cs' Hk (A1 & A2 & A3 & A4 & A5 & A6). rewrite (get_ok _ k c0) by lia. cbn [bind]. change (sam (nth k cs' c0)) with (csam cs' k). change (core (nth k cs' c0)) with (ccore cs' k).
      rewrite A2, A4 by lia. assert (IP : forall p, In p (csam cs k) -> In p points) by (intros p Ip; apply W1; eapply in_all; eauto; lia).
      destruct (HC k) as (m & E & M); [lia|].
      rewrite E. cbn [bind]. rewrite var_ok by (cbn [sam core]; auto). cbn [bind sam core]. rewrite set_ok by lia. eexists. split; [reflexivity|].
      assert (NU : forall i c, nth i (upd cs' k c) c0 = if i =? k then c else nth i cs' c0) by (intros; apply nth_upd; lia).
      conjs.
      + now rewrite upd_length.
      + intros i. unfold csam at 1. rewrite NU. destruct (Nat.eqb_spec i k) as [->|]; cbn [sam]; auto. apply A2.
      + intros i Hi. unfold ccore. rewrite NU. destruct (Nat.eqb_spec i k) as [->|]; cbn [core]; auto. now apply A3.
      + intros i Hi Hk'. unfold ccore at 1. rewrite NU. destruct (Nat.eqb_spec i k) as [->|]; [lia|]. apply A4; lia.
      + intros i Hi. unfold ccore at 2. rewrite NU. destruct (Nat.eqb_spec i k) as [->|]; cbn [core]; auto. apply A5; lia.
      + intros i Hi. unfold ccore. rewrite !NU. destruct (Nat.eqb_spec i k) as [->|]; cbn [core var]; auto. apply A6; lia.
    - exists cs'. conjs; auto.
      + split; [|rewrite A1; auto]. intros p Ip. apply all_in in Ip. destruct Ip as (i & Hi & Ip). rewrite A2 in Ip. apply W1. apply (in_all cs i); auto. lia.
      + unfold all. f_equal. apply (nth_ext_len _ _ [] (length cs)); rewrite ?map_length; auto. intros i Hi.
        change [] with (sam c0). rewrite !map_nth. apply A2.
  Qed.

  (** ** the reassignment *)
  Section Reassign.
    Context (cs0 : list cluster) (k : nat) (Hk : 0 < k) (L0 : length cs0 = k) (W0 : wf cs0).
    Definition nc0 (p : nat) : nat := snd (near (ccore cs0) p k).
    (** what every state of the pass keeps *)
    Definition keep (cs : list cluster) : Prop := length cs = k /\ (forall i, ccore cs i = ccore cs0 i) /\ Permutation (all cs) (all cs0).
    Lemma keep_wf cs : keep cs -> wf cs.
    Proof.
      intros (A & B & P). destruct W0 as (W1 & W2). split.
      - intros p Ip. apply W1. eapply Permutation_in; eauto.
      - intros i Hi. rewrite B. apply W2. lia.
    Qed.
    Lemma keep_near cs i p : keep cs -> In p (all cs) -> nearest_core errsq pt cs i p = Ok (nc0 p).
    Proof.
      intros K Ip. pose proof (keep_wf cs K) as W. destruct K as (A & B & P). rewrite nearest_ok by (auto; first [lia | apply W; auto]).
      f_equal. unfold nc0. f_equal. rewrite A. apply near_ext. intros; apply B.
    Qed.
    Lemma nc0_lt p : nc0 p < k.
    Proof. apply near_lt. auto. Qed.
    Definition settled (cs : list cluster) (i n : nat) : Prop := forall j, j < n -> nc0 (nth j (csam cs i) O) = i.
    (** a state while the i-th cluster is looked through *)
    Lemma one_ok i cs moved : i < k -> keep cs -> (forall i', i' < i -> settled cs i' (length (csam cs i'))) ->
      (moved = false -> cs = cs0) ->
      exists cs' moved', reassign_one errsq pt i (cs, moved) = Ok (cs', moved') /\ keep cs' /\
        (forall i', i' < S i -> settled cs' i' (length (csam cs' i'))) /\ (moved' = false -> cs' = cs0).
    Proof.
      intros Hi K S M. unfold reassign_one. destruct K as (K1 & K2 & K3). rewrite (get_ok _ i c0) by lia. cbn [bind]. change (sam (nth i cs c0)) with (csam cs i).
      match goal with |- context [for_ 0 (length (csam cs i)) ?f ?s] => destruct (for_inv (fun n '(cs', j, moved') =>
        keep cs' /\ (forall i', i' < i -> settled cs' i' (length (csam cs' i'))) /\ settled cs' i j /\ j <= length (csam cs' i) /\
        length (csam cs' i) + n = length (csam cs i) + j /\ (moved' = false -> cs' = cs0)) 0 (length (csam cs i)) f s) as (((cs' & j) & moved') & E & A1 & A2 & A3 & A4 & A5 & A6) end; [lia| | |].
      - conjs; auto; try lia. + split; auto. + intros j Hj. lia.
      - intros n [[cs' j] moved'] Hn (A1 & A2 & A3 & A4 & A5 & A6). pose proof A1 as (B1 & B2 & B3).
        rewrite (get_ok _ i c0) by lia. cbn [bind]. change (sam (nth i cs' c0)) with (csam cs' i).
        assert (Lj : j < length (csam cs' i)) by lia. rewrite (get_ok _ j O) by lia. cbn [bind].
        set (p := nth j (csam cs' i) O). assert (Ip : In p (csam cs' i)) by (apply nth_In; auto).
        assert (Ia : In p (all cs')) by (apply (in_all cs' i); auto; lia).
        rewrite (keep_near cs' i p A1 Ia). cbn [bind]. destruct (Nat.eqb_spec (nc0 p) i) as [En|Nn].
        + eexists. split; [reflexivity|]. cbn beta iota. conjs; auto; try lia.
          intros j' Hj'. assert (j' = j \/ j' < j) as [->|] by lia; auto.
        + pose proof (nc0_lt p) as Lc. set (c := nc0 p) in *. rewrite set_ok by lia. cbn [bind]. rewrite (get_ok _ c c0) by (rewrite upd_length; lia). cbn [bind].
          rewrite set_ok by (rewrite upd_length; lia). cbn [bind]. eexists. split; [reflexivity|]. cbn beta iota.
          set (ci := Cl (purge (csam cs' i) j) (core (nth i cs' c0)) (var (nth i cs' c0))).
          set (cs1 := upd cs' i ci).
          assert (L1 : length cs1 = k) by (unfold cs1; rewrite upd_length; auto).
          assert (NE : nth_error (csam cs' i) j = Some p) by (apply nth_error_nth'; auto).
          assert (S1 : forall i', csam cs1 i' = if i' =? i then purge (csam cs' i) j else csam cs' i') by (intros; unfold cs1; rewrite csam_upd by lia; reflexivity).
          assert (Ec : sam (nth c cs1 c0) = csam cs' c). { change (csam cs1 c = csam cs' c). rewrite S1. destruct (Nat.eqb_spec c i); [contradiction|auto]. }
          set (cc := Cl (sam (nth c cs1 c0) ++ [p]) (core (nth c cs1 c0)) (var (nth c cs1 c0))).
          assert (S2 : forall i', csam (upd cs1 c cc) i' = if i' =? c then csam cs' c ++ [p] else if i' =? i then purge (csam cs' i) j else csam cs' i').
          { intros i'. rewrite csam_upd by lia. unfold cc. cbn [sam]. rewrite Ec. destruct (i' =? c); auto. }
          assert (PR : length (csam cs' i) = Datatypes.S (length (purge (csam cs' i) j))) by (eapply purge_length; eauto).
          conjs.
          * split; [rewrite upd_length; auto|]. split.
            { intros i'. rewrite ccore_upd; [|lia|reflexivity]. unfold cs1. rewrite ccore_upd; [apply B2|lia|reflexivity]. }
            { rewrite <- B3. pose proof (all_upd cs1 c cc ltac:(lia)) as P1. pose proof (all_upd cs' i ci ltac:(lia)) as P2. fold cs1 in P2.
              replace (sam cc) with (csam cs' c ++ [p]) in P1 by (unfold cc; cbn [sam]; now rewrite Ec). replace (csam cs1 c) with (csam cs' c) in P1 by (rewrite <- Ec; reflexivity).
              unfold ci in P2. cbn [sam] in P2. exact (perm_move _ _ _ _ _ _ _ P1 P2 (purge_perm _ _ _ NE)). }
          * intros i' Hi' j' Hj'. rewrite S2 in Hj' |- *. destruct (Nat.eqb_spec i' c) as [->|].
            { rewrite app_length in Hj'. cbn in Hj'. assert (j' < length (csam cs' c) \/ j' = length (csam cs' c)) as [X|X] by lia.
              - rewrite app_nth1 by auto. now apply A2.
              - subst j'. rewrite app_nth2 by lia. rewrite Nat.sub_diag. reflexivity. }
            destruct (Nat.eqb_spec i' i); [lia|]. now apply A2.
          * intros j' Hj'. rewrite S2. destruct (Nat.eqb_spec i c); [lia|]. rewrite Nat.eqb_refl. rewrite purge_nth by auto. now apply A3.
          * rewrite S2. destruct (Nat.eqb_spec i c); [lia|]. rewrite Nat.eqb_refl. lia.
          * rewrite S2. destruct (Nat.eqb_spec i c); [lia|]. rewrite Nat.eqb_refl. lia.
          * discriminate.
      - rewrite E. cbn [bind]. exists cs', moved'. conjs; auto.
        intros i' Hi'. assert (i' = i \/ i' < i) as [->|] by lia; auto. replace (length (csam cs' i)) with j by lia. exact A3.
    Qed.
    Lemma reassign_ok : exists cs' moved, reassign errsq pt cs0 = Ok (cs', moved) /\ keep cs' /\
      (forall i p, i < k -> In p (csam cs' i) -> nc0 p = i) /\ (moved = false -> cs' = cs0).
    Proof.
      unfold reassign. rewrite L0.
      destruct (for_inv (fun n '(cs', moved) => keep cs' /\ (forall i', i' < n -> settled cs' i' (length (csam cs' i'))) /\ (moved = false -> cs' = cs0))
        0 k (reassign_one errsq pt) (cs0, false)) as ((cs' & moved) & E & A1 & A2 & A3); [lia| | |].
      - conjs; auto. + split; auto. + intros; lia.
      - intros n [cs' moved] Hn (A1 & A2 & A3). destruct (one_ok n cs' moved) as (cs2 & m2 & E & B1 & B2 & B3); auto; [lia|]. exists (cs2, m2). split; auto.
      - exists cs', moved. conjs; auto. intros i p Hi Ip. apply (In_nth _ _ O) in Ip. destruct Ip as (j & Hj & <-). now apply A2.
    Qed.
  End Reassign.

  (** ** the rounds *)
  Definition settled_all (cs : list cluster) : Prop := forall i p, i < length cs -> In p (csam cs i) -> snd (near (ccore cs) p (length cs)) = i.
  (** [cs2] is [cs1] after a pass *)
  Definition reassigned (cs1 cs2 : list cluster) : Prop :=
    length cs2 = length cs1 /\ (forall i, ccore cs2 i = ccore cs1 i) /\ Permutation (all cs2) (all cs1) /\ wf cs2 /\ settled_all cs2.
  Definition fresh (cs : list cluster) : Prop := exists old, length old = length cs /\ wf old /\ cores_of old cs.
  Section Rounds.
    Context (Inv : list cluster -> Prop) (HF : forall cs, 0 < length cs -> wf cs -> Inv cs -> fine cs)
      (HI : forall cs cs1 cs2, 0 < length cs -> wf cs -> Inv cs -> cores_of cs cs1 -> reassigned cs1 cs2 -> Inv cs2).
    Theorem recluster_ok rest : forall i cs, wf cs -> Inv cs -> 0 < length cs ->
      exists cs' n, recluster_loop errsq coref pt rest i cs = Ok (cs', n) /\ i <= n <= i + rest /\ wf cs' /\ Inv cs' /\ length cs' = length cs /\
        Permutation (all cs') (all cs) /\ (n < i + rest -> fresh cs') /\
        (0 < rest -> exists a b, 0 < length a /\ wf a /\ Inv a /\ cores_of a b /\ reassigned b cs').
    Proof.
      induction rest as [|rest IH]; intros i cs W IN L; cbn [recluster_loop].
      - exists cs, i. conjs; auto; try lia.
      - destruct (cores_ok cs W (HF _ L W IN)) as (cs1 & E1 & CO). pose proof CO as (L1 & W1 & S1 & A1 & C1 & V1). rewrite E1. cbn [bind].
        destruct (reassign_ok cs1 (length cs) L ltac:(auto) W1) as (cs2 & moved & E2 & K & N & M). rewrite E2. cbn [bind].
        pose proof (keep_wf cs1 (length cs) L L1 W1 cs2 K) as W2. destruct K as (K1 & K2 & K3).
        assert (RE : reassigned cs1 cs2).
        { unfold reassigned. rewrite L1. conjs; auto. intros j p Hj Ip. rewrite K1 in *. rewrite (near_ext D _ (ccore cs1)) by (intros; apply K2). now apply N. }
        pose proof (HI _ _ _ L W IN CO RE) as IN2.
        destruct moved.
        + destruct (IH (S i) cs2 W2 IN2) as (cs' & n & E & B1 & B2 & B3 & B4 & B5 & B6 & B7); [lia|]. exists cs', n. conjs; auto; try lia.
          * rewrite B5, K3, A1. reflexivity.
          * intros; apply B6; lia.
          * intros _. destruct rest; [|apply B7; lia]. cbn in E. injection E as <- <-. exists cs, cs1. auto.
        + specialize (M eq_refl). subst cs2. exists cs1, i. conjs; auto; try lia.
          * now rewrite A1.
          * intros _. exists cs. auto.
          * intros _. exists cs, cs1. auto.
    Qed.
  End Rounds.
End Cluster.
