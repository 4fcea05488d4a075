(** C94, C95: the DIRECT method. *)
From Coq Require Import List Arith Lia Reals Lra QArith Permutation.
From Verif Require Import Prelude Prelude_Proofs Scalar RealLib Direct_Model Direct_Spec Direct_Proofs Direct2_Proofs Direct3_Proofs.
Import ListNotations.
Local Open Scope R_scope.

Definition rounds (zmax iter : nat) : nat := match iter with O => zmax | _ => iter end.
Definition in_box (mn mx x : list R) : Prop := length x = length mn /\ forall i, (i < length mn)%nat -> nth i mn 0 <= nth i x 0 <= nth i mx 0.
(** the middle of the search domain *)
Definition middle (mn mx : list R) : list R := map (fun i => (nth i mn 0 + nth i mx 0) / 2) (List.seq 0 (length mn)).

Lemma nth_dom dim mn mx x i : (i < dim)%nat -> nth i (to_domain dim mn mx x) 0 = nth i mn 0 + nth i x 0 * (nth i mx 0 - nth i mn 0).
Proof.
  intros H. unfold to_domain. set (g := fun j => _). rewrite (nth_indep _ 0 (g 0%nat)) by (rewrite map_length, seq_length; auto).
  rewrite map_nth, seq_nth by auto. reflexivity.
Qed.

Section Direct.
  Variables (f : list R -> R) (mn mx : list R) (zmax level_max : nat).
  Let dim := length mn.
  Hypothesis Hdim : (0 < dim)%nat.
  Hypothesis Hlen : length mx = dim.
  Hypothesis Hbox : forall i, (i < dim)%nat -> nth i mn 0 <= nth i mx 0.
  Local Notation solve iter := (zOptSolveDIRECT f dim zmax mn mx iter level_max).
  Local Notation after k := (s <- _zOptDIRECTRectSetInit f dim mn mx level_max ;; direct_loop f dim mn mx k 0 s 0).

  Lemma tiles_mid L : tiles f dim mn mx L -> exists r, In r L /\ rx r = map (fun _ => / 2) (List.seq 0 dim).
  Proof.
    induction 1 as [r H1 H2 H3|r L i HL [q [I E]] Hi|L L' _ [q [I E]] P].
    - exists r. split; [left; auto|auto].
    - destruct I as [<-|I]; [eexists; split; [left; reflexivity|exact E]|exists q; split; auto; cbn; auto].
    - exists q. split; auto. eapply Permutation_in; eauto.
  Qed.

  Lemma centre_in_box r : wf f dim mn mx r -> (forall p, closed_cell dim (cell_of r) p -> in_cube dim p) -> in_box mn mx (to_domain dim mn mx (rx r)).
  Proof using All.
    intros [W1 _] H. split; [unfold to_domain; rewrite map_length, seq_length; auto|]. intros i Hi. rewrite nth_dom by auto.
    assert (C : in_cube dim (fun j => nth j (rx r) 0)).
    { apply H. intros j _. cbn [cell_of fst]. rewrite Rminus_diag_eq, Rabs_R0 by auto. unfold half_edge. pose proof (pow3_pos (nth j (snd (cell_of r)) 0%nat)) as P.
      apply Rinv_0_lt_compat in P. lra. }
    specialize (C i Hi). cbn in C. specialize (Hbox i Hi). split.
    - rewrite <- (Rplus_0_r (nth i mn 0)) at 1. apply Rplus_le_compat_l, Rmult_le_pos; lra.
    - replace (nth i mx 0) with (nth i mn 0 + 1 * (nth i mx 0 - nth i mn 0)) at 2 by ring. apply Rplus_le_compat_l, Rmult_le_compat_r; lra.
  Qed.

  Lemma dom_middle : to_domain dim mn mx (map (fun _ => / 2) (List.seq 0 dim)) = middle mn mx.
  Proof using All.
    unfold to_domain, middle. apply map_ext_in. intros i Hi. apply in_seq in Hi. rewrite nth_const by lia. lra.
  Qed.

  (** After any number of rounds, the cells whose centres were evaluated are a partition of the domain, the values kept are those
      of the function at the centres, all of them are points of the domain, and each round evaluated two points at least. *)
  Theorem C94_partition : forall k, exists i s m, after k = Ok (i, s, m) /\ (i <= k)%nat /\
    partition dim (map (fun r => (rx r, rlev r)) (concat s)) /\ (2 * i + 1 <= length (concat s))%nat /\
    forall r, In r (concat s) -> rval r = f (to_domain dim mn mx (rx r)) /\ in_box mn mx (to_domain dim mn mx (rx r)).
  Proof using All.
    intros k. destruct (init_ok f dim mn mx level_max Hdim) as [s0 [E0 [G0 [T0 L0]]]].
    destruct (loop_ok f dim mn mx level_max Hdim k 0 s0 0 G0 T0) as [i [s [m [E [G [T [N [C [B _]]]]]]]]]. { destruct (concat s0); [discriminate|congruence]. }
    exists i, s, m. rewrite E0. cbn [bind]. split; auto. split; [lia|]. pose proof (tiles_partition _ _ _ _ _ T) as P. split; [exact P|]. split; [lia|].
    intros r Hr. pose proof (tiles_wf _ _ _ _ _ T) as W. rewrite Forall_forall in W. specialize (W r Hr). split; [apply W|]. apply centre_in_box; auto.
    destruct P as [P _]. apply P. apply in_map; auto.
  Qed.

  (** The cells a round cuts.  Those of edge 3^-l are in the list l.  The round cuts the best of the largest cells and the best
      of all; a cell that is cut is the best of its size; the next smaller one that is cut is that with the steepest
      descent of the value over the edge length. *)
  Definition slope (l : nat) (c : rect R) (q : nat) (t : rect R) : R := (rval c - rval t) / (/ 3 ^ l - / 3 ^ q).
  Lemma rate_slope l c q t : (l < q)%nat -> rate l c q t = slope l c q t.
  Proof.
    intros H. unfold rate, slope. replace q with (l + (q - l))%nat at 2 by lia. rewrite pow_add.
    pose proof (pow3_pos l) as P1. assert (1 < 3 ^ (q - l)) by (apply Rlt_pow_R1; [lra|lia]). field. split; [lra|]. split; [lra|lra].
  Qed.
  Theorem C94_selected : forall k i s m0 m s1 por, after k = Ok (i, s, m0) -> _zOptDIRECTRectPORIdent s = Ok (m, Some (s1, por)) ->
    (forall l d, nth_error por l = Some (Some d) -> exists L, nth_error s l = Some L /\ In d L /\ forall r, In r L -> rval d <= rval r) /\
    (exists l d, nth_error por l = Some (Some d) /\ forall l' r L, nth_error s l' = Some L -> In r L -> (l <= l')%nat) /\
    (exists d, nth_error por m = Some (Some d) /\ forall r, In r (concat s) -> rval d <= rval r) /\
    (forall l d, nth_error por l = Some (Some d) -> (l < m)%nat -> exists j e, (l < j <= m)%nat /\ nth_error por j = Some (Some e) /\
       (forall l', (l < l' < j)%nat -> nth_error por l' = Some None) /\
       forall q L t, (l < q <= m)%nat -> nth_error s q = Some L -> In t L -> slope l d q t <= slope l d j e).
  Proof using All.
    intros k i s m0 m s1 por Ha Hid. destruct (init_ok f dim mn mx level_max Hdim) as [s0 [E0 [G0 [T0 L0]]]].
    destruct (loop_ok f dim mn mx level_max Hdim k 0 s0 0 G0 T0) as [i' [s' [m' [E [G [T [N _]]]]]]]. { destruct (concat s0); [discriminate|congruence]. }
    rewrite E0 in Ha. cbn [bind] in Ha. rewrite E in Ha. injection Ha as -> -> ->.
    destruct (find_min_ok f dim mn level_max Hdim s G N) as [v [m1 [Ef [[cm [Lm [Em Hb]]] Hf]]]]. unfold _zOptDIRECTRectPORIdent in Hid. rewrite Ef in Hid. cbn [bind] in Hid.
    destruct (S m1 =? length s)%nat; [discriminate|]. destruct (first_ok s N 0) as [i0 [c [L [E1 [Ei Hfirst]]]]]. cbn [Nat.add] in E1. rewrite E1 in Hid. cbn [bind] in Hid.
    specialize (Hf i0 c L E1 Ei). destruct (ident_loop _ _ _ _ _) as [[s2 por2]|] eqn:El; [|discriminate]. cbn [bind] in Hid. injection Hid as -> -> ->. destruct G as [Ln G].
    destruct (ident_sel f dim mn mx level_max Hdim (length s) s (map (fun _ => None) s) i0 m c L cm Lm s1 por) as [S1 [S2 [S3 S4]]]; auto.
    { rewrite map_length; auto. }
    { intros l Hl. rewrite nth_error_map. destruct (nth_error s l) eqn:Es; [reflexivity|]. apply nth_error_None in Es. lia. }
    assert (S5 : forall l d, nth_error por l = Some (Some d) -> (i0 <= l)%nat).
    { intros l d Hd. destruct (Nat.le_gt_cases i0 l) as [H|H]; auto. rewrite S1, nth_error_map in Hd by auto. destruct (nth_error s l); discriminate. }
    assert (Least : forall l d Ld, nth_error s l = Some (d :: Ld) -> forall r, In r (d :: Ld) -> rval d <= rval r).
    { intros l d Ld Hd r [<-|Hr]; [lra|]. destruct (G _ _ Hd) as [_ Hs]. inversion Hs as [|? ? _ Fs]; subst. rewrite Forall_forall in Fs. exact (Fs r Hr). }
    split; [|split; [|split]].
    - intros l d Hd. destruct (S4 l d (S5 l d Hd) Hd) as [_ [[Ld H2] _]]. exists (d :: Ld). split; auto. split; [left; auto|]. eauto.
    - exists i0, c. split; auto. intros l' r L' El' Hr. destruct L' as [|c' L']; [destruct Hr|]. eauto.
    - exists cm. auto.
    - intros l d Hd Hlm. destruct (S4 l d (S5 l d Hd) Hd) as [_ [_ H3]]. destruct (H3 Hlm) as [j [e [K1 [K2 [K3 K4]]]]]. exists j, e. split; auto. split; auto. split; auto.
      intros q Lq t Hq Eq Ht. rewrite <- (rate_slope l d j e) by lia. destruct Lq as [|t0 Lq]; [destruct Ht|]. eapply Rle_trans; [|apply (K4 q t0 Lq); auto].
      rewrite rate_slope by lia. unfold slope. apply Rmult_le_compat_r; [|pose proof (Least _ _ _ Eq t Ht); lra].
      apply Rlt_le, Rinv_0_lt_compat. pose proof (pow3_pos l) as P1. assert (3 ^ l < 3 ^ q) by (apply Rlt_pow; [lra|lia]). assert (/ 3 ^ q < / 3 ^ l); [|lra].
      apply Rinv_lt_contravar; auto. apply Rmult_lt_0_compat; lra.
  Qed.

  (** A cut cell [r]: of two directions in which it is longest, the one with the better of the values on its two sides leaves the larger pieces:
      they are not cut in the other direction. *)
  Definition side (r : rect R) (i : nat) (d : R) : list R := upd (rx r) i (nth i (rx r) 0 + d).
  Definition side_value (r : rect R) (l i : nat) : R := Rmin (f (to_domain dim mn mx (side r i (/ 3 ^ S l)))) (f (to_domain dim mn mx (side r i (- / 3 ^ S l)))).
  Theorem C94_cut_order : forall s l r s', _zOptDIRECTRectSetRectDivide f dim mn mx s l r = Ok s' ->
    length (rx r) = dim -> length (rlev r) = dim -> rval r = f (to_domain dim mn mx (rx r)) ->
    forall i j, (i < dim)%nat -> (j < dim)%nat -> nth i (rlev r) O = l -> nth j (rlev r) O = l -> side_value r l i < side_value r l j ->
    exists p q, In p (concat s') /\ In q (concat s') /\ rx p = side r i (/ 3 ^ S l) /\ rx q = side r i (- / 3 ^ S l) /\ nth j (rlev p) O = l /\ nth j (rlev q) O = l.
  Proof using All.
    intros s l r s' H W1 W2 W3 i j Hi Hj Ei Ej Hlt. unfold _zOptDIRECTRectSetRectDivide in H.
    destruct (directions_ok f dim mn mx r l (conj W1 (conj W2 W3))) as [idx [E [H1 [H2 H3]]]]. rewrite E in H. cbn [bind] in H.
    destruct (directions_sorted f dim mn mx r l idx E) as [S1 S2].
    specialize (H3 i Hi Ei) as Ii. specialize (H3 j Hj Ej) as Ij. apply in_map_iff in Ii. destruct Ii as [p [Dp Ip]]. apply in_map_iff in Ij. destruct Ij as [q [Dq Iq]].
    rewrite Forall_forall in H1, S2.
    assert (V : forall x, In x idx -> pw x = side_value r l (dir x)).
    { intros x Hx. rewrite (S2 x Hx). destruct (H1 x Hx) as [_ [Lx [_ [Vp [_ Vn]]]]]. rewrite Vp, Vn. unfold shift, third, side_value, side. cbn [rval]. rewrite Lx. reflexivity. }
    apply in_split in Ip. destruct Ip as [a [b ->]]. destruct (divide_order a p b s l r s' H) as [lev [I1 [I2 I3]]].
    assert (Ipp : In p (a ++ p :: b)) by (apply in_or_app; right; left; auto).
    destruct (H1 p Ipp) as [_ [Lp [Xp [_ [Xn _]]]]].
    assert (Nq : ~ In j (map dir (a ++ [p]))).
    { rewrite map_app, in_app_iff. intros [I|[I|[]]].
      - apply in_map_iff in I. destruct I as [y [Dy Iy]]. assert (Wy : pw y <= pw p).
        { apply in_split in Iy. destruct Iy as [a1 [a2 ->]]. clear - S1. rewrite <- app_assoc in S1. cbn in S1. induction a1 as [|z a1 IH]; cbn in S1; inversion S1 as [|? ? S Fo]; subst; auto.
          rewrite Forall_forall in Fo. apply (Fo p). apply in_or_app. right. left. auto. }
        rewrite (V p Ipp), (V y) in Wy by (apply in_or_app; auto). rewrite Dp, Dy in Wy. lra.
      - rewrite Dp in I. rewrite I in Hlt. exact (Rlt_irrefl _ Hlt). }
    eexists. eexists. split; [exact I1|]. split; [exact I2|]. cbn [rx rlev]. rewrite Xp, Xn. unfold shift, third, side. cbn [rx]. rewrite Lp, Dp. split; auto. split; auto.
    rewrite I3 by auto. auto.
  Qed.

  (** A run which ends before the limit of the iterations: the answer is the centre of a cell of a partition of the domain, all of whose
      edges were cut level_max times, the value is that of the function at the answer, and it is the least of the values at
      all centres of the partition; it is not greater than the value at the middle of the domain. *)
  Theorem C94_converged : forall iter i ans e, solve iter = Ok (Some (i, ans, e)) -> (i < rounds zmax iter)%nat ->
    in_box mn mx ans /\ e = f ans /\ e <= f (middle mn mx) /\
    exists cells c, partition dim cells /\ In c cells /\ ans = to_domain dim mn mx (fst c) /\
      (forall j, (j < dim)%nat -> nth j (snd c) O = level_max) /\
      forall d, In d cells -> e <= f (to_domain dim mn mx (fst d)).
  Proof using All.
    intros iter i ans e. unfold zOptSolveDIRECT. fold dim. rewrite Hlen, !Nat.eqb_refl. cbn [negb andb]. fold (rounds zmax iter).
    destruct (init_ok f dim mn mx level_max Hdim) as [s0 [E0 [G0 [T0 L0]]]]. rewrite E0. cbn [bind].
    destruct (loop_ok f dim mn mx level_max Hdim (rounds zmax iter) 0 s0 0 G0 T0) as [i' [s [m [E [G [T [N [C [B D]]]]]]]]]. { destruct (concat s0); [discriminate|congruence]. }
    rewrite E. cbn [bind]. intros H Hi.
    destruct (tail_of s m) as [c|] eqn:Et; [|discriminate]. cbn [bind] in H. injection H as -> Ha He. destruct (D ltac:(lia)) as [-> [c' [L [El Hb]]]].
    unfold tail_of, get in Et. rewrite El in Et. cbn [bind] in Et. injection Et as ->.
    assert (Ic : In c (concat s)) by (apply (nth_in_concat s level_max (c :: L)); [exact El|left; auto]).
    pose proof (tiles_partition _ _ _ _ _ T) as P. pose proof (tiles_wf _ _ _ _ _ T) as W. rewrite Forall_forall in W. pose proof (W c Ic) as Wc.
    assert (Ea : ans = to_domain dim mn mx (rx c)) by (symmetry; exact Ha).
    assert (Ee : e = f ans) by (rewrite <- He, Ea; apply Wc).
    split; [rewrite Ea; apply centre_in_box; auto; destruct P as [P _]; apply P; apply in_map; auto|]. split; [exact Ee|].
    assert (K : forall r, In r (concat s) -> e <= f (to_domain dim mn mx (rx r))).
    { intros r Hr. destruct (W r Hr) as [_ [_ <-]]. rewrite <- He. apply Hb. auto. }
    split.
    - destruct (tiles_mid _ T) as [r [Hr Er]]. specialize (K r Hr). rewrite Er, dom_middle in K. exact K.
    - exists (map cell_of (concat s)), (cell_of c). split; auto. split; [apply in_map; auto|]. split; [exact Ea|]. split.
      + intros j Hj. cbn [cell_of snd]. destruct G as [_ G]. destruct (G _ _ El) as [Fa _]. apply Forall_inv in Fa. destruct Fa as [_ [_ Fa]]. apply Fa; auto.
      + intros d Hd. apply in_map_iff in Hd. destruct Hd as [r [<- Hr]]. apply K; auto.
  Qed.

  (** The search ends by itself: the limit of the iterations is not reached if it is (3^(dim level_max) + 1) / 2 or more. *)
  Theorem C95_terminates : forall iter, (3 ^ (dim * level_max) < 2 * rounds zmax iter + 1)%nat ->
    exists i ans e, solve iter = Ok (Some (i, ans, e)) /\ (2 * i + 1 <= 3 ^ (dim * level_max))%nat /\ (i < rounds zmax iter)%nat.
  Proof using All.
    intros iter Hit. unfold zOptSolveDIRECT. fold dim. rewrite Hlen, !Nat.eqb_refl. cbn [negb andb]. fold (rounds zmax iter).
    destruct (init_ok f dim mn mx level_max Hdim) as [s0 [E0 [G0 [T0 L0]]]]. rewrite E0. cbn [bind].
    destruct (loop_ok f dim mn mx level_max Hdim (rounds zmax iter) 0 s0 0 G0 T0) as [i' [s [m [E [G [T [N [C [B D]]]]]]]]]. { destruct (concat s0); [discriminate|congruence]. }
    rewrite E. cbn [bind].
    assert (LB : Forall (fun r => (lsum (rlev r) <= dim * level_max)%nat) (concat s)).
    { apply levels_bound; auto. pose proof (tiles_wf _ _ _ _ _ T) as W. eapply Forall_impl; [|exact W]. intros r Wr. apply Wr. }
    pose proof (tiles_count f dim mn mx _ _ T LB) as K. destruct (D ltac:(lia)) as [-> [c [L [El _]]]].
    unfold tail_of, get. rewrite El. cbn [bind]. exists i'. eexists. eexists. split; [reflexivity|]. split; lia.
  Qed.

  (** Whatever the limit, an answer is a point of the domain with the right value. *)
  Theorem C94_any_answer : forall iter i ans e, solve iter = Ok (Some (i, ans, e)) -> in_box mn mx ans /\ e = f ans /\ (i <= rounds zmax iter)%nat.
  Proof using All.
    intros iter i ans e. unfold zOptSolveDIRECT. fold dim. rewrite Hlen, !Nat.eqb_refl. cbn [negb andb]. fold (rounds zmax iter).
    destruct (C94_partition (rounds zmax iter)) as [i' [s [m [E [Hi [_ [_ HV]]]]]]].
    destruct (_zOptDIRECTRectSetInit f dim mn mx level_max) as [s0|]; [|discriminate]. cbn [bind] in E |- *. rewrite E. cbn [bind].
    intros H. unfold tail_of in H. destruct (get s m) as [l|] eqn:Eg; [|discriminate]. cbn [bind] in H. destruct l as [|c l]; [discriminate|]. cbn [bind] in H. injection H as -> Ha He.
    apply get_inv in Eg. destruct Eg as [_ Eg]. destruct (HV c) as [V1 V2]; [apply (nth_in_concat s m (c :: l)); [exact Eg|left; auto]|].
    rewrite <- Ha, <- He. split; auto.
  Qed.
End Direct.

(** Sizes that do not agree are rejected. *)
Theorem C95_sizes : forall {T} {ST : Scalar T} f dim zmax mn mx iter level_max, length mn <> dim \/ length mx <> dim ->
  zOptSolveDIRECT f dim zmax mn mx iter level_max = Ok None.
Proof.
  intros T ST f dim zmax mn mx iter lm H. unfold zOptSolveDIRECT. destruct (Nat.eqb_spec (length mn) dim); [|reflexivity]. destruct (Nat.eqb_spec (length mx) dim); [lia|reflexivity].
Qed.

(** The limit: after one round on an interval the list that is read is empty. *)
Theorem C94_limit_crash_refuted : exists (f : list Q -> Q) mn mx level_max,
  zOptSolveDIRECT f 1 1000 mn mx 1 level_max = UB /\ zOptSolveDIRECT f 1 1000 mn mx 0 level_max <> UB.
Proof. exists (fun x => el x 0), [0%Q], [1%Q], 3%nat. split; [vm_compute; reflexivity|]. vm_compute. discriminate. Qed.

(** The limit: the answer 1/2 is given for f(x) = x on [0,1], although the value at another centre is known to be less. *)
Definition state_after (f : list Q -> Q) (mn mx : list Q) (level_max k : nat) : list (rect Q) :=
  match (s <- _zOptDIRECTRectSetInit f (length mn) mn mx level_max ;; direct_loop f (length mn) mn mx k 0 s 0) with Ok (_, s, _) => concat s | UB => [] end.
Theorem C94_limit_refuted : exists (f : list Q -> Q) mn mx level_max k i ans e r,
  zOptSolveDIRECT f (length mn) 1000 mn mx k level_max = Ok (Some (i, ans, e)) /\ In r (state_after f mn mx level_max k) /\ (rval r < e)%Q /\ f ans == e.
Proof.
  exists (fun x => el x 0), [0%Q], [1%Q], 3%nat, 2%nat.
  set (res := zOptSolveDIRECT _ _ _ _ _ _ _). set (st := state_after _ _ _ _ _). vm_compute in res. vm_compute in st.
  match (eval unfold res in res) with Ok (Some (?i, ?a, ?e)) => exists i, a, e end.
  exists (nth 2 st (Rect [] 0%Q [])). split; [reflexivity|]. split; [right; right; left; reflexivity|]. split; reflexivity.
Qed.

(** A concrete run. *)
Example C94_ex : exists i ans e, zOptSolveDIRECT (fun x => (el x 0 - (1#3)) * (el x 0 - (1#3)))%Q 1 1000 [0%Q] [1%Q] 0 2 = Ok (Some (i, ans, e)) /\ (i < 5)%nat.
Proof. eexists. eexists. eexists. split; [vm_compute; reflexivity|]. lia. Qed.

Print Assumptions C94_partition.
Print Assumptions C94_cut_order.
Print Assumptions C94_selected.
Print Assumptions C94_converged.
Print Assumptions C94_any_answer.
Print Assumptions C94_limit_crash_refuted.
Print Assumptions C94_limit_refuted.
Print Assumptions C95_terminates.
Print Assumptions C95_sizes.
