(** C55: the trees and the paths of the RRT family; in exact arithmetic where the real numbers are named. *)
From Coq Require Import Reals Lra Lia List Floats.
From Verif Require Import Prelude Scalar RealLib Fmat_Proofs Rrt_Model Rrt_Spec Rrt_Proofs Rrt2_Proofs Rrt3_Proofs.
Import ListNotations.
Local Open Scope R_scope.

(** the default functions are a metric and an extension towards the target: they may be put in the place of [dist], [ext] below *)
Theorem C55_default_functions m eps : 0 < eps -> metric (default_distance m) /\ towards eps (default_distance m) default_extend.
Proof. intros HE. split; [apply default_metric|now apply default_towards]. Qed.

Section All.
  Context {V : Type} (tol eps : R) (HT : 0 <= tol) (HE : 0 < eps) (dist : V -> V -> R) (ext : V -> V -> R -> V) (coll goalp : V -> bool).
  Context (HM : metric dist) (HX : towards eps dist ext).

  (** ** RRT: one extension, with any sample *)
  Theorem C55_extend start t vr : rrt_tree eps dist coll start t ->
    exists ret t', _zRRTListExtend tol eps dist ext coll t vr = Ok (ret, t') /\ rrt_tree eps dist coll start t' /\
      match ret with
      | NOP => t' = t /\ exists n, In n t /\ dist vr (nv n) <= tol
      | TRAPPED => t' = t
      | REACHED | ADVANCED => exists n p np, t' = t ++ [n] /\ par n = Some p /\ nth_error t p = Some np /\
          (forall n', In n' t -> dist vr (nv np) <= dist vr (nv n')) /\ (ret = REACHED -> nv n = vr) /\ (ret = ADVANCED -> dist (nv np) (nv n) = eps /\ dist vr (nv n) = dist vr (nv np) - eps)
      end.
  Proof using HM HX.
    intros HR. destruct (grow_ok tol eps dist ext coll HM HX t vr (rrt_ne _ _ _ _ _ HR)) as (ret & t' & E & H). exists ret, t'. split; auto. destruct ret.
    - destruct H as (-> & i & n & Ei & D). split; auto. split; auto. exists n. split; auto. eapply nth_error_In; eauto.
    - destruct H as (ve & i & np & A1 & A2 & -> & A4 & A5 & A6 & A7). split; [now apply rrt_app|]. exists (Nd ve (dist (nv np) ve) (ctotal np + dist (nv np) ve) (Some i)), i, np. conjs; auto; try discriminate.
      + intros n' I. apply In_nth_error in I. destruct I as (j & Ej). eauto.
      + destruct (A7 eq_refl) as (B1 & B2). destruct HM as (M1 & M2 & M3 & M4). specialize (M4 vr ve (nv np)). rewrite (M2 ve) in M4. intros _. cbn [nv]. lra.
    - destruct H as (ve & i & np & A1 & A2 & -> & A4 & A5 & A6 & A7). split; [now apply rrt_app|]. exists (Nd ve (dist (nv np) ve) (ctotal np + dist (nv np) ve) (Some i)), i, np. conjs; auto; try discriminate.
      intros n' I. apply In_nth_error in I. destruct I as (j & Ej). eauto.
    - now subst.
  Qed.
  (** every node has a path from the start through the tree *)
  Theorem C55_paths start t i n : rrt_tree eps dist coll start t -> nth_error t i = Some n ->
    exists l c, chain t i l c /\ hd_error l = Some start /\ last l start = nv n /\ linked (short eps dist) l /\ (forall v, In v (tl l) -> free coll v) /\ c = path_length dist l.
  Proof using Type.
    intros HR En. destruct (chain_exists eps dist coll start t i HR (nth_error_lt _ _ _ En)) as (l & c & C). exists l, c. destruct (chain_good eps dist coll start t i l c HR C) as (A1 & A2 & A3 & A4).
    destruct (chain_snoc _ _ _ _ C) as (l0 & n' & E' & ->). assert (n' = n) by congruence. subst. conjs; auto. apply last_last.
  Qed.
  (** ** the whole: whatever is drawn, the tree is one and the path goes from the start to the last node *)
  Theorem C55_find_path samp start iter :
    exists ret t l c, zRRTFindPath tol eps dist ext coll goalp samp start iter true = Ok (ret, t, Some (l, c)) /\
      rrt_tree eps dist coll start t /\ (length t <= S iter)%nat /\
      hd_error l = Some start /\ linked (short eps dist) l /\ (forall v, In v (tl l) -> free coll v) /\ c = path_length dist l /\ (ret = true -> goalp (last l start) = true).
  Proof using HM HX. destruct (findpath_ok tol eps dist ext coll HM HX goalp samp start iter) as (ret & t & l & c & E & A1 & A2 & (B1 & B2 & B3 & B4) & A4). exists ret, t, l, c. auto 10. Qed.

  (** ** RRT*, with any radius; [toint] is the conversion to int *)
  Context (toint : R -> nat) (TI : forall x, 0 <= x -> INR (toint x) <= x < INR (toint x) + 1) (radius : nat -> R).
  Theorem C55_star_extend start t vr : star_tree eps dist ext coll start t ->
    exists ret t', _zRRTListExtendOpt tol eps dist ext coll toint radius t vr = Ok (ret, t') /\ star_tree eps dist ext coll start t' /\
      (forall i n, nth_error t i = Some n -> exists n', nth_error t' i = Some n' /\ nv n' = nv n /\ ctotal n' <= ctotal n) /\
      match ret with
      | NOP | TRAPPED => t' = t
      | REACHED | ADVANCED => exists h, length t' = S (length t) /\ nth_error t' (length t) = Some h /\ (ret = REACHED -> nv h = vr) /\
          (* among the nodes near the new one that it can reach: no better parent, and none the new one would be a better parent of *)
          forall i n, nth_error t i = Some n -> dist (nv n) (nv h) < radius (length t) -> _zRRTListCheckNodeRewirable eps ext coll toint (nv h) (nv n) (dist (nv n) (nv h)) = true ->
            ctotal h <= ctotal n + dist (nv n) (nv h) /\ exists n', nth_error t' i = Some n' /\ ctotal n' <= ctotal h + dist (nv n) (nv h)
      end.
  Proof using HE HM HX TI.
    intros HS. destruct (growopt_ok tol eps HE dist ext coll HM HX toint TI radius start t vr HS) as (ret & t' & E & A1 & A2 & A3). exists ret, t'. conjs; auto.
    destruct ret; auto; destruct A3 as (h & B1 & B2 & B3 & B4); exists h; conjs; auto; intros; apply (B4 i n); split; auto.
  Qed.
  (** what the check of an edge says *)
  Theorem C55_star_check a b : _zRRTListCheckNodeRewirable eps ext coll toint a b (dist a b) = true -> divided eps dist ext coll a b.
  Proof using HE HM TI. now apply rewirable_ok. Qed.
  (** every node still has a path from the start, no longer than the cost it carries *)
  Theorem C55_star_paths start t i n : star_tree eps dist ext coll start t -> nth_error t i = Some n ->
    exists l c, chain t i l c /\ hd_error l = Some start /\ last l start = nv n /\ linked (star_link eps dist ext coll) l /\ (forall v, In v (tl l) -> free coll v) /\ c = path_length dist l /\ c <= ctotal n.
  Proof using Type.
    intros HS En. pose proof HS as (_ & _ & S2). destruct (S2 i (nth_error_lt _ _ _ En)) as (l & c & C). exists l, c. destruct (star_good eps dist ext coll start t i l c HS C) as ((A1 & A2 & A3 & A4) & A5).
    destruct (chain_snoc _ _ _ _ C) as (l0 & n' & E' & ->). assert (n' = n) by congruence. subst. conjs; auto. apply last_last.
  Qed.
  Theorem C55_find_path_opt samp start iter :
    exists ret t l c, zRRTFindPathOpt tol eps dist ext coll goalp toint radius samp start iter true = Ok (ret, t, Some (l, c)) /\
      star_tree eps dist ext coll start t /\ (length t <= S iter)%nat /\
      hd_error l = Some start /\ linked (star_link eps dist ext coll) l /\ (forall v, In v (tl l) -> free coll v) /\ c = path_length dist l /\ (ret = true -> goalp (last l start) = true).
  Proof using HE HM HX TI.
    destruct (findopt_ok tol eps HE dist ext coll HM HX toint TI radius goalp samp start iter) as (ret & t & l & c & h & E & A1 & A2 & (B1 & B2 & B3 & B4) & _ & _ & _ & A4). exists ret, t, l, c. auto 10.
  Qed.

  (** ** RRT-connect: the greedy extension ends, and a path found joins the start to the goal *)
  Theorem C55_find_path_dual samp start goal iter :
    exists F ret s g l c, (forall fuel, (F <= fuel)%nat -> zRRTFindPathDual tol eps dist ext coll fuel samp start goal iter true = Ok (ret, s, g, Some (l, c))) /\
      rrt_tree eps dist coll start s /\ rrt_tree eps dist coll goal g /\
      hd_error l = Some start /\ last l start = goal /\ c = path_length dist l /\ (forall v, In v l -> v = start \/ v = goal \/ free coll v) /\
      (ret = true -> linked (short eps dist) l).
  Proof using HE HM HX. now apply dual_ok. Qed.

  (** ** the shortcut keeps the ends, leaves points out, is not longer, and its new edges are divided by free points.  The
      cost is that of the path, or that of the path without its last edge *)
  Theorem C55_shortcut_partial path : exists F p c, (forall fuel, (F < fuel)%nat -> zRRTShortcutPath eps dist ext coll fuel path = Ok (p, c)) /\
    sublist p path /\ hd_error p = hd_error path /\ (forall d, last p d = last path d) /\
    linked (fun a b => adjacent path a b \/ divided eps dist ext coll a b) p /\ path_length dist p <= path_length dist path /\
    match c with
    | None => (length path < 3)%nat /\ p = path
    | Some c => (3 <= length path)%nat /\ (c = path_length dist p \/ exists q a b, p = q ++ [a; b] /\ c = path_length dist (q ++ [a]))
    end.
  Proof using HE HM.
    destruct (shortcut_ok eps HE dist ext coll HM path) as (F & p & c & A1 & A2 & A3 & A4 & A5 & A6 & A7). exists F, p, c. conjs; auto. destruct c as [c|]; auto.
    destruct A7 as (L & [->|(q & a & b & -> & ->)]); split; auto; [left; lra|right]. exists q, a, b. split; auto. lra.
  Qed.

  (** ** escapement: what is answered with true is free *)
  Theorem C55_escape samp start iter : exists ret v, zRRTEscape tol eps dist ext coll samp start iter = Ok (ret, v) /\
    (ret = true -> free coll v) /\ (free coll start -> ret = true /\ v = start).
  Proof using Type. apply escape_ok. Qed.

  (** ** where it fails *)
  (** without the pointer for the cost no path is written, although true may be answered *)
  Theorem C55_no_cost_refuted samp start iter : exists ret t, zRRTFindPath tol eps dist ext coll goalp samp start iter false = Ok (ret, t, None).
  Proof using HM HX.
    unfold zRRTFindPath, _zRRTFindPath. cbn [_zRRTListAddNode bind app]. destruct (find_ok tol eps dist ext coll HM HX goalp start samp iter O _ (init_tree eps dist coll start)) as (ret & t & E & _).
    rs. rewrite E. cbn [bind]. eauto.
  Qed.
End All.
(** with the default check every point collides: no node is ever added *)
Theorem C55_default_collision_refuted m tol eps samp (start : nat -> R) goalp iter : (forall i, tol < default_distance m (samp i) start) ->
  zRRTFindPath tol eps (default_distance m) default_extend default_collision goalp samp start iter true = Ok (false, [Nd start 0 0 None], Some ([start], 0)).
Proof.
  intros H. unfold zRRTFindPath, _zRRTFindPath. cbn [_zRRTListAddNode bind app]. rs. set (t := [Nd start 0 0 None]).
  assert (E : forall n i, find_loop goalp (_zRRTListExtend tol eps (default_distance m) default_extend default_collision) samp n i t = Ok (false, t)).
  { assert (X : forall vr, tol < default_distance m vr start -> _zRRTListExtend tol eps (default_distance m) default_extend default_collision t vr = Ok (TRAPPED, t)).
    { intros vr D. unfold _zRRTListExtend. unfold t at 1. cbn [_zRRTListNN fold_left List.seq length nth_error nv]. rewrite is_tol_R.
      destruct (Rleb_spec (Rabs (default_distance m vr start)) tol) as [X|X]; [pose proof (Rle_abs (default_distance m vr start)); lra|]. cbn [get nth_error bind t].
      unfold _zRRTListExtendTest. destruct (slt (default_distance m vr start) eps); reflexivity. }
    induction n as [|n IH]; intros i; auto. cbn [find_loop]. rewrite X by auto. cbn [bind]. apply IH. }
  rewrite E. cbn. do 4 f_equal. rs. f_equal. lra.
Qed.

(** ** floating-point runs in the plane: two round obstacles, eps = 1; all distances are below the radius *)
Definition P (x y : float) : nat -> float := fun i => match i with O => x | _ => y end.
Definition fd : (nat -> float) -> (nat -> float) -> float := default_distance 2.
Definition obstacle (v : nat -> float) : bool := slt (fd v (P 0 2.5)) 0x1.ccccccccccccdp-2%float || slt (fd v (P 0.5 0.5)) 0x1.ccccccccccccdp-2%float.
Definition ftoint (x : float) : nat := length (filter (fun k => sle (sofZ (Z.of_nat k)) x) (List.seq 1 20)).
Definition fsamp (i : nat) : nat -> float := nth i [P (-0.5) (-0.25); P 3.5 0.5; P 3.5 (-0.25); P 1 1.75; P 0 0.25; P 1.75 (-0.5); P 2 0; P (-0.25) 3]%float (P 0 0).
Definition grown (n : nat) : res (tree float (nat -> float)) :=
  '(_, t) <- find_loop (fun _ => false) (_zRRTListExtendOpt 0x1p-40%float 1%float fd default_extend obstacle ftoint (fun _ => 50%float)) fsamp n 0 [Nd (P 0 0) 0%float 0%float None] ;; Ok t.
Definition cost_to (n i : nat) : option float := match (t <- grown n ;; walk (length t) t i [] 0%float) with Ok (_, c) => Some c | UB => None end.
(** rewiring makes the path of a node longer, from 2.25 to 3.03: it compares with the stored cost, which is not updated when an ancestor is rewired *)
Theorem C55_star_refuted : cost_to 7 4 = Some 0x1.1f7932f02f568p+1%float /\ cost_to 8 4 = Some 0x1.8378f56bbe866p+1%float.
Proof. vm_compute. auto. Qed.
(** the shortcut of a path that cannot be shortened: the cost is that of its first edge *)
Theorem C55_shortcut_cost_refuted : match zRRTShortcutPath 0.5%float fd default_extend obstacle 20 [P 0 2; P 1 2.5; P 0 3]%float with
  | Ok (p, c) => Some (length p, c) | UB => None end = Some (3%nat, Some (fd (P 0 2) (P 1 2.5))%float).
Proof. vm_compute. reflexivity. Qed.

(** ** the hypotheses are met, and what the answers are *)
Example C55_ex_toint : exists toint, forall x, 0 <= x -> INR (toint x) <= x < INR (toint x) + 1.
Proof.
  exists (fun x => Z.to_nat (up x - 1)). intros x H. destruct (archimed x) as (A & B). assert (0 < up x)%Z by (apply lt_IZR; lra).
  rewrite INR_IZR_INZ, Z2Nat.id by lia. rewrite minus_IZR. lra.
Qed.
Example C55_ex_find : match zRRTFindPath 0x1p-40%float 1%float fd default_extend obstacle (fun v => slt 1%float (v 0%nat)) fsamp (P 0 0)%float 8 true with
  | Ok (ret, t, Some (l, _)) => Some (ret, length t, length l) | _ => None end = Some (true, 4%nat, 3%nat).
Proof. vm_compute. reflexivity. Qed.
Example C55_ex_dual : match zRRTFindPathDual 0x1p-40%float 1%float fd default_extend obstacle 20 fsamp (P 0 0)%float (P 2 2)%float 8 true with
  | Ok (ret, s, g, Some (l, _)) => Some (ret, length s, length g, length l) | _ => None end = Some (true, 3%nat, 5%nat, 6%nat).
Proof. vm_compute. reflexivity. Qed.
Example C55_ex_shortcut : match zRRTShortcutPath 0.5%float fd default_extend obstacle 20 [P 0 0; P 1 0; P 2 0; P 2 1]%float with
  | Ok (p, c) => Some (length p) | UB => None end = Some 3%nat.
Proof. vm_compute. reflexivity. Qed.
Print Assumptions C55_default_functions.
Print Assumptions C55_extend.
Print Assumptions C55_paths.
Print Assumptions C55_find_path.
Print Assumptions C55_star_extend.
Print Assumptions C55_star_check.
Print Assumptions C55_star_paths.
Print Assumptions C55_find_path_opt.
Print Assumptions C55_find_path_dual.
Print Assumptions C55_shortcut_partial.
Print Assumptions C55_escape.
Print Assumptions C55_no_cost_refuted.
Print Assumptions C55_default_collision_refuted.
Print Assumptions C55_star_refuted.
Print Assumptions C55_shortcut_cost_refuted.
