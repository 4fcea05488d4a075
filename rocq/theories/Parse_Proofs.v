(** zmParse builds the cell of an expression. *)
From Coq Require Import ZArith List Bool Lia String Ascii.
From Verif Require Import Prelude Scalar Parse_Model Parse_Spec.
Import ListNotations.

Lemma par_eqb_refl k : par_eqb k k = true. Proof. now destruct k. Qed.
Lemma status_eqb_refl s : status_eqb s s = true. Proof. destruct s; cbn; auto using par_eqb_refl. Qed.

Lemma prec_prio o : precedence o = op_prio o. Proof. destruct o; reflexivity. Qed.
Section P.
  Context {T : Type}.
  Local Notation cell := (cell T). Local Notation stack := (stack T). Local Notation tok := (tok T).
  Local Notation expr := (expr T). Local Notation token := (token T).

  Definition opener (p : pos) : list cell :=
    match p with Start | Inner => [] | First k | Double k _ | Open k => [CPar k] end.
  Fixpoint cellof (p : pos) (e : expr) : cell :=
    match e with
    | ENum x => CNum x
    | EVar v => CVar v
    | EBin o a b => CChunk o (Some (cellof p a)) (Some (cellof Inner b))
    | EFact a => CChunk OFct (Some (cellof p a)) None
    | ESign m a => CChunk (sign_op m) (hd_error (opener p)) (Some (cellof Inner a))
    | EFun f a => CFunc f (Some (cellof Inner a))
    | EPar k a => cellof (enter p k) a
    end.
  (** what is left of the opening parenthesis *)
  Fixpoint rest (p : pos) (e : expr) : list cell :=
    match e with
    | ENum _ | EVar _ | EPar _ _ => opener p
    | EBin _ a _ | EFact a => rest p a
    | ESign _ _ | EFun _ _ => []
    end.
  (** the stack when the last token of [e] was read *)
  Fixpoint fr (p : pos) (e : expr) : list cell :=
    match e with
    | ENum x => CNum x :: opener p
    | EVar v => CVar v :: opener p
    | EBin o a b => fr Inner b ++ COp o :: cellof p a :: rest p a
    | EFact a => COp OFct :: cellof p a :: rest p a
    | ESign m a => fr Inner a ++ COp (sign_op m) :: opener p
    | EFun f a => [CFunc f (Some (cellof Inner a))]
    | EPar k a => cellof (enter p k) a :: opener p
    end.
  Definition tk (l : Z) (t : status) (cs : list cell) : stack := map (fun c => Tok c l t) cs.

  Definition plain (c : cell) : Prop := match c with COp _ | CPar _ => False | _ => True end.
  Lemma cellof_plain e : forall p, plain (cellof p e).
  Proof. induction e; cbn; auto; intros p; apply IHe. Qed.
  Lemma rest_inner e : guarded Inner e -> rest Inner e = [].
  Proof. induction e; cbn; intuition. Qed.

  (** ** the topmost operator *)
  Lemma tok_op_op o l t (s : stack) : tok_op (Tok (COp o) l t :: s) = Some o.
  Proof. reflexivity. Qed.
  Lemma tok_op_skip c l t (s : stack) : (forall o, c <> COp o) -> (s = [] \/ tok_level s = l) -> tok_op (Tok c l t :: s) = tok_op s.
  Proof.
    intros N H. cbn. destruct c; try (exfalso; eapply N; reflexivity);
      (destruct s as [|u s]; [reflexivity|destruct H as [H|H]; [discriminate|cbn in H; subst; now rewrite Z.eqb_refl]]).
  Qed.
  Lemma tok_op_stop c l t (s : stack) : (forall o, c <> COp o) -> (s = [] \/ tok_level s <> l) -> tok_op (Tok c l t :: s) = None.
  Proof.
    intros N H. cbn. destruct c; try (exfalso; eapply N; reflexivity);
      (destruct s as [|u s]; [reflexivity|destruct H as [H|H]; [discriminate|cbn in H; apply Z.eqb_neq in H; now rewrite H]]).
  Qed.
  Lemma plain_no_op c : plain c -> forall o, c <> COp o. Proof. now intros H o ->. Qed.
  Lemma par_no_op k : forall o, @CPar T k <> COp o. Proof. discriminate. Qed.

  (** ** reductions on the level [l] of operators up to the priority [m] *)
  Definition second_op (s : stack) : Prop :=
    match s with t :: u :: _ => match cl t with CPar _ => False | _ => match cl u with COp _ => True | _ => False end end | _ => False end.
  Inductive red (l : Z) (m : nat) : stack -> stack -> Prop :=
  | red_refl s : red l m s s
  | red_step s s1 s2 : (forall nx, nx = None \/ nx = Some l -> _zmParseStack nx s = s1) -> tok_op s <> None -> (tok_prio s <= m)%nat ->
      (s1 = s2 \/ second_op s1) -> red l m s1 s2 -> red l m s s2.
  Lemma red_mono l m m' s s' : red l m s s' -> (m <= m')%nat -> red l m' s s'.
  Proof. intros H Hm. induction H; [constructor|]. econstructor; eauto. lia. Qed.
  Lemma red_trans l m s1 s2 s3 : red l m s1 s2 -> red l m s2 s3 -> s2 = s3 \/ second_op s2 -> red l m s1 s3.
  Proof.
    intros H H3 HS. induction H; [assumption|].
    econstructor; eauto. destruct H2 as [->|?]; [|now right]. destruct HS as [->|?]; auto.
  Qed.
  Lemma red_one l m s s1 : (forall nx, nx = None \/ nx = Some l -> _zmParseStack nx s = s1) -> tok_op s <> None -> (tok_prio s <= m)%nat ->
    red l m s s1.
  Proof. intros. econstructor; eauto. constructor. Qed.

  Lemma pop_same l t (s : stack) nx : nx = None \/ nx = Some l -> lv t = l -> pop nx (t :: s) = (Some t, s).
  Proof. intros [->| ->] H; cbn [pop]; [reflexivity|]. subst. now rewrite Z.eqb_refl. Qed.
  Lemma do_infix l t o b a (s : stack) : plain b -> o <> OFct -> forall nx, nx = None \/ nx = Some l ->
    _zmParseStack nx (Tok b l t :: Tok (COp o) l t :: Tok a l t :: s) = Tok (CChunk o (Some a) (Some b)) l t :: s.
  Proof.
    intros Hb Ho nx Hn. unfold _zmParseStack, tok_spec. rewrite tok_op_skip by (try apply plain_no_op; auto). rewrite tok_op_op. cbn [option_map].
    pose proof (fun t s => pop_same l t s nx Hn) as E.
    destruct o; try congruence; cbn [op_spec]; unfold _zmParseStackInfix, _zmParseStackPreinfix; do 3 (rewrite E by reflexivity; cbn beta iota); reflexivity.
  Qed.
  Lemma do_post l t a (s : stack) : forall nx, nx = None \/ nx = Some l ->
    _zmParseStack nx (Tok (COp OFct) l t :: Tok a l t :: s) = Tok (CChunk OFct (Some a) None) l t :: s.
  Proof.
    intros nx Hn. pose proof (fun t s => pop_same l t s nx Hn) as E. unfold _zmParseStack. cbn [tok_spec tok_op cl option_map op_spec].
    unfold _zmParseStackPostfix. do 2 (rewrite E by reflexivity; cbn beta iota). reflexivity.
  Qed.
  Lemma do_sign l t m b cs (s : stack) : plain b -> (s = [] /\ cs = [] \/ exists k, cs = [CPar k]) -> forall nx, nx = None \/ nx = Some l ->
    _zmParseStack nx (Tok b l t :: Tok (COp (sign_op m)) l t :: tk l t cs ++ s) = Tok (CChunk (sign_op m) (hd_error cs) (Some b)) l t :: s.
  Proof.
    intros Hb Hc nx Hn. unfold _zmParseStack, tok_spec. rewrite tok_op_skip by (try apply plain_no_op; auto). rewrite tok_op_op. cbn [option_map].
    pose proof (fun t s => pop_same l t s nx Hn) as E.
    assert (M : op_spec (sign_op m) = PREINFIX) by (destruct m; reflexivity). rewrite M. unfold _zmParseStackPreinfix.
    do 2 (rewrite E by reflexivity; cbn beta iota).
    destruct Hc as [[-> ->]|[k ->]]; cbn [tk map app]; [reflexivity|]. rewrite E by reflexivity. reflexivity.
  Qed.

  (** what lies below an expression that begins at [p] *)
  Definition below (p : pos) (l : Z) (t : status) (s : stack) : Prop :=
    match p with
    | Start => s = [] /\ l = 0%Z /\ t = FLAT
    | First k => s = [] /\ l = 1%Z /\ t = IN k
    | Double k k' => t = IN k /\ exists s', s = Tok (CPar k') (l - 1) (IN k') :: s'
    | Open k => t = IN k /\ s <> [] /\ tok_level s = (l - 1)%Z
    | Inner => s <> [] /\ tok_level s = l /\ tok_status s = t
    end.
  Definition top (p : pos) (s : stack) : nat := match p with Inner => tok_prio s | _ => max_prio end.

  Lemma tok_prio_op o l t (s : stack) : tok_prio (Tok (COp o) l t :: s) = op_prio o. Proof. reflexivity. Qed.

  Lemma red_frontier e : forall p l t s, wellformed e -> guarded p e -> (p = Start -> s = []) ->
    red l (rank e) (tk l t (fr p e) ++ s) (Tok (cellof p e) l t :: tk l t (rest p e) ++ s).
  Proof.
    induction e as [x|v|o a IHa b IHb|a IHa|m a IHa|f a IHa|k a IHa]; intros p l t s W G HS; cbn [fr cellof rest rank];
      try apply red_refl.
    - cbn in W, G. destruct W as (Ho & Ra & Rb & Wa & Wb), G as [Ga Gb].
      unfold tk. rewrite map_app, <- app_assoc. cbn [map app]. fold (tk l t (rest p a)).
      eapply red_trans.
      + eapply red_mono; [apply (IHb Inner l t); auto; discriminate|lia].
      + rewrite rest_inner by auto. cbn [tk map app].
        apply red_one; [intros nx Hn; apply do_infix; auto using cellof_plain|..];
          unfold tok_prio; rewrite tok_op_skip by (try apply plain_no_op, cellof_plain; auto); cbn; [discriminate|destruct o; cbn; lia].
      + right. rewrite rest_inner by auto. cbn. pose proof (cellof_plain b Inner) as P. destruct (cellof Inner b); cbn in *; tauto.
    - cbn in W. destruct W as [Ra Wa]. cbn [tk map app].
      apply red_one; [intros nx Hn; now apply do_post|discriminate|cbn; lia].
    - cbn in W, G. destruct W as [Ra Wa], G as [Sa Ga].
      unfold tk. rewrite map_app, <- app_assoc. cbn [map app]. fold (tk l t (opener p)).
      assert (C : s = [] /\ opener p = [] \/ exists k, opener p = [CPar k]).
      { destruct p; cbn in Sa |- *; try tauto; eauto. }
      eapply red_trans.
      + eapply red_mono; [apply (IHa Inner l t); auto; discriminate|lia].
      + rewrite rest_inner by auto. cbn [tk map app].
        apply red_one; [intros nx Hn; apply do_sign; auto using cellof_plain|..];
          unfold tok_prio; rewrite tok_op_skip by (try apply plain_no_op, cellof_plain; auto); cbn; [discriminate|destruct m; cbn; lia].
      + right. rewrite rest_inner by auto. cbn. pose proof (cellof_plain a Inner) as P. destruct (cellof Inner a); cbn in *; tauto.
  Qed.

  (** ** the loops *)
  Lemma op_loop_red l m q s s' : red l m s s' -> (m <= q)%nat -> (q < tok_prio s')%nat ->
    exists N, forall n, (N <= n)%nat -> op_loop n l q s = Done s'.
  Proof.
    intros H Hm Hq. induction H.
    - exists 1%nat. intros [|n] Hn; [lia|]. cbn [op_loop]. destruct (Nat.leb_spec (tok_prio s) q); [lia|reflexivity].
    - destruct IHred as [N IH]; auto. exists (S N). intros [|n] Hn; [lia|]. cbn [op_loop].
      destruct (Nat.leb_spec (tok_prio s) q); [|lia]. rewrite H by auto. apply IH. lia.
  Qed.
  Lemma end_loop_red l m s s' : red l m s s' -> tok_op s' = None -> exists N, forall n, (N <= n)%nat -> end_loop n s = Done s'.
  Proof.
    intros H Hq. induction H.
    - exists 1%nat. intros [|n] Hn; [lia|]. cbn [end_loop]. unfold tok_spec. now rewrite Hq.
    - destruct IHred as [N IH]; auto. exists (S N). intros [|n] Hn; [lia|]. cbn [end_loop]. unfold tok_spec.
      destruct (tok_op s); [|congruence]. cbn. rewrite H by auto. apply IH. lia.
  Qed.
  (** a round of the loop for a closing parenthesis, after its reduction *)
  Definition in_after (n : nat) (l : Z) (ps : status) (s : stack) : out (stack * status) :=
    match s with
    | [] => Crash
    | t :: s =>
        match cl t with
        | CPar _ => Done (s, ps)
        | _ =>
            let close s := Done (Tok (cl t) l (tok_status s) :: s, tok_status s) in
            match s with
            | [] => close s
            | u :: _ =>
                match cl u with
                | CPar _ => close (snd (pop (Some (lv t)) s))
                | CFunc f _ =>
                    match pop (Some (lv t)) s with
                    | (None, _) => Crash
                    | (Some _, s) => in_loop n l ps (Tok (CFunc f (Some (cl t))) (tok_level s) (tok_status s) :: s)
                    end
                | _ => in_loop n l ps (t :: s)
                end
            end
        end
    end.
  Lemma in_loop_S n l ps (s : stack) : in_loop (S n) l ps s = in_after n l ps (_zmParseStack None s).
  Proof. reflexivity. Qed.
  Lemma in_after_push n l ps (s : stack) : second_op s -> in_after n l ps s = in_loop n l ps s.
  Proof. destruct s as [|[[] ? ?] [|[[] ? ?] s]]; cbn [second_op cl]; try tauto; reflexivity. Qed.
  Lemma in_loop_red lv0 m l ps s s' : red lv0 m s s' -> tok_op s' = None ->
    exists k, forall n, in_loop (S k + n) l ps s = in_after n l ps s'.
  Proof.
    intros H Hq. induction H.
    - exists 0%nat. intros n. change (1 + n)%nat with (S n). rewrite in_loop_S. unfold _zmParseStack, tok_spec. now rewrite Hq.
    - destruct H2 as [->|H2].
      + exists 0%nat. intros n. change (1 + n)%nat with (S n). rewrite in_loop_S. now rewrite H by auto.
      + destruct IHred as [k IH]; auto. exists (S k). intros n. change (S (S k) + n)%nat with (S (S k + n)).
        rewrite in_loop_S, H, in_after_push by auto. apply IH.
  Qed.

  (** the tokens [ts] take the parser from [q] to [q'] *)
  Definition runs (ts : list token) (q q' : parser T) : Prop :=
    exists N, forall n, (N <= n)%nat -> forall r, steps n (ts ++ r) q = steps n r q'.
  Lemma runs_app a b q q1 q2 : runs a q q1 -> runs b q1 q2 -> runs (a ++ b) q q2.
  Proof.
    intros [N HN] [M HM]. exists (Nat.max N M). intros n Hn r. rewrite <- app_assoc, HN, HM by lia. reflexivity.
  Qed.
  Lemma runs_one t q q' : (exists N, forall n, (N <= n)%nat -> step n q t = Done (q', true)) -> runs [t] q q'.
  Proof. intros [N HN]. exists N. intros n Hn r. cbn [app steps]. now rewrite HN. Qed.
  Lemma runs_cons t ts q q1 q2 : runs [t] q q1 -> runs ts q1 q2 -> runs (t :: ts) q q2.
  Proof. exact (runs_app [t] ts q q1 q2). Qed.

  Lemma runs_op o l t m s s' : red l m s s' -> (m <= op_prio o)%nat -> (op_prio o < tok_prio s')%nat ->
    runs [TOp o] (Parser s l t) (Parser (Tok (COp o) l t :: s') l t).
  Proof.
    intros H Hm Hq. apply runs_one. destruct (op_loop_red l m (op_prio o) s s' H Hm Hq) as [N HN].
    exists N. intros n Hn. cbn [step level stk pst]. now rewrite HN.
  Qed.

  Lemma prio_max o : (op_prio o < max_prio)%nat. Proof. destruct o; cbn; apply Nat.ltb_lt; reflexivity. Qed.
  Lemma rank_max (e : expr) : (rank e < max_prio)%nat.
  Proof. destruct e; cbn [rank]; try apply prio_max; apply Nat.ltb_lt; reflexivity. Qed.

  Lemma below_status p l t s : below p l t s -> tok_status (tk l t (opener p) ++ s) = t.
  Proof. destruct p; cbn; intros H; try (now destruct H); destruct H as (-> & -> & ->); reflexivity. Qed.
  Lemma below_enter p k l t s : below p l t s -> below (enter p k) (l + 1) (IN k) (tk l t (opener p) ++ s).
  Proof.
    destruct p; cbn; intros H.
    - destruct H as (-> & -> & ->). cbn. auto.
    - destruct H as (-> & -> & ->). cbn. split; [reflexivity|]. eexists; reflexivity.
    - destruct H as (-> & s' & ->). split; [reflexivity|]. eexists. f_equal. f_equal. lia.
    - destruct H as (-> & ? & ?). split; [reflexivity|]. eexists. f_equal. f_equal. lia.
    - destruct H as (? & ? & ?). split; [reflexivity|]. split; [assumption|lia].
  Qed.

  (** the priority seen above a finished operand *)
  Lemma top_prio p e l t s : below p l t s -> guarded p e -> tok_prio (Tok (cellof p e) l t :: tk l t (rest p e) ++ s) = top p s.
  Proof.
    intros B G.
    assert (R : rest p e = opener p \/ rest p e = []).
    { clear B. revert G. induction e; cbn; intuition. }
    destruct p; cbn [top below opener] in *.
    - destruct B as (-> & _). destruct R as [-> | ->]; unfold tok_prio; rewrite tok_op_stop by (try apply plain_no_op, cellof_plain; auto); reflexivity.
    - destruct B as (-> & _). destruct R as [-> | ->]; cbn [tk map app]; unfold tok_prio.
      + rewrite tok_op_skip by (try apply plain_no_op, cellof_plain; auto). reflexivity.
      + rewrite tok_op_stop by (try apply plain_no_op, cellof_plain; auto). reflexivity.
    - destruct B as (_ & s' & ->). destruct R as [-> | ->]; cbn [tk map app]; unfold tok_prio.
      + rewrite tok_op_skip by (try apply plain_no_op, cellof_plain; auto). rewrite tok_op_stop by (try apply par_no_op; right; cbn; lia). reflexivity.
      + rewrite tok_op_stop by (try apply plain_no_op, cellof_plain; right; cbn; lia). reflexivity.
    - destruct B as (_ & Hs & Hl). destruct R as [-> | ->]; cbn [tk map app]; unfold tok_prio.
      + rewrite tok_op_skip by (try apply plain_no_op, cellof_plain; auto). rewrite tok_op_stop by (try apply par_no_op; right; lia). reflexivity.
      + rewrite tok_op_stop by (try apply plain_no_op, cellof_plain; right; lia). reflexivity.
    - destruct B as (Hs & Hl & _). assert (R' : rest Inner e = []) by (destruct R; auto). rewrite R'. cbn [tk map app]. unfold tok_prio.
      rewrite tok_op_skip by (try apply plain_no_op, cellof_plain; auto). reflexivity.
  Qed.
  (** the priority seen above the opening parenthesis *)
  Lemma opener_prio p l t s : below p l t s -> tok_prio (tk l t (opener p) ++ s) = top p s.
  Proof.
    destruct p; cbn [opener tk map app top below]; intros B; [destruct B as (-> & _); reflexivity|..|reflexivity].
    - destruct B as (-> & _); reflexivity.
    - destruct B as (_ & s' & ->). unfold tok_prio. rewrite tok_op_stop by (try apply par_no_op; right; cbn; lia). reflexivity.
    - destruct B as (_ & Hs & Hl). unfold tok_prio. rewrite tok_op_stop by (try apply par_no_op; right; lia). reflexivity.
  Qed.

  Lemma fr_status p e l t s : tok_status (tk l t (fr p e) ++ s) = t.
  Proof.
    assert (H : exists c r, fr p e = c :: r).
    { clear. revert p. induction e; intros p; cbn; eauto; [destruct (IHe2 Inner) as (c & r & ->)|destruct (IHe Inner) as (c & r & ->)]; cbn; eauto. }
    destruct H as (c & r & ->). reflexivity.
  Qed.

  Lemma rest_cases p e : guarded p e -> rest p e = opener p \/ rest p e = [] /\ (match p with Open _ => False | _ => True end).
  Proof. induction e; cbn; auto; [intuition|intros [A _]|intros [A _]]; right; split; auto; destruct p; auto. Qed.
  Lemma in_after_close n l l' t ps c cs (s : stack) : plain c ->
    (cs = [] /\ (s = [] \/ exists k l2 t2 s', s = Tok (CPar k) l2 t2 :: s' /\ l2 <> l') \/ exists k, cs = [CPar k]) ->
    in_after n l ps (Tok c l' t :: tk l' t cs ++ s) = Done (Tok c l (tok_status s) :: s, tok_status s).
  Proof.
    intros P H.
    destruct H as [[-> [->|(k & l2 & t2 & s' & -> & Hl)]]|[k ->]]; cbn [tk map app].
    - destruct c; cbn in P; try tauto; reflexivity.
    - apply Z.eqb_neq in Hl. destruct c; cbn in P; try tauto; cbn [in_after cl lv pop]; rewrite Hl; reflexivity.
    - destruct c; cbn in P; try tauto; cbn [in_after cl lv pop]; rewrite Z.eqb_refl; reflexivity.
  Qed.
  (** a closing parenthesis *)
  Lemma close_par p k e l t s : below p l t s -> wellformed e -> guarded (enter p k) e ->
    runs [TClose k] (Parser (tk (l + 1) (IN k) (fr (enter p k) e) ++ tk l t (opener p) ++ s) (l + 1) (IN k))
      (Parser (Tok (cellof (enter p k) e) l t :: tk l t (opener p) ++ s) l t).
  Proof.
    intros B W G. apply runs_one. pose proof (below_enter p k l t s B) as B'. pose proof (below_status p l t s B) as Ht.
    pose proof (top_prio _ _ _ _ _ B' G) as TP.
    set (s1 := tk l t (opener p) ++ s) in *.
    assert (N : tok_op (Tok (cellof (enter p k) e) (l + 1) (IN k) :: tk (l + 1) (IN k) (rest (enter p k) e) ++ s1) = None).
    { unfold tok_prio in TP. destruct (tok_op _) as [o|]; [|reflexivity].
      assert (top (enter p k) s1 = max_prio) by (destruct p; reflexivity).
      pose proof (prio_max o). lia. }
    assert (Q : enter p k = Start -> s1 = []) by (destruct p; discriminate).
    pose proof (red_frontier e (enter p k) (l + 1) (IN k) s1 W G Q) as RF.
    destruct (in_loop_red _ _ l (OUT k) _ _ RF N) as [K HK]. exists (S K). intros n Hn.
    cbn [step pst stk level]. replace (par_eqb k Par && status_eqb (IN k) IN_FUNC) with false by (destruct k; reflexivity).
    unfold _zmParseIn. cbn [stk level pst]. rewrite fr_status, status_eqb_refl.
    replace (l + 1 - 1)%Z with l by lia. replace n with (S K + (n - S K))%nat by lia. rewrite HK.
    replace (in_after (n - S K) l (OUT k) (Tok (cellof (enter p k) e) (l + 1) (IN k) :: tk (l + 1) (IN k) (rest (enter p k) e) ++ s1))
      with (Done (Tok (cellof (enter p k) e) l (tok_status s1) :: s1, tok_status s1)); [now rewrite Ht|].
    symmetry. apply in_after_close; auto using cellof_plain.
    destruct (rest_cases (enter p k) e G) as [-> |[-> A]].
    - right. exists k. destruct p; reflexivity.
    - left. split; [reflexivity|]. destruct p; cbn [enter below] in B', A; try tauto.
      + right. destruct B' as (_ & s' & E'). do 4 eexists. split; [exact E'|lia].
      + right. destruct B' as (_ & s' & E'). do 4 eexists. split; [exact E'|lia].
      + right. destruct B' as (_ & s' & E'). do 4 eexists. split; [exact E'|lia].
  Qed.

  Lemma runs_push t c q : (forall n, step n q t = Done (push q c, true)) -> runs [t] q (push q c).
  Proof. intros H. apply runs_one. exists O. auto. Qed.

  (** a closing parenthesis of a function *)
  Lemma close_fun p f e l t s : below p l t s -> wellformed e -> guarded Inner e -> fun_allowed p ->
    runs [TClose Par] (Parser (tk (l + 1) IN_FUNC (fr Inner e) ++ Tok (CFunc f None) (l + 1) IN_FUNC :: tk l t (opener p) ++ s) (l + 1) IN_FUNC)
      (Parser (Tok (CFunc f (Some (cellof Inner e))) l t :: s) l t).
  Proof.
    intros B W G A. apply runs_one. pose proof (below_status p l t s B) as Ht.
    set (s1 := tk l t (opener p) ++ s) in *.
    set (s2 := Tok (CFunc f None) (l + 1) IN_FUNC :: s1).
    assert (L1 : s1 = [] \/ tok_level s1 <> (l + 1)%Z).
    { subst s1. destruct p; cbn in A, B |- *; try tauto; right; lia. }
    assert (N2 : tok_op s2 = None) by (apply tok_op_stop; [discriminate|exact L1]).
    assert (B' : below Inner (l + 1) IN_FUNC s2) by (cbn; repeat split; discriminate).
    pose proof (top_prio _ _ _ _ _ B' G) as TP. cbn [top] in TP. unfold tok_prio in TP. rewrite N2 in TP.
    assert (N : tok_op (Tok (cellof Inner e) (l + 1) IN_FUNC :: tk (l + 1) IN_FUNC (rest Inner e) ++ s2) = None).
    { destruct (tok_op (_ :: tk (l + 1) IN_FUNC (rest Inner e) ++ s2)) as [o|]; [|reflexivity]. pose proof (prio_max o). lia. }
    pose proof (red_frontier e Inner (l + 1) IN_FUNC s2 W G ltac:(discriminate)) as RF.
    destruct (in_loop_red _ _ l OUT_FUNC _ _ RF N) as [K HK]. exists (S K + 1)%nat. intros n Hn.
    cbn [step pst stk level]. cbn [par_eqb status_eqb andb].
    unfold _zmParseIn. cbn [stk level pst]. rewrite fr_status, status_eqb_refl.
    replace (l + 1 - 1)%Z with l by lia. replace n with (S K + (n - S K))%nat by lia. rewrite HK.
    rewrite rest_inner by auto. cbn [tk map app].
    destruct (n - S K)%nat as [|n'] eqn:En; [lia|].
    assert (E1 : in_after (S n') l OUT_FUNC (Tok (cellof Inner e) (l + 1) IN_FUNC :: s2)
                 = in_loop (S n') l OUT_FUNC (Tok (CFunc f (Some (cellof Inner e))) (tok_level s1) (tok_status s1) :: s1)).
    { pose proof (cellof_plain e Inner) as P. subst s2. destruct (cellof Inner e); cbn in P; try tauto;
        cbn [in_after cl lv pop]; rewrite Z.eqb_refl; reflexivity. }
    rewrite E1, in_loop_S, Ht. clear E1 HK RF N TP.
    assert (E2 : in_after n' l OUT_FUNC (_zmParseStack None (Tok (CFunc f (Some (cellof Inner e))) (tok_level s1) t :: s1))
                 = Done (Tok (CFunc f (Some (cellof Inner e))) l t :: s, t)).
    { subst s1. clear B' N2 s2 L1. destruct p; cbn in A; try tauto.
      - destruct B as (-> & -> & ->). reflexivity.
      - subst k'. destruct B as (-> & s' & ->). cbn [opener tk map app tok_level lv].
        unfold _zmParseStack, tok_spec. rewrite tok_op_skip by (try discriminate; auto).
        rewrite tok_op_stop by (try discriminate; right; cbn; lia). cbn [option_map in_after cl lv pop]. rewrite Z.eqb_refl. reflexivity. }
    now rewrite E2.
  Qed.

  Lemma runs_expr e : forall p l t s, wellformed e -> guarded p e -> below p l t s -> (rank e < top p s)%nat ->
    runs (written e) (Parser (tk l t (opener p) ++ s) l t) (Parser (tk l t (fr p e) ++ s) l t).
  Proof.
    induction e as [x|v|o a IHa b IHb|a IHa|m a IHa|f a IHa|k a IHa]; intros p l t s W G B HT; cbn [written fr].
    - apply (runs_push (TNum x) (CNum x)). reflexivity.
    - apply (runs_push (TVar v) (CVar v)). reflexivity.
    - cbn in W, G, HT. destruct W as (Ho & Ra & Rb & Wa & Wb), G as [Ga Gb].
      eapply runs_app; [apply (IHa p l t s); auto; lia|].
      eapply runs_cons.
      { eapply runs_op; [apply red_frontier; auto; intros ->; now destruct B|exact Ra|].
        rewrite top_prio by auto. exact HT. }
      unfold tk at 2. rewrite map_app, <- app_assoc. cbn [map app]. fold (tk l t (rest p a)). fold (tk l t (fr Inner b)).
      apply (IHb Inner l t); auto. cbn. repeat split; discriminate.
    - cbn in W, G, HT. destruct W as (Ra & Wa).
      eapply runs_app; [apply (IHa p l t s); auto; lia|].
      eapply runs_op; [apply red_frontier; auto; intros ->; now destruct B|exact Ra|].
      rewrite top_prio by auto. exact HT.
    - cbn in W, G, HT. destruct W as (Ra & Wa), G as [Sa Ga].
      eapply runs_cons.
      { apply (runs_op (sign_op m) l t 0); [apply red_refl|lia|]. rewrite opener_prio by auto. destruct m; exact HT. }
      unfold tk at 2. rewrite map_app, <- app_assoc. cbn [map app]. fold (tk l t (opener p)). fold (tk l t (fr Inner a)).
      apply (IHa Inner l t); auto; [cbn; repeat split; discriminate|].
      cbn [top]. rewrite tok_prio_op. destruct m; exact Ra.
    - cbn in W, G, HT. destruct G as [Fa Ga].
      eapply runs_cons.
      { apply runs_one. exists O. intros n _. reflexivity. }
      unfold push; cbn [stk level pst]. eapply runs_app.
      { apply (IHa Inner (l + 1)%Z IN_FUNC (Tok (CFunc f None) (l + 1) IN_FUNC :: tk l t (opener p) ++ s)); auto.
        - cbn; repeat split; discriminate.
        - cbn [top]. unfold tok_prio. rewrite tok_op_stop; [apply rank_max|discriminate|].
          destruct p; cbn in Fa, B |- *; try tauto; right; lia. }
      apply (close_fun p f a l t s); auto.
    - cbn in W, G, HT.
      eapply runs_cons.
      { apply runs_one. exists O. intros n _. reflexivity. }
      unfold push; cbn [stk level pst]. eapply runs_app.
      { replace (Tok (CPar k) (l + 1) (IN k) :: tk l t (opener p) ++ s)
          with (tk (l + 1) (IN k) (opener (enter p k)) ++ tk l t (opener p) ++ s) by (destruct p; reflexivity).
        apply (IHa (enter p k) (l + 1)%Z (IN k)); auto using below_enter.
        replace (top (enter p k) _) with max_prio by (destruct p; reflexivity). apply rank_max. }
      apply close_par; auto.
  Qed.

  Lemma parse_expr e : wellformed e -> guarded Start e ->
    exists N, forall n, (N <= n)%nat -> exists p, zmParse_tokens n (written e) init = Done p /\ stk p = [Tok (cellof Start e) 0 FLAT].
  Proof.
    intros W G. destruct (runs_expr e Start 0 FLAT [] W G) as [N HN]; [cbn; auto|apply rank_max|].
    pose proof (red_frontier e Start 0 FLAT [] W G (fun _ => eq_refl)) as RF.
    assert (R : rest Start e = []) by (destruct (rest_cases Start e G) as [->|[-> _]]; reflexivity).
    rewrite R in RF. cbn [tk map app] in RF.
    destruct (end_loop_red _ _ _ _ RF) as [M HM].
    { apply tok_op_stop; [apply plain_no_op, cellof_plain|auto]. }
    exists (Nat.max N M). intros n Hn. specialize (HN n ltac:(lia) []). rewrite app_nil_r in HN.
    unfold zmParse_tokens, init. cbn [opener tk map app] in HN. rewrite HN. cbn [steps stk].
    rewrite HM by lia. eexists. split; reflexivity.
  Qed.
End P.
