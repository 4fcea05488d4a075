(** Proofs about the polynomial equation solvers: loops of any scalar type. *)
From Verif Require Import Prelude Prelude_Proofs Scalar Pex_Model Complex_Model PexEq_Model.

Section Any.
  Context {T : Type} {ST : Scalar T}.
  Local Open Scope S_scope.
  Let el (l : list T) (k : nat) : T := nth k l s0.

  Lemma get_el (l : list T) k : (k < length l)%nat -> get l k = Ok (nth k l s0).
  Proof. intros. now apply get_ok. Qed.

  Lemma bh_quot_ok p q a n b : (2 <= n)%nat -> (n < length a)%nat -> length b = (n + 1)%nat ->
    exists b', bh_quot p q a n b = Ok b' /\ length b' = (n + 1)%nat /\
      el b' n = el a n /\ el b' (n - 1) = el a (n - 1) - p * el b' n /\
      forall k, (k + 2 <= n)%nat -> el b' k = el a k - p * el b' (k + 1)%nat - q * el b' (k + 2)%nat.
  Proof.
    intros Hn Ha Hb. unfold bh_quot. rewrite (get_el a n) by lia. cbn [bind].
    rewrite set_ok by lia. cbn [bind]. rewrite (get_el a (n - 1)) by lia. cbn [bind].
    rewrite get_el by (rewrite upd_length; lia). cbn [bind].
    rewrite set_ok by (rewrite upd_length; lia). cbn [bind].
    set (b1 := upd _ (n - 1) _).
    destruct (for_inv (fun j b' => length b' = (n + 1)%nat /\ el b' n = el a n /\
        el b' (n - 1) = el a (n - 1) - p * el b' n /\
        forall k, (k + 2 <= n)%nat -> (n - k < j)%nat -> el b' k = el a k - p * el b' (k + 1)%nat - q * el b' (k + 2)%nat)
      2 (n + 1) (fun j b => x <- get a (n - j) ;; y <- get b (n - j + 1) ;; z <- get b (n - j + 2) ;;
        set b (n - j) (x - p * y - q * z)) b1) as (b' & E & L & H1 & H2 & H3).
    - lia.
    - unfold b1, el. rewrite !upd_length, !(nth_upd_neq _ (n - 1) n), nth_upd_eq by (rewrite ?upd_length; lia).
      rewrite nth_upd_eq by (rewrite ?upd_length; lia).
      repeat split; auto. intros; lia.
    - intros j s Hj (L & H1 & H2 & H3). rewrite (get_el a) by lia. cbn [bind].
      rewrite get_el by lia. cbn [bind]. rewrite get_el by lia. cbn [bind]. rewrite set_ok by lia.
      eexists; split; [reflexivity|]. unfold el in *. rewrite upd_length.
      rewrite !(nth_upd_neq _ (n - j) n), !(nth_upd_neq _ (n - j) (n - 1)) by lia.
      repeat split; auto. intros k Hk Hk'. destruct (Nat.eq_dec k (n - j)) as [->|Hne].
      + rewrite nth_upd_eq, !nth_upd_neq by lia. reflexivity.
      + rewrite !nth_upd_neq by lia. apply H3; lia.
    - exists b'. repeat split; auto. intros; apply H3; lia.
  Qed.

  Lemma bh_grad_ok p q n b c : (3 <= n)%nat -> length b = (n + 1)%nat -> length c = n ->
    exists c', bh_grad p q n b c = Ok c' /\ length c' = n /\
      el c' (n - 1) = el b n /\ el c' (n - 2) = el b (n - 1) - p * el c' (n - 1)%nat /\
      forall k, (k + 3 <= n)%nat -> el c' k = el b (k + 1)%nat - p * el c' (k + 1)%nat - q * el c' (k + 2)%nat.
  Proof.
    intros Hn Hb Hc. unfold bh_grad. rewrite (get_el b n) by lia. cbn [bind].
    rewrite set_ok by lia. cbn [bind]. rewrite (get_el b (n - 1)) by lia. cbn [bind].
    rewrite get_el by (rewrite upd_length; lia). cbn [bind].
    rewrite set_ok by (rewrite upd_length; lia). cbn [bind].
    set (c1 := upd _ (n - 2) _).
    destruct (for_down_inv (fun j c' => length c' = n /\ el c' (n - 1) = el b n /\
        el c' (n - 2) = el b (n - 1) - p * el c' (n - 1)%nat /\
        forall k, (k + 3 <= n)%nat -> (j <= k)%nat -> el c' k = el b (k + 1)%nat - p * el c' (k + 1)%nat - q * el c' (k + 2)%nat)
      (n - 2) (fun j c => x <- get b (j + 1) ;; y <- get c (j + 1) ;; z <- get c (j + 2) ;;
        set c j (x - p * y - q * z)) c1) as (c' & E & L & H1 & H2 & H3).
    - unfold c1, el. rewrite !upd_length, !(nth_upd_neq _ (n - 2) (n - 1)), !nth_upd_eq by (rewrite ?upd_length; lia).
      repeat split; auto. intros; lia.
    - intros j s Hj (L & H1 & H2 & H3). rewrite (get_el b) by lia. cbn [bind].
      rewrite get_el by lia. cbn [bind]. rewrite get_el by lia. cbn [bind]. rewrite set_ok by lia.
      eexists; split; [reflexivity|]. unfold el in *. rewrite upd_length.
      rewrite !(nth_upd_neq _ j (n - 1)), !(nth_upd_neq _ j (n - 2)) by lia.
      repeat split; auto. intros k Hk Hk'. destruct (Nat.eq_dec k j) as [->|Hne].
      + rewrite nth_upd_eq, !nth_upd_neq by lia. reflexivity.
      + rewrite !nth_upd_neq by lia. apply H3; lia.
    - exists c'. repeat split; auto. intros; apply H3; lia.
  Qed.

  (** the quotient of the division by x^2 + p x + q, as relations between the elements *)
  Definition quotient_of (p q : T) (n : nat) (a b : nat -> T) : Prop :=
    b n = a n /\ b (n - 1)%nat = a (n - 1)%nat - p * b n /\
    forall k, (k + 2 <= n)%nat -> b k = a k - p * b (k + 1)%nat - q * b (k + 2)%nat.

  Lemma bh_loop_ok tol a n k : (3 <= n)%nat -> (n < length a)%nat -> forall p q b c,
    length b = (n + 1)%nat -> length c = n ->
    exists p' q' b' w, bh_loop k tol a n p q b c = Ok (p', q', b', w) /\ length b' = (n + 1)%nat /\
      (w = false -> exists c', length c' = n /\
        quotient_of p' q' n (el a) (el b') /\
        (el c' (n - 1) = el b' n /\ el c' (n - 2) = el b' (n - 1) - p' * el c' (n - 1)%nat /\
         forall k, (k + 3 <= n)%nat -> el c' k = el b' (k + 1)%nat - p' * el c' (k + 1)%nat - q' * el c' (k + 2)%nat) /\
        exists dp dq, bh_delta b' c' = Ok (dp, dq, false) /\ is_tol tol dp = true /\ is_tol tol dq = true).
  Proof.
    intros Hn Ha. induction k as [|k IH]; intros p q b c Hb Hc; cbn [bh_loop].
    { exists p, q, b, true. repeat split; auto. discriminate. }
    destruct (bh_quot_ok p q a n b) as (b' & E & L & H1 & H2 & H3); [lia|lia|auto|]. rewrite E. cbn [bind].
    destruct (bh_grad_ok p q n b' c) as (c' & E' & L' & G1 & G2 & G3); auto. rewrite E'. cbn [bind].
    assert (exists dp dq s, bh_delta b' c' = Ok (dp, dq, s)) as (dp & dq & s & D).
    { unfold bh_delta. rewrite !get_el by lia. cbn [bind]. eauto. }
    rewrite D. cbn [bind]. destruct s; cbn [negb andb]; [now apply IH|].
    destruct (is_tol tol dp) eqn:T1; cbn [andb]; [|now apply IH].
    destruct (is_tol tol dq) eqn:T2; cbn [andb]; [|now apply IH].
    exists p, q, b', false. repeat split; auto. intros _. exists c'. repeat split; auto.
    exists dp, dq. auto.
  Qed.

  Lemma shift_ok a n (b : list T) : (2 <= n)%nat -> (n < length a)%nat -> length b = (n + 1)%nat ->
    exists a', for_ 2 (n + 1) (fun j a => x <- get b j ;; set a (j - 2) x) a = Ok a' /\ length a' = length a /\
      forall k, (k + 2 <= n)%nat -> el a' k = el b (k + 2)%nat.
  Proof.
    intros Hn Ha Hb.
    destruct (for_inv (fun j a' => length a' = length a /\ forall k, (k + 2 < j)%nat -> el a' k = el b (k + 2)%nat)
      2 (n + 1) (fun j a => x <- get b j ;; set a (j - 2) x) a) as (a' & E & L & H); [lia| | |].
    - split; auto. intros; lia.
    - intros j s Hj (L & H). rewrite get_el by lia. cbn [bind]. rewrite set_ok by lia. eexists; split; [reflexivity|].
      rewrite upd_length. split; auto. intros k Hk. unfold el in *. destruct (Nat.eq_dec k (j - 2)) as [->|].
      + rewrite nth_upd_eq by lia. f_equal. lia.
      + rewrite nth_upd_neq by lia. apply H. lia.
    - exists a'. repeat split; auto. intros; apply H; lia.
  Qed.

  Lemma zPexBH_step maxiter p q a n tol iter : (3 <= n)%nat -> (n < length a)%nat ->
    exists p' q' a' w, _zPexBH maxiter p q a n tol iter = Ok (p', q', a', w) /\ length a' = length a /\
      (w = false -> exists b' c', length b' = (n + 1)%nat /\ length c' = n /\
        (forall k, (k + 2 <= n)%nat -> el a' k = el b' (k + 2)%nat) /\
        quotient_of p' q' n (el a) (el b') /\
        (el c' (n - 1) = el b' n /\ el c' (n - 2) = el b' (n - 1) - p' * el c' (n - 1)%nat /\
         forall k, (k + 3 <= n)%nat -> el c' k = el b' (k + 1)%nat - p' * el c' (k + 1)%nat - q' * el c' (k + 2)%nat) /\
        exists dp dq, bh_delta b' c' = Ok (dp, dq, false) /\ is_tol tol dp = true /\ is_tol tol dq = true).
  Proof.
    intros Hn Ha. unfold _zPexBH.
    destruct (bh_loop_ok tol a n (if (iter =? 0)%nat then maxiter else iter) Hn Ha p q (repeat 0 (n + 1)) (repeat 0 n))
      as (p' & q' & b' & w & E & L & H); [apply repeat_length|apply repeat_length|].
    rewrite E. cbn [bind]. destruct (shift_ok a n b') as (a' & E' & L' & S'); [lia|lia|auto|]. rewrite E'. cbn [bind].
    exists p', q', a', w. repeat split; auto. intros Hw. destruct (H Hw) as (c' & Lc & Q & G & D).
    exists b', c'. repeat split; auto; try apply Q; try apply G.
  Qed.

  Lemma qe_store_ok half four a b c ans k : (k + 1 < length ans)%nat ->
    exists ans', qe_store half four a b c ans k = Ok ans' /\ length ans' = length ans /\
      (forall i, (i < k \/ k + 1 < i)%nat -> nth i ans' (s0, s0) = nth i ans (s0, s0)) /\
      (forall x1 x2, zQESolve half four a b c = Some (x1, x2) -> nth k ans' (s0, s0) = x1 /\ nth (k + 1) ans' (s0, s0) = x2).
  Proof.
    intros Hk. unfold qe_store. destruct (zQESolve half four a b c) as [[x1 x2]|].
    - rewrite set_ok by lia. cbn [bind]. rewrite set_ok by (rewrite upd_length; lia).
      eexists; split; [reflexivity|]. rewrite !upd_length. repeat split; auto.
      + intros i Hi. rewrite !nth_upd_neq by lia. reflexivity.
      + inversion H; subst. rewrite nth_upd_neq, nth_upd_eq by (rewrite ?upd_length; lia). reflexivity.
      + inversion H; subst. rewrite nth_upd_eq by (rewrite ?upd_length; lia). reflexivity.
    - exists ans. repeat split; auto; discriminate.
  Qed.

  (** the solver always answers *)
  Lemma bhdst_total maxiter half four tol iter : forall fuel n a ans w, (n <= 2 * fuel + 2)%nat -> (n < length a)%nat -> (n <= length ans)%nat ->
    exists ans' w', bhdst_loop maxiter half four fuel n tol iter a ans w = Ok (ans', w') /\ length ans' = length ans /\ (w = true -> w' = true).
  Proof.
    induction fuel as [|fuel IH]; intros n a ans w Hf Ha Hans; destruct n as [|[|[|n]]]; cbn [bhdst_loop]; try lia.
    1, 4: now exists ans, w.
    1, 3: rewrite !get_el by lia; cbn [bind]; rewrite set_ok by lia; cbn [bind]; do 2 eexists; split; [reflexivity|]; rewrite upd_length; auto.
    1, 2: rewrite !get_el by lia; cbn [bind]; destruct (qe_store_ok half four (nth 2 a s0) (nth 1 a s0) (nth 0 a s0) ans 0) as (ans' & E & L & _);
      [lia|]; rewrite E; cbn [bind]; do 2 eexists; split; [reflexivity|]; auto.
    rewrite !get_el by lia. cbn [bind].
    destruct (zPexBH_step maxiter (nth 1 a s0 + 1) (nth 0 a s0 + 1) a (S (S (S n))) tol iter) as (p' & q' & a' & w' & E & L & _); [lia|lia|].
    rewrite E. cbn [bind].
    destruct (qe_store_ok half four 1 p' q' ans (S (S (S n)) - 2)) as (ans' & E2 & L2 & _); [lia|]. rewrite E2. cbn [bind].
    destruct (IH (S (S (S n)) - 2)%nat a' ans' (w || w')) as (ans2 & w2 & E3 & L3 & H3); [lia|lia|lia|].
    exists ans2, w2. rewrite E3. repeat split; auto; [congruence|]. intros ->. now apply H3.
  Qed.
End Any.
