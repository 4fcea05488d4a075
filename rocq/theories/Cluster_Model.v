(** Model of src/zm_mva_cluster.c: k-means (with the initialisations of KKZ and k-means++), k-medoids, X-means,
    silhouettes and evenness.  A sample is the address of a vector: a number, [pt] is its value.  A list is in the
    order of zListForEach, from the tail to the head; zListInsertHead appends.  The functions of the method are
    parameters; zVecClusterMethodSetDefault gives the default ones below.  HUGE_VAL is None and is replaced by any
    number.  Allocation is assumed to succeed. *)
From Coq Require Import List.
From Verif Require Import Prelude Scalar Fmat LE_Model IP_Model Vop Stat_Model.
From Verif Require Root_Model.
Import ListNotations.

Section Cluster.
  Context {T : Type} {ST : Scalar T}.
  Local Open Scope S_scope.
  Local Notation vec := (fvec T).
  Variable ztol : T.
  Local Notation nat_ n := (sofZ (Z.of_nat n)).

  (** ** the default methods *)
  (** zm_mva_cluster.c:67-70 with zVecSqrNorm: the square of the error; [n] is error_size *)
  Definition default_errsq (n : nat) (p core : vec) : res T :=
    e <- zVecSubC p core (vzero n) ;; Ok (zVecSqrNorm e).
  (** 73-76; zVecDist (zm_vec.h:538) of vectors of equal sizes *)
  Definition default_dist (p1 p2 : vec) : res T := d <- sqrdist p1 p2 ;; Ok (ssqrt d).
  (** 79-82 *)
  Definition default_core (l : list vec) (core : vec) : res vec := zVecListMean ztol l core.

  (** the functions of zVecClusterMethod; the error is only used through its square norm *)
  Variable errsq : vec -> vec -> res T.
  Variable dist : vec -> vec -> res T.
  Variable coref : list vec -> vec -> res vec.
  Variable pt : nat -> vec.

  (** 85-93 *)
  Definition _zVecClusterDistSum (l : list vec) (v : vec) : res T := foreach l (fun p s => d <- dist p v ;; Ok (s + d)) 0.
  (** 94-97 *)
  Definition _zVecClusterDistAve (l : list vec) (v : vec) : res T := s <- _zVecClusterDistSum l v ;; Ok (s / nat_ (length l)).
  (** 98-111; an empty list has no tail cell *)
  Definition _zVecClusterCoreMedoid (l : list vec) (core : vec) : res vec :=
    match l with
    | [] => UB
    | t :: _ =>
        '(_, mp) <- foreach l (fun c '(dmin, mp) =>
           d <- _zVecClusterDistSum l c ;;
           if match dmin with None => true | Some m => slt d m end then Ok (Some d, c) else Ok (dmin, mp)) (None, t) ;;
        zVecCopyC mp core
    end.

  (** zm_mva_cluster.h:19-26, without the silhouettes *)
  Record cluster := Cl { sam : list nat; core : vec; var : T }.

  (** 472-483 *)
  Definition _zVecMultiClusterVar (c : cluster) : res cluster :=
    v <- foreach (sam c) (fun p v => d <- errsq (pt p) (core c) ;; Ok (v + d)) 0 ;;
    Ok (Cl (sam c) (core c) (v / nat_ (length (sam c)))).
  (** 608-611 *)
  Definition compute_cores (cs : list cluster) : res (list cluster) :=
    for_ 0 (length cs) (fun i cs =>
      c <- get cs i ;;
      m <- coref (map pt (sam c)) (core c) ;;
      c <- _zVecMultiClusterVar (Cl (sam c) m (var c)) ;;
      set cs i c) cs.
  (** 616-624: the cluster of the nearest core; the cluster [i] of the point when no distance is less than HUGE_VAL,
      which is when there are only NaNs *)
  Definition nearest_core (cs : list cluster) (i p : nat) : res nat :=
    '(_, c) <- for_ 0 (length cs) (fun j '(dmin, c) =>
       cj <- get cs j ;;
       d <- errsq (pt p) (core cj) ;;
       if match dmin with None => true | Some m => slt d m end then Ok (Some d, j) else Ok (dmin, c)) (None, i) ;;
    Ok c.
  (** zListPurge of the j-th cell *)
  Definition purge (l : list nat) (j : nat) : list nat := firstn j l ++ skipn (S j) l.
  (** 615-632: for each point of the cluster [i]; [j] is the number of the cells behind pc.  No cell is inserted into
      the cluster [i] itself. *)
  Definition reassign_one (i : nat) (s : list cluster * bool) : res (list cluster * bool) :=
    let '(cs, moved) := s in
    ci <- get cs i ;;
    '(cs, _, moved) <- for_ 0 (length (sam ci)) (fun _ '(cs, j, moved) =>
       ci <- get cs i ;;
       p <- get (sam ci) j ;;
       c <- nearest_core cs i p ;;
       if (c =? i)%nat then Ok (cs, S j, moved)
       else
         cs <- set cs i (Cl (purge (sam ci) j) (core ci) (var ci)) ;;
         cc <- get cs c ;;
         cs <- set cs c (Cl (sam cc ++ [p]) (core cc) (var cc)) ;;
         Ok (cs, j, true)) (cs, O, moved) ;;
    Ok (cs, moved).
  (** 612-633 *)
  Definition reassign (cs : list cluster) : res (list cluster * bool) :=
    for_ 0 (length cs) reassign_one (cs, false).
  (** 605-635: [rest] rounds may follow; the answer i is the number of rounds *)
  Fixpoint recluster_loop (rest i : nat) (cs : list cluster) : res (list cluster * nat) :=
    match rest with
    | O => Ok (cs, i)
    | S rest =>
        cs <- compute_cores cs ;;
        '(cs, moved) <- reassign cs ;;
        if (moved : bool) then recluster_loop rest (S i) cs else Ok (cs, i)
    end.
  (** 597-638; [maxiter] is Z_MAX_ITER_NUM *)
  Definition _zVecMultiClusterKMeansRecluster (maxiter : nat) (cs : list cluster) : res (list cluster * nat) :=
    recluster_loop maxiter O cs.

  (** 486-507: [cs] are the samples of the clusters; the tail of each is its first core.  inr: goto CONTINUE *)
  Definition init_point (p : nat) (cs : list (list nat)) : res (list (list nat)) :=
    r <- forb 0 (length cs) (fun j '(dmin, c) =>
       sj <- get cs j ;;
       t <- get sj 0 ;;
       if (p =? t)%nat then Ok (inr tt)
       else
         d <- dist (pt p) (pt t) ;;
         if match dmin with None => true | Some m => slt d m end then Ok (inl (Some d, Some j)) else Ok (inl (dmin, c))) (None, None) ;;
    match r with
    | inr _ => Ok cs
    | inl (_, None) => UB
    | inl (_, Some j) => sj <- get cs j ;; set cs j (sj ++ [p])
    end.
  Definition _zVecMultiClusterKMeansInitCluster (points : list nat) (cs : list (list nat)) : res (list (list nat)) :=
    foreach points init_point cs.
  (** 535-537, 568-571: the distance from p to the nearest of the first cores so far, HUGE_VAL if there is none *)
  Definition near_seed (seeds : list nat) (p : nat) : res (option T) :=
    foreach seeds (fun t dmin => d <- dist (pt p) (pt t) ;;
      if match dmin with None => true | Some m => slt d m end then Ok (Some d) else Ok dmin) None.
  (** 510-547: the first cores; None is the empty set.  pp_max is dereferenced although it is NULL when no distance is
      positive.  Without a cluster the root of the list is taken for one. *)
  Definition kkz_seeds (points : list nat) (k : nat) : res (option (list nat)) :=
    match points with
    | [] => Ok None
    | _ =>
        if (k =? 0)%nat then UB else
        mean <- zVecListMean ztol (map pt points) (vzero (vlen (pt (last points O)))) ;;
        '(_, p) <- foreach points (fun p '(dmax, pm) => d <- dist (pt p) mean ;; if slt dmax d then Ok (d, Some p) else Ok (dmax, pm)) (0, None) ;;
        match p with
        | None => UB
        | Some p =>
            seeds <- for_ 1 (Nat.max 1 k) (fun _ seeds =>
              '(_, p) <- foreach points (fun p '(dmax, pm) =>
                 dmin <- near_seed seeds p ;;
                 match dmin with
                 | None => UB                       (* not reached: there is a seed *)
                 | Some d => if slt dmax d then Ok (d, Some p) else Ok (dmax, pm)
                 end) (0, None) ;;
              match p with None => UB | Some p => Ok (seeds ++ [p]) end) [p] ;;
            Ok (Some seeds)
        end
    end.

  (** the random numbers: [rndi k n] in 0..n-1, [rndf k] in [0,1] of the k-th call *)
  Variable rndi : nat -> nat -> nat.
  Variable rndf : nat -> T.
  (** 550-594: the first cores and the number of the calls made.  zVecDiv does nothing when the sum is tiny.  When the
      roulette ends without a point the root of the list is taken for a cell. *)
  Definition pp_seeds (points : list nat) (k r : nat) : res (option (list nat * nat)) :=
    match points with
    | [] => Ok None
    | _ =>
        if (k =? 0)%nat then UB else
        p <- get points (rndi r (length points)) ;;
        s <- for_ 1 (Nat.max 1 k) (fun _ '(seeds, r) =>
          score <- foreach points (fun p score =>
            dmin <- near_seed seeds p ;;
            match dmin with None => UB | Some d => Ok (score ++ [d * d]) end) [] ;;
          sum <- zDataSum score (length score) ;;
          score <- zVecDivDRC ztol (vec_of 0 score) sum ;;
          let pr := rndf r in
          r' <- forb 0 (length points) (fun i rate =>
             x <- vget score i ;;
             let rate := rate + x in
             if sle pr rate then p <- get points i ;; Ok (inr p) else Ok (inl rate)) 0 ;;
          match r' with inl _ => UB | inr p => Ok (seeds ++ [p], S r) end) ([p], S r) ;;
        Ok (Some s)
    end.

  (** zVecClusterCreate (15-25): the core is zero; var = HUGE_VAL is overwritten before it is read *)
  Definition new_cluster (n : nat) (s : list nat) : cluster := Cl s (vzero n) 0.
  (** 641-646; [n] is core_size; None is -1 *)
  Definition zVecMultiClusterKMeansKKZ (maxiter n : nat) (points : list nat) (k : nat) : res (option (list cluster * nat)) :=
    s <- kkz_seeds points k ;;
    match s with
    | None => Ok None
    | Some seeds =>
        cs <- _zVecMultiClusterKMeansInitCluster points (map (fun p => [p]) seeds) ;;
        r <- _zVecMultiClusterKMeansRecluster maxiter (map (new_cluster n) cs) ;; Ok (Some r)
    end.
  (** 649-654, 657-661: also the number of the random numbers drawn *)
  Definition zVecMultiClusterKMeans (maxiter n : nat) (points : list nat) (k r : nat) : res (option (list cluster * nat * nat)) :=
    s <- pp_seeds points k r ;;
    match s with
    | None => Ok None
    | Some (seeds, r) =>
        cs <- _zVecMultiClusterKMeansInitCluster points (map (fun p => [p]) seeds) ;;
        '(cs, i) <- _zVecMultiClusterKMeansRecluster maxiter (map (new_cluster n) cs) ;; Ok (Some (cs, i, r))
    end.

  (** ** indices *)
  (** 387-401; the sizes of the largest and of the smallest cluster; None is INT_MAX *)
  Definition evenness_sizes (cs : list cluster) : option nat * nat :=
    fold_left (fun '(mn, mx) c => let n := length (sam c) in
      (match mn with None => Some n | Some m => if (n <? m)%nat then Some n else mn end, if (mx <? n)%nat then n else mx)) cs (None, O).
  Definition zVecMultiClusterEvenness (cs : list cluster) : option T :=
    match evenness_sizes cs with (Some mn, mx) => Some (nat_ mx / nat_ mn) | (None, _) => None end.
  (** 680-689: the silhouette of a sample of the cluster [i]; None: (b-a)/b with b = HUGE_VAL *)
  Definition silhouette (cs : list cluster) (i p : nat) : res (option T) :=
    ci <- get cs i ;;
    a <- _zVecClusterDistAve (map pt (sam ci)) (pt p) ;;
    b <- for_ 0 (length cs) (fun j b =>
      if (j =? i)%nat then Ok b
      else
        cj <- get cs j ;;
        bt <- _zVecClusterDistAve (map pt (sam cj)) (pt p) ;;
        Ok (if match b with None => true | Some b => slt bt b end then Some bt else b)) None ;;
    Ok (match b with None => None | Some b => Some ((b - a) / (if slt b a then a else b)) end).
  (** 668-694: the sum of the silhouettes, None when it is NaN as for one cluster, and their number *)
  Definition silhouettes (cs : list cluster) : res (option T * nat) :=
    for_ 0 (length cs) (fun i '(score, n) =>
      ci <- get cs i ;;
      score <- foreach (sam ci) (fun p score =>
        s <- silhouette cs i p ;; Ok (match score, s with Some x, Some s => Some (x + s) | _, _ => None end)) score ;;
      Ok (score, (n + length (sam ci))%nat)) (Some 0, O).
  Definition zVecMultiClusterMeanSilhouette (cs : list cluster) : res (option T) :=
    '(s, n) <- silhouettes cs ;; Ok (match s with None => None | Some s => Some (s / nat_ n) end).

  (** ** X-means *)
  (** 772-782 *)
  Definition _zVecClusterMaxError (c : cluster) : res T :=
    foreach (sam c) (fun p dmax => e <- errsq (pt p) (core c) ;; let d := ssqrt e in Ok (if slt dmax d then d else dmax)) 0.
  (** 785-796; [n] is the size of the error vector, pow is a repeated product *)
  Definition _zVecMultiClusterXMeansCheckDensity (n : nat) (c c1 c2 : cluster) : res bool :=
    let pow x := Nat.iter n (fun y => x * y) 1 in
    d <- _zVecClusterMaxError c ;; d1 <- _zVecClusterMaxError c1 ;; d2 <- _zVecClusterMaxError c2 ;;
    Ok (slt (pow d1 + pow d2) (pow d)).
  (** 829-842; [test c c1 c2] is the test function given by the user, the one above or that of 799-826 *)
  Variable test : cluster -> cluster -> cluster -> bool.
  Definition _zVecMultiClusterXMeansTest (c c1 c2 : cluster) : bool :=
    if (10 * length (sam c1) <? length (sam c2))%nat || (10 * length (sam c2) <? length (sam c1))%nat then false
    else test c c1 c2.
  (** 845-865, with the merge 741-755: the clusters that replace [c]; [fuel] bounds the depth of the recursion, its
      exhaustion is UB.  The head of the two clusters is divided first. *)
  Fixpoint _zVecMultiClusterXMeans (fuel maxiter n : nat) (c : cluster) (r : nat) : res (list cluster * nat) :=
    match fuel with
    | O => UB
    | S fuel =>
        if (length (sam c) <? 10)%nat then Ok ([c], r)
        else
          s <- zVecMultiClusterKMeans maxiter n (sam c) 2 r ;;
          match s with
          | Some ([t; h], _, r) =>
              if _zVecMultiClusterXMeansTest c h t then Ok ([c], r)
              else
                '(hs, r) <- _zVecMultiClusterXMeans fuel maxiter n h r ;;
                '(ts, r) <- _zVecMultiClusterXMeans fuel maxiter n t r ;;
                Ok (ts ++ hs, r)
          | _ => UB
          end
    end.
  (** 758-769, 868-873 *)
  Definition zVecMultiClusterXMeans (fuel maxiter n : nat) (points : list nat) (r : nat) : res (list cluster * nat) :=
    m <- coref (map pt points) (vzero n) ;;
    c <- _zVecMultiClusterVar (Cl points m 0) ;;
    _zVecMultiClusterXMeans fuel maxiter n c r.
End Cluster.

(** 657-661: k-means with medoids for cores; the size of a core is that of the point at the tail, an empty list has
    no tail *)
Definition zVecMultiClusterKMedoids {T} {ST : Scalar T} (ztol : T) (errsq dist : fvec T -> fvec T -> res T) (pt : nat -> fvec T)
    (rndi : nat -> nat -> nat) (rndf : nat -> T) (maxiter : nat) (points : list nat) (k r : nat) : res (option (list cluster * nat * nat)) :=
  match points with
  | [] => UB
  | t :: _ => zVecMultiClusterKMeans ztol errsq dist (_zVecClusterCoreMedoid dist) pt rndi rndf maxiter (vlen (pt t)) points k r
  end.
