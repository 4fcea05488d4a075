(** Model of src/zm_stat.c (extrema, sum, mean, variance, binomial distribution),
    src/zm_stat_histogram.c, src/zm_mva.c (mean, variance, covariance) and src/zm_data.c.
    A C array of doubles is a list; a read outside of it is [UB].  [tol] is zTOL.
    Allocation is assumed to succeed. *)
From Verif Require Import Prelude Scalar Fmat Misc_Model IP_Model Curve_Model.
From Verif Require Complex_Model.

Section Stat.
  Context {T : Type} {ST : Scalar T}.
  Local Open Scope S_scope.
  Variable tol : T.
  Local Notation vec := (fvec T).
  Local Notation mat := (fmat T).
  Local Notation nat_ n := (sofZ (Z.of_nat n)).
  Local Notation half := (sofZ 1%Z / sofZ 2%Z).
  Local Definition sqr (x : T) : T := x * x.

  (** zm_stat.c:75-150: the four searches differ in the key and in the comparison.
      [better y x] is the test under which a new element y replaces the best one x. *)
  Definition extremum (key : T -> T) (better : T -> T -> bool) (data : list T) (size : nat) : res (T * nat) :=
    x <- get data 0 ;;
    for_ 1 (Nat.max 1 size) (fun i mi =>
      y <- get data i ;;
      let val := key y in
      if better val (fst mi) then Ok (val, i) else Ok mi) (key x, O).
  (** zm_stat.c:76-88; the test is [data[i] > max] *)
  Definition zDataMax := extremum (fun x => x) (fun y m => slt m y).
  (** zm_stat.c:91-103 *)
  Definition zDataMin := extremum (fun x => x) (fun y m => slt y m).
  (** zm_stat.c:130-142 *)
  Definition zDataAbsMax := extremum sabs (fun y m => slt m y).
  (** zm_stat.c:145-157 *)
  Definition zDataAbsMin := extremum sabs (fun y m => slt y m).
  (** zm_stat.c:106-127: (min, imin), (max, imax) *)
  Definition zDataMinMax (data : list T) (size : nat) : res ((T * nat) * (T * nat)) :=
    x <- get data 0 ;;
    for_ 0 size (fun i mm =>
      let '(mn, mx) := mm in
      y <- get data i ;;
      let mn := if slt y (fst mn) then (y, i) else mn in
      let mx := if slt (fst mx) y then (y, i) else mx in
      Ok (mn, mx)) ((x, O), (x, O)).
  (** zm_stat.c:160-173: the state is (s_prev, q); s = s_prev after each round *)
  Definition zDataSum (data : list T) (size : nat) : res T :=
    '(s, q) <- for_ 0 size (fun i sq =>
       let '(s_prev, q) := sq in
       x <- get data i ;;
       let s := s_prev + x in
       let r := s - s_prev in
       Ok (s, q + (x - r))) (0, 0) ;;
    Ok (s + q).
  (** zm_stat.c:176-179 *)
  Definition zDataMean (data : list T) (size : nat) : res T :=
    rmap (fun s => s / nat_ size) (zDataSum data size).
  (** zm_stat.c:182-191 *)
  Definition zDataVar (data : list T) (size : nat) : res T :=
    mean <- zDataMean data size ;;
    r <- for_ 0 size (fun i r => x <- get data i ;; Ok (r + sqr (x - mean))) 0 ;;
    Ok (r / nat_ size).
  (** zm_stat.c:194-197 *)
  Definition zDataStandardDeviation (data : list T) (size : nat) : res T := rmap ssqrt (zDataVar data size).
  (** zm_stat.c:200-207; zEqual: zm_misc.c:22-26 *)
  Definition zDataIsIncluded (data : list T) (size : nat) (val tl : T) : res bool :=
    r <- forb 0 size (fun i _ => x <- get data i ;; Ok (if Complex_Model.zEqual x val tl then inr tt else inl tt)) tt ;;
    Ok (match r with inl _ => false | inr _ => true end).
  (** zm_stat.c:40-43 with 0<=x<=n; pow with integer exponents is the exact power *)
  Definition zBinDistrib (x n : nat) (p : T) : T :=
    zCombination (Z.of_nat n) (Z.of_nat x) * spow p x * spow (1 - p) (n - x).

  (** zm_stat.c:34-37; [fexp] is exp *)
  Variable fexp : T -> T.
  Definition zPoissonDistrib (x : nat) (lambda : T) : T := fexp (- lambda) * spow lambda x / zFactorial (Z.of_nat x).
  (** zm_stat.c:55-73 for even k (the last branch): i = 2, 4, ... below k *)
  Definition chi2_sum (x : T) (cnt : nat) : T * T :=
    fold_left (fun st i => let t := snd st * (x / nat_ (2 * i + 2)%nat) in (fst st + t, t)) (List.seq 0 cnt)
      (fexp (- half * x), fexp (- half * x)).
  Definition zChi2CumDistrib_even (x : T) (k : nat) : T := 1 - fst (chi2_sum x ((k - 1) / 2)).

  (** ** zm_stat_histogram.c *)
  (** conversion of a double to int: [None] when the truncated value is not an int *)
  Variable toint : T -> option Z.
  Record hist := HI { h_min : T; h_max : T; h_bin : list Z }.
  (** zm_stat_histogram.c:12-22 *)
  Definition zHistogramAllocBin (min max : T) (num : nat) : hist := HI min max (repeat 0%Z num).
  Definition zlimit (x lo hi : Z) : Z := if (x <? lo)%Z then lo else if (hi <? x)%Z then hi else x.
  (** zm_stat_histogram.c:31-38; the conversion of a value that is not an int is [UB].
      The counters are unbounded. *)
  Definition zHistogramVote (h : hist) (val : T) : res hist :=
    match toint ((val - h_min h) / (h_max h - h_min h) * nat_ (length (h_bin h))) with
    | None => UB
    | Some i =>
        let i := zlimit i 0 (Z.of_nat (length (h_bin h)) - 1) in
        if (i <? 0)%Z then UB
        else c <- get (h_bin h) (Z.to_nat i) ;; b <- set (h_bin h) (Z.to_nat i) (c + 1)%Z ;; Ok (HI (h_min h) (h_max h) b)
    end.
  (** zm_stat_histogram.c:41-50 *)
  Definition zHistogramCreate (data : list T) (size : nat) (min max : T) (num : nat) : res hist :=
    for_ 0 size (fun i h => x <- get data i ;; zHistogramVote h x) (zHistogramAllocBin min max num).
  (** zm_stat_histogram.c:53-60 *)
  Definition zHistogramCreateAuto (data : list T) (size num : nat) : res hist :=
    '(mn, mx) <- zDataMinMax data size ;;
    let margin := half * (fst mx - fst mn) / sofZ (Z.of_nat num - 1) in
    zHistogramCreate data size (fst mn - margin) (fst mx + margin) num.
  (** zm_stat_histogram.c:63-67 *)
  Definition zHistogramBinMin (h : hist) (i : Z) : T :=
    let n := Z.of_nat (length (h_bin h)) in
    let i := zlimit i 0 (n - 1) in
    h_min h + (h_max h - h_min h) * sofZ i / sofZ n.
  (** zm_stat_histogram.c:70-73 *)
  Definition zHistogramBinMax (h : hist) (i : Z) : T := zHistogramBinMin h (i + 1).
  (** zm_stat_histogram.c:76-79 *)
  Definition zHistogramBinMid (h : hist) (i : Z) : T := half * (zHistogramBinMax h i + zHistogramBinMin h i).

  (** ** zm_mva.c; a list of vectors in the order of zListForEach *)
  Definition foreach {A St} (l : list A) (f : A -> St -> res St) (s : St) : res St :=
    fold_left (fun r a => s <- r ;; f a s) l (Ok s).
  (** zm_mva.c:11-31; [None] in a component stands for the initial infinity.  The initial infinity is
      replaced by any finite number. *)
  Definition upd_best (better : T -> T -> bool) (b : fvec (option T)) (v : vec) : res (fvec (option T)) :=
    for_ 0 (vlen b) (fun i b =>
      x <- vget v i ;; y <- vget b i ;;
      if match y with None => true | Some y => better x y end then vset b i (Some x) else Ok b) b.
  Definition zVecListMinMax (l : list vec) (nmin nmax : nat) : res (option (fvec (option T) * fvec (option T))) :=
    match rev l with
    | [] => UB
    | hd :: _ =>
        if negb ((vlen hd =? nmin) && (vlen hd =? nmax))%nat then Ok None
        else rmap Some (foreach l (fun v mm =>
               mn <- upd_best (fun x y => slt x y) (fst mm) v ;;
               mx <- upd_best (fun x y => slt y x) (snd mm) v ;;
               Ok (mn, mx)) (FV nmin (fun _ => None), FV nmax (fun _ => None)))
    end.
  (** zm_mva.c:33-43; a vector of another size is reported and skipped *)
  Definition zVecListSum (l : list vec) (sum : vec) : res vec :=
    foreach l (fun v sum => zVecAddC sum v sum) (zVecZero sum).
  (** zm_mva.c:46-50 *)
  Definition zVecListMean (l : list vec) (mean : vec) : res vec :=
    m <- zVecListSum l mean ;; zVecDivDRC tol m (nat_ (length l)).
  (** zm_raw_vec.c:315-323 on vectors of equal sizes *)
  Definition sqrdist (v1 v2 : vec) : res T :=
    for_ 0 (vlen v1) (fun i d => x <- vget v1 i ;; y <- vget v2 i ;; Ok (d + sqr (x - y))) 0.
  (** zm_mva.c:53-65; [None] = HUGE_VAL.  An empty list has no head cell: [UB]. *)
  Definition zVecListVar (l : list vec) (mean : vec) : res (option T) :=
    match rev l with
    | [] => UB
    | hd :: _ =>
        if negb (vlen mean =? vlen hd)%nat then Ok None
        else s <- foreach l (fun v s => d <- sqrdist v mean ;; Ok (s + d)) 0 ;; Ok (Some (s / nat_ (length l)))
    end.
  (** zm_mva.c:68-72 *)
  Definition zVecListMeanVar (l : list vec) (mean : vec) : res (vec * option T) :=
    m <- zVecListMean l mean ;; v <- zVecListVar l m ;; Ok (m, v).
  (** zm_raw_mat.c:435-444 *)
  Definition add_dyad (m : mat) (v1 v2 : vec) : res mat :=
    for_ 0 (vlen v1) (fun i m => for_ 0 (vlen v2) (fun j m => x <- vget v1 i ;; y <- vget v2 j ;; mmod m i j (fun e => e + x * y)) m) m.
  (** zMatDivDRC: zm_mat.c:593-604 *)
  Definition mat_div (m : mat) (k : T) : option mat :=
    if is_tol tol k then None else Some (FM (nr m) (nc m) (fun i j => el m i j * (1 / k))).
  (** zm_mva.c:75-101 *)
  Definition zVecListCov (l : list vec) (mean : vec) (cov : mat) : res (option mat) :=
    match rev l with
    | [] => UB
    | hd :: _ =>
        let s := vlen hd in
        if negb (vlen mean =? s)%nat then Ok None
        else if negb ((nr cov =? nc cov) && (nr cov =? s))%nat then Ok None
        else
          '(c, _) <- foreach l (fun x cv => v <- zVecSubC x mean (snd cv) ;; c <- add_dyad (fst cv) v v ;; Ok (c, v))
                 (FM s s (fun _ _ => 0), FV s (fun _ => 0)) ;;
          Ok (mat_div c (nat_ (length l)))
    end.
  (** zm_mva.c:104-108 *)
  Definition zVecListMeanCov (l : list vec) (mean : vec) (cov : mat) : res (vec * option mat) :=
    m <- zVecListMean l mean ;; c <- zVecListCov l m cov ;; Ok (m, c).

  (** ** zm_data.c *)
  (** zm_data.c:11-15 *)
  Definition is_peak (src : list T) (size i : nat) : res bool :=
    if (i =? 0)%nat || (size <=? i + 1)%nat then Ok false
    else x <- get src i ;; a <- get src (i - 1) ;; b <- get src (i + 1) ;; Ok (slt a x && slt b x).
  (** zm_data.c:18-42; the list is kept with its head first (zIntListAdd inserts a head), the
      index is created from its tail (zIndexCreateFromList) *)
  Definition zDataPeak (src : list T) (size : nat) (w : Z) : res (list nat) :=
    l <- for_ 1 (Nat.max 1 size) (fun i l =>
      p <- is_peak src size i ;;
      if p then
        match l with
        | [] => Ok [i]
        | h :: t =>
            if (Z.of_nat h + w <? Z.of_nat i)%Z then Ok (i :: l)
            else x <- get src i ;; y <- get src h ;; if slt y x then Ok (i :: t) else Ok l
        end
      else Ok l) [] ;;
    Ok (rev l).
  (** zm_data.c:45-50 *)
  Definition sort_cmp (x y : T) : Z := if slt y x then 1%Z else if slt x y then (-1)%Z else 0%Z.
  (** zm_data.c:60-65 and 79-88 *)
  Definition index_cmp (key : T -> T) (data : list T) (i j : nat) : Z := sort_cmp (key (nth i data 0)) (key (nth j data 0)).
  (** zQuickSort and zQuickSelect of ZEDA are given by the sorted sequence they answer *)
  Variable qsort : forall A : Type, (A -> A -> Z) -> list A -> list A.
  Arguments qsort {A}.
  (** zm_data.c:53-57 *)
  Definition zDataSort (data : list T) : list T := qsort sort_cmp data.
  (** zm_data.c:68-76; an index outside the data is [UB] *)
  Definition sort_index (key : T -> T) (data : list T) (size : nat) (index : list nat) : res (option (list nat)) :=
    if negb (size =? length index)%nat then Ok None
    else if forallb (fun i => i <? length data)%nat index then Ok (Some (qsort (index_cmp key data) index)) else UB.
  Definition zDataSortIndex := sort_index (fun x => x).
  (** zm_data.c:91-99 *)
  Definition zDataSortAbsIndex := sort_index sabs.
  (** zm_data.c:102-118; [None] = NAN.  zQuickSelect gives NULL outside the array. *)
  Definition zDataSelect (data : list T) (size k : nat) : res (option T) :=
    if (length data <? size)%nat then UB
    else
      match nth_error (qsort (index_cmp (fun x => x) data) (List.seq 0 size)) k with
      | Some i => rmap Some (get data i)
      | None => Ok None
      end.
  (** zm_data.c:121-130 *)
  Definition zDataMedian (data : list T) (size : nat) : res (option T) :=
    if Nat.odd size then zDataSelect data size ((size - 1) / 2)
    else
      if (size =? 0)%nat then Ok None
      else
      m1 <- zDataSelect data size (size / 2 - 1) ;;
      m2 <- zDataSelect data size (size / 2) ;;
      Ok (match m1, m2 with Some a, Some b => Some (half * (a + b)) | _, _ => None end).

  (** zm_data.c:133-168; [val] is zPexIPVal or zPexIPVel; [dest] has at least [size] elements.
      A window that leaves the data is [UB]; so is a window size of 0 (NULL vectors) and
      of 1 (the term 0 is refused and an uninitialised pointer is freed, zm_data.c:144-147,165). *)
  Definition window (src : list T) (st w : nat) : res vec :=
    if (st + w <=? length src)%nat then Ok (FV w (fun i => nth (st + i) src 0)) else UB.
  Definition smoothSG (val : pexip -> T -> res T) (src : list T) (size w dim : nat) (dest : list T) : res (option (list T)) :=
    if (w <=? 1)%nat then UB else
    match zPexIPAlloc (nat_ (w - 1)) dim with
    | None => Ok None
    | Some _ =>
        let ts := FV w (fun i => nat_ i) in
        let create st := win <- window src st w ;; zPexIPCreateLSM tol (nat_ (w - 1)) dim ts win in
        o <- create O ;;
        match o with
        | None => Ok None
        | Some pc =>
            let wh := (w / 2)%nat in
            dest <- for_ 0 wh (fun i d => x <- val pc (nat_ i) ;; set d i x) dest ;;
            if (size <? wh)%nat then UB else
            let nw := (size - wh)%nat in
            r <- for_ wh (Nat.max wh nw) (fun i s =>
                   match s with
                   | None => Ok None
                   | Some (pc, d) =>
                       o <- create (i - wh + 1)%nat ;;
                       match o with
                       | None => Ok None
                       | Some pc => x <- val pc (sofZ (Z.of_nat wh - 1)) ;; d <- set d i x ;; Ok (Some (pc, d))
                       end
                   end) (Some (pc, dest)) ;;
            match r with
            | None => Ok None
            | Some (pc, dest) =>
                rmap Some (for_ (Nat.max wh nw) size (fun i d => x <- val pc (sofZ (Z.of_nat i - Z.of_nat nw + Z.of_nat wh)) ;; set d i x) dest)
            end
        end
    end.
  (** zm_data.c:171-180 *)
  Definition zDataSmoothSG := smoothSG zPexIPVal.
  Definition zDataSmoothVelSG := smoothSG zPexIPVel.
  (** zm_data.c:183-204.  When the smoothing fails an uninitialised list is destroyed: [UB].
      The list is kept in the order of the index. *)
  Definition zDataPeakSG (src : list T) (size w dim : nat) : res (list nat) :=
    o <- zDataSmoothVelSG src size w dim (repeat 0 size) ;;
    match o with
    | None => UB
    | Some g =>
        for_ 1 (Nat.max 1 (size - 1)) (fun i l =>
          a <- get g (i - 1) ;; b <- get g i ;;
          if slt 0 a && slt b 0 then Ok (l ++ [i]) else Ok l) []
    end.
End Stat.
Arguments HI {T}.
