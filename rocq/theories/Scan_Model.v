(** Model of the reading and printing of vectors and matrices: src/zm_vec.c:636-663, src/zm_mat.c:1037-1067,
    src/zm_raw_vec.c:326-343, src/zm_raw_mat.c:471-483, src/zm_seq.c:93-143.

    A file is the list of its numbers: the parentheses, braces, commas and blanks are separators for
    zFInt and zFDouble of ZEDA, which take the next number and fail at the end of the file only.
    [TI] is a number printed by %d, [TD] one printed by %.10g; [p10] is the value that is left of a double
    by %.10g, [ftoi] is atoi of a number printed by %.10g.  The capacity, printed if it differs from the
    size, is left out: the objects modelled have equal size and capacity. *)
From Verif Require Import Prelude Scalar Fmat.

Inductive tok (T : Type) := TI (z : Z) | TD (x : T).
Arguments TI {T}. Arguments TD {T}.

Section Scan.
  Context {T : Type} {ST : Scalar T}.
  Variable ftoi : T -> Z.
  Variable p10 : T -> T.
  Local Notation vec := (fvec T).
  Local Notation mat := (fmat T).

  (** zFDouble and zFInt of ZEDA *)
  Definition tval (t : tok T) : T := match t with TI z => sofZ z | TD x => x end.
  Definition zFDouble (l : list (tok T)) : option (T * list (tok T)) :=
    match l with [] => None | t :: l => Some (tval t, l) end.
  Definition zFInt (l : list (tok T)) : option (Z * list (tok T)) :=
    match l with [] => None | TI z :: l => Some (z, l) | TD x :: l => Some (ftoi x, l) end.

  (** the loop of zVecFScan, zm_vec.c:647-652, [k] rounds from [i] on; the second component is the index
      at which the warning is given *)
  Fixpoint scan_vec (i k : nat) (v : vec) (l : list (tok T)) : res (vec * option nat * list (tok T)) :=
    match k with
    | O => Ok (v, None, l)
    | S k => match zFDouble l with
      | None => Ok (v, Some i, l)
      | Some (x, l) => v <- vset v i x ;; scan_vec (S i) k v l
      end
    end.
  (** zm_vec.c:636-654: the vector, the numbers of the warning, the rest of the file *)
  Definition zVecFScan (l : list (tok T)) : res (option vec * list (nat * nat) * list (tok T)) :=
    match zFInt l with
    | None => Ok (None, [], l)
    | Some (size, l) =>
      if (size <=? 0)%Z then Ok (None, [], l) else
      let n := Z.to_nat size in
      '(v, w, l) <- scan_vec 0 n (FV n (fun _ => s0)) l ;;
      Ok (Some v, match w with None => [] | Some i => [(i, n)] end, l)
    end.
  (** zm_mat.c:1053-1057: the inner loop of row [i] from [j] on *)
  Fixpoint scan_row (i j k : nat) (m : mat) (l : list (tok T)) : res (mat * option nat * list (tok T)) :=
    match k with
    | O => Ok (m, None, l)
    | S k => match zFDouble l with
      | None => Ok (m, Some j, l)
      | Some (x, l) => m <- mset m i j x ;; scan_row i (S j) k m l
      end
    end.
  (** zm_mat.c:1037-1059; the number in the warning is i*row+j *)
  Definition zMatFScan (l : list (tok T)) : res (option mat * list (nat * nat) * list (tok T)) :=
    match zFInt l with
    | None => Ok (None, [], l)
    | Some (row, l) => match zFInt l with
      | None => Ok (None, [], l)
      | Some (col, l) =>
        if (row <=? 0)%Z || (col <=? 0)%Z then Ok (None, [], l) else
        let r := Z.to_nat row in let c := Z.to_nat col in
        '(m, w, l) <- for_ 0 r (fun i st =>
           let '(m, w, l) := st in
           '(m, b, l) <- scan_row i 0 c m l ;;
           Ok (m, w ++ match b with None => [] | Some j => [((i * r + j)%nat, (r * c)%nat)] end, l))
          (FM r c (fun _ _ => s0), [], l) ;;
        Ok (Some m, w, l)
      end
    end.
  (** src/zm_seq.c:93-116: pairs of a duration and a vector in the order of the queue.  zFSkipDelimiter of
      ZEDA fails at the end of the file.  [None] is that of the fuel. *)
  Fixpoint seq_scan (fuel : nat) (l : list (tok T)) : res (option (list (T * vec))) :=
    match fuel with
    | O => Ok None
    | S fuel => match zFDouble l with
      | None => Ok (Some [])
      | Some (dt, l) =>
        '(v, _, l) <- zVecFScan l ;;
        match v with
        | None => Ok (Some [])
        | Some v => s <- seq_scan fuel l ;; Ok (match s with None => None | Some s => Some ((dt, v) :: s) end)
        end
      end
    end.
  Definition zSeqFScan (l : list (tok T)) := seq_scan (S (length l)) l.

  (** zm_raw_vec.c:326-331 and 334-343, zm_vec.c:657-663; a null vector prints no number *)
  Definition zRawVecValueFPrint (n : nat) (x : nat -> T) : list (tok T) := map (fun i => TD (p10 (x i))) (List.seq 0 n).
  Definition zVecFPrint (v : option vec) : list (tok T) :=
    match v with None => [] | Some v => TI (Z.of_nat (vlen v)) :: zRawVecValueFPrint (vlen v) (vel v) end.
  (** zm_raw_mat.c:471-483, zm_mat.c:1062-1068 *)
  Definition zMatFPrint (m : option mat) : list (tok T) :=
    match m with None => [] | Some m =>
      TI (Z.of_nat (nr m)) :: TI (Z.of_nat (nc m)) :: flat_map (fun i => zRawVecValueFPrint (nc m) (el m i)) (List.seq 0 (nr m)) end.
  (** src/zm_seq.c:135-143; zListForEachRew goes in the order of the queue *)
  Definition zSeqFPrint (s : list (T * vec)) : list (tok T) :=
    flat_map (fun c => TD (p10 (fst c)) :: zVecFPrint (Some (snd c))) s.
End Scan.
