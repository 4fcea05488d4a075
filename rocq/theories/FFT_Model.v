(** Model of src/zm_data_fft.c: mixed-radix fast Fourier transformation.

    Complex numbers are pairs ([cplx] of Complex_Model), the functions cos and sin of the C
    library and zPIx2 are parameters.  Buffers are checked vectors ([fvec]) addressed with
    an offset, so that the exchange of the roles of data and work buffer in the recursion
    is modelled.  Simplifications: unsigned arithmetic does not wrap (vector sizes are
    ints); allocation succeeds. *)
From Verif Require Import Prelude Scalar Complex_Model Fmat.

(** zm_data_fft.c:14-15 *)
Fixpoint radix_loop (fuel r n : nat) : nat :=
  match fuel with
  | O => r
  | S fuel => if r * r <=? n then if n mod r =? 0 then r else radix_loop fuel (S r) n else r
  end.
(** zm_data_fft.c:10-18 *)
Definition _zFFTRadix (n : nat) : nat :=
  let r := radix_loop n 2 n in if n mod r =? 0 then r else n.

Section FFT.
  Context {T : Type} {ST : Scalar T} (cos sin : T -> T) (pi2 : T).
  Local Open Scope S_scope.
  Local Notation cv := (fvec (@cplx T)).
  Definition ofn (n : nat) : T := sofZ (Z.of_nat n).
  Definition caddv (a b : @cplx T) : @cplx T := (fst a + fst b, snd a + snd b).
  Definition cscal (a : @cplx T) (k : T) : @cplx T := (fst a * k, snd a * k).
  (** zComplexCreate( &w, cos(t), sin(t) ) *)
  Definition rot (t : T) : @cplx T := (cos t, sin t).
  (** number of steps of [for( k=0; k<n; k+=m )], 0 < m *)
  Definition steps (n m : nat) : nat := ((n + m - 1) / m)%nat.

  (** zm_data_fft.c:35-40: butterfly of one element; k runs over the multiples of n_radix *)
  Definition butterfly (d : cv) (od n m i : nat) (theta_j : T) : res (@cplx T) :=
    x <- vget d (od + i)%nat ;;
    for_ 1 (steps n m) (fun kk x =>
      let k := (m * kk)%nat in
      y <- vget d (od + (k + i))%nat ;;
      Ok (caddv x (cmulv (rot (theta_j * ofn k)) y))) x.
  (** zm_data_fft.c:21-52.  data = d + od, buf = b + ob; running out of fuel is an error *)
  Fixpoint _zFFTInner (fuel : nat) (d b : cv) (od ob n : nat) (theta : T) : res (cv * cv) :=
    match fuel with
    | O => UB
    | S fuel =>
      if (n <=? 1)%nat then Ok (d, b) else
      let r := _zFFTRadix n in
      let m := (n / r)%nat in
      b <- for_ 0 m (fun i => for_ 0 r (fun j b =>
             let theta_j := theta * ofn j in
             x <- butterfly d od n m i theta_j ;;
             vset b (ob + (m * j + i))%nat (cmulv x (rot (theta_j * ofn i))))) b ;;
      '(b, d) <- for_ 0 (steps n m) (fun ii s =>
             _zFFTInner fuel (fst s) (snd s) (ob + m * ii)%nat od m (theta * ofn r)) (b, d) ;;
      d <- for_ 0 m (fun i => for_ 0 r (fun j d =>
             y <- vget b (ob + (m * j + i))%nat ;; vset d (od + (r * i + j))%nat y)) d ;;
      Ok (d, b)
    end.

  (** zAlloc: cleared *)
  Definition cbuf (n : nat) : cv := FV n (fun _ => (0, 0)).
  (** the call _zFFTInner( data, buf, n, theta ) on a vector of size n *)
  Definition transform (v : cv) (theta : T) : res cv :=
    '(d, _) <- _zFFTInner (S (vlen v)) v (cbuf (vlen v)) 0 0 (vlen v) theta ;; Ok d.
  Definition two : T := sofZ 2.
  Definition half : T := 1 / two.
  (** zm_data_fft.c:55-75 on the vectors' contents; [rsize] is the size of result; None: false *)
  Definition zFFT (data : fvec T) (rsize : nat) : res (option cv) :=
    if negb (vlen data =? rsize)%nat then Ok None else
    let v := FV rsize (fun i => (vel data i, 0)) in
    v <- transform v (pi2 / ofn (vlen data)) ;;
    v <- vmod v 0 (fun z => cscal z half) ;;
    Ok (Some (FV (vlen v) (fun i => cscal (vel v i) (two / ofn rsize)))).
  (** zm_data_fft.c:78-106 *)
  Definition zFFTInv (data : cv) (rsize : nat) : res (option (fvec T)) :=
    if negb (vlen data =? rsize)%nat then Ok None else
    let c := FV (vlen data) (fun i => cscal (vel data i) half) in
    c <- vmod c 0 (fun z => cscal z two) ;;
    c <- transform c (- pi2 / ofn (vlen data)) ;;
    Ok (Some (FV rsize (fun i => fst (vel c i)))).

  (** rows and columns of a complex matrix (zm_cmat.c:125-140, 170-185; zCMatRowBuf) *)
  Definition getrow (m : fmat (@cplx T)) (i : nat) : res cv := if (i <? nr m)%nat then Ok (FV (nc m) (el m i)) else UB.
  Definition getcol (m : fmat (@cplx T)) (j : nat) : res cv := if (j <? nc m)%nat then Ok (FV (nr m) (fun i => el m i j)) else UB.
  Definition putrow (m : fmat (@cplx T)) (i : nat) (v : cv) : res (fmat (@cplx T)) :=
    if (i <? nr m)%nat && (vlen v =? nc m)%nat then Ok (FM (nr m) (nc m) (fun a b => if Nat.eqb a i then vel v b else el m a b)) else UB.
  Definition putcol (m : fmat (@cplx T)) (j : nat) (v : cv) : res (fmat (@cplx T)) :=
    if (j <? nc m)%nat && (vlen v =? nr m)%nat then Ok (FM (nr m) (nc m) (fun a b => if Nat.eqb b j then vel v a else el m a b)) else UB.
  Definition mscal (m : fmat (@cplx T)) (k : T) : fmat (@cplx T) := FM (nr m) (nc m) (fun i j => cscal (el m i j) k).
  (** zm_data_fft.c:109-147.  A row is transformed in place in the buffer of the matrix;
      the model takes it out and puts it back. *)
  Definition zFFT2 (data : fmat T) (rs cs : nat) : res (option (fmat (@cplx T))) :=
    if negb ((nr data =? rs) && (nc data =? cs))%nat then Ok None else
    let m := FM rs cs (fun i j => (el data i j, 0)) in
    m <- for_ 0 (nr data) (fun i m =>
           v <- getrow m i ;; v <- transform v (pi2 / ofn (nc data)) ;;
           v <- vmod v 0 (fun z => cscal z half) ;; putrow m i v) m ;;
    let m := mscal m (two / ofn (nc data)) in
    m <- for_ 0 (nc data) (fun j m =>
           v <- getcol m j ;; v <- transform v (pi2 / ofn (vlen v)) ;;
           v <- vmod v 0 (fun z => cscal z half) ;; putcol m j v) m ;;
    Ok (Some (mscal m (two / ofn (nr data)))).
  (** zm_data_fft.c:150-195 *)
  Definition half_amp (v : cv) : res cv := vmod (FV (vlen v) (fun i => cscal (vel v i) half)) 0 (fun z => cscal z two).
  Definition zFFT2Inv (data : fmat (@cplx T)) (rs cs : nat) : res (option (fmat T)) :=
    if negb ((nr data =? rs) && (nc data =? cs))%nat then Ok None else
    c <- for_ 0 (nc data) (fun j c =>
           v <- getcol data j ;; v <- half_amp v ;; v <- transform v (- pi2 / ofn (vlen v)) ;; putcol c j v)
           (FM (nr data) (nc data) (fun _ _ => (0, 0))) ;;
    r <- for_ 0 rs (fun i r =>
           v <- getrow c i ;; v <- half_amp v ;; v <- transform v (- pi2 / ofn (vlen v)) ;;
           for_ 0 cs (fun j r => z <- vget v j ;; mset r i j (fst z)) r)
           (FM rs cs (fun _ _ => 0)) ;;
    Ok (Some r).
End FFT.
