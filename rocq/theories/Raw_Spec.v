(** Vocabulary for the statements about raw vectors and matrices. *)
From Verif Require Import Prelude Raw_Model.

Section Spec.
  Context {T : Type}.
  Implicit Types (m : mem T) (p q s d : ptr).

  (** The array of [n] cells at [p] holds x(0), ..., x(n-1). *)
  Definition vecat m p (n : nat) (x : nat -> T) : Prop :=
    forall i, i < n -> cell m (padd p (Z.of_nat i)) = Some (x i).
  (** The [n] cells at [p] exist. *)
  Definition allocated m p (n : nat) : Prop :=
    forall i, i < n -> cell m (padd p (Z.of_nat i)) <> None.
  (** [q] is one of the [n] cells at [p]. *)
  Definition inrange p (n : nat) q : Prop :=
    fst q = fst p /\ (snd p <= snd q < snd p + Z.of_nat n)%Z.
  (** Only the [n] cells at [p] may have changed. *)
  Definition frame m m' p (n : nat) : Prop :=
    forall q, ~ inrange p n q -> cell m' q = cell m q.
  (** The source array [s] is disjoint from the destination [d], or is the same
      array, or starts later than it.  (Only a destination starting strictly inside
      the source is excluded.) *)
  Definition fwd s d (n : nat) : Prop :=
    fst s <> fst d \/ (snd d <= snd s)%Z \/ (snd s + Z.of_nat n <= snd d)%Z.
  (** The [n1] cells at [p1] and the [n2] cells at [p2] are disjoint. *)
  Definition apart p1 (n1 : nat) p2 (n2 : nat) : Prop :=
    forall q, inrange p1 n1 q -> inrange p2 n2 q -> False.

  (** Cell (i,j) of a row-major matrix at [p] whose rows are [cap] cells apart. *)
  Definition at2 p (cap : Z) (i j : nat) : ptr := padd p (Z.of_nat i * cap + Z.of_nat j)%Z.
  (** The matrix at [p] holds f(i,j) for i<rs, j<cs. *)
  Definition matat m p cap (rs cs : nat) (f : nat -> nat -> T) : Prop :=
    forall i j, i < rs -> j < cs -> cell m (at2 p cap i j) = Some (f i j).
  Definition mallocated m p cap (rs cs : nat) : Prop :=
    forall i j, i < rs -> j < cs -> cell m (at2 p cap i j) <> None.
  Definition inmat p cap (rs cs : nat) q : Prop :=
    exists i j, i < rs /\ j < cs /\ q = at2 p cap i j.
  (** Only cells of that matrix may have changed (row padding included in what is
      unchanged). *)
  Definition mframe m m' p cap (rs cs : nat) : Prop :=
    forall q, ~ inmat p cap rs cs q -> cell m' q = cell m q.
  Definition mapart p1 cap1 (rs1 cs1 : nat) p2 cap2 (rs2 cs2 : nat) : Prop :=
    forall q, inmat p1 cap1 rs1 cs1 q -> inmat p2 cap2 rs2 cs2 q -> False.
  (** Source and destination matrices of equal shape: identical or disjoint. *)
  Definition same_or_apart s scap d dcap (rs cs : nat) : Prop :=
    (s = d /\ scap = dcap) \/ mapart s scap rs cs d dcap rs cs.

  (** "op writes f(operand) element by element, from the ORIGINAL contents". *)
  Definition elementwise1 (op : mem T -> ptr -> ptr -> Z -> res (mem T)) (f : T -> T) : Prop :=
    forall m s d n x,
      vecat m s n x -> allocated m d n -> fwd s d n ->
      exists m', op m s d (Z.of_nat n) = Ok m' /\
        vecat m' d n (fun i => f (x i)) /\ frame m m' d n.
  Definition elementwise2 (op : mem T -> ptr -> ptr -> ptr -> Z -> res (mem T))
             (f : T -> T -> T) : Prop :=
    forall m s1 s2 d n x y,
      vecat m s1 n x -> vecat m s2 n y -> allocated m d n -> fwd s1 d n -> fwd s2 d n ->
      exists m', op m s1 s2 d (Z.of_nat n) = Ok m' /\
        vecat m' d n (fun i => f (x i) (y i)) /\ frame m m' d n.
  Definition elementwise3 (op : mem T -> ptr -> ptr -> ptr -> ptr -> Z -> res (mem T))
             (f : T -> T -> T -> T) : Prop :=
    forall m s1 s2 s3 d n x y z,
      vecat m s1 n x -> vecat m s2 n y -> vecat m s3 n z -> allocated m d n ->
      fwd s1 d n -> fwd s2 d n -> fwd s3 d n ->
      exists m', op m s1 s2 s3 d (Z.of_nat n) = Ok m' /\
        vecat m' d n (fun i => f (x i) (y i) (z i)) /\ frame m m' d n.
  (** The same for matrices with row strides. *)
  Definition matwise1 (op : mem T -> ptr -> Z -> ptr -> Z -> Z -> Z -> res (mem T)) (f : T -> T) : Prop :=
    forall m s scap d dcap rs cs x,
      matat m s scap rs cs x -> mallocated m d dcap rs cs ->
      (Z.of_nat cs <= dcap)%Z -> (Z.of_nat cs <= scap)%Z -> same_or_apart s scap d dcap rs cs ->
      exists m', op m s scap d dcap (Z.of_nat rs) (Z.of_nat cs) = Ok m' /\
        matat m' d dcap rs cs (fun i j => f (x i j)) /\ mframe m m' d dcap rs cs.
  Definition matwise2 (op : mem T -> ptr -> Z -> ptr -> Z -> ptr -> Z -> Z -> Z -> res (mem T))
             (f : T -> T -> T) : Prop :=
    forall m s1 cap1 s2 cap2 d dcap rs cs x y,
      matat m s1 cap1 rs cs x -> matat m s2 cap2 rs cs y -> mallocated m d dcap rs cs ->
      (Z.of_nat cs <= dcap)%Z -> (Z.of_nat cs <= cap1)%Z -> (Z.of_nat cs <= cap2)%Z ->
      same_or_apart s1 cap1 d dcap rs cs -> same_or_apart s2 cap2 d dcap rs cs ->
      exists m', op m s1 cap1 s2 cap2 d dcap (Z.of_nat rs) (Z.of_nat cs) = Ok m' /\
        matat m' d dcap rs cs (fun i j => f (x i j) (y i j)) /\ mframe m m' d dcap rs cs.
End Spec.
