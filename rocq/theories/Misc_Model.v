(** Model of src/zm_misc.c (numerical miscellanies). *)
From Verif Require Import Prelude Scalar.

Section Misc.
Context {T : Type} {ST : Scalar T}.
Local Open Scope S_scope.

(** src/zm_misc.c:50-64.  The [while( n > 0 )] loop; [fuel] bounds the number of
    iterations ([None] = fuel exhausted), one multiplication per iteration. *)
Fixpoint zPowN_loop (fuel : nat) (x : T) (n : N) (ret : T) : option T :=
  if (n =? 0)%N then Some ret else
  match fuel with
  | O => None
  | S fuel' =>
      if N.even n then zPowN_loop fuel' (x * x) (N.div2 n) ret
      else zPowN_loop fuel' x (N.pred n) (ret * x)
  end.
Definition zPowN (x : T) (n : N) : option T :=
  zPowN_loop (2 * N.to_nat (N.size n)) x n 1.

(** src/zm_misc.c:67-70 *)
Definition zLine (x x0 y0 x1 y1 : T) : T :=
  ((y1 - y0) * x - x0 * y1 - x1 * y0) / (x1 - x0).

(** src/zm_misc.c:101-108.  [for( ; i>0; i--, n-- ) result *= n;] *)
Fixpoint perm_loop (i : nat) (n : Z) (result : T) : T :=
  match i with
  | O => result
  | S i' => perm_loop i' (n - 1)%Z (result * sofZ n)
  end.
Definition zPermutation (n i : Z) : T :=
  if ((i >? n) || (i <? 0))%Z then 0 else perm_loop (Z.to_nat i) n 1.

(** src/zm_misc.c:111-114 *)
Definition zFactorial (n : Z) : T := zPermutation n n.

(** src/zm_misc.c:117-128.  [for( val=1.0, j=0; j<i; j++ ) val *= (double)(n-j)/(i-j);]
    ([cnt] is the number of iterations left). *)
Fixpoint comb_loop (cnt : nat) (j n i : Z) (val : T) : T :=
  match cnt with
  | O => val
  | S c => comb_loop c (j + 1)%Z n i (val * (sofZ (n - j) / sofZ (i - j)))
  end.
Definition zCombination (n i : Z) : T :=
  let i := if (n - i <? i)%Z then (n - i)%Z else i in
  if (i =? 0)%Z then 1 else comb_loop (Z.to_nat i) 0 n i 1.

(** src/zm_misc.c:131-137.  [None] = NAN (absorbing for +); recursion on n,
    which decreases to 0 where the C code returns 1. *)
Definition oadd (a b : option T) : option T :=
  match a, b with Some x, Some y => Some (x + y) | _, _ => None end.
Fixpoint comb_rec (n : nat) (i : Z) : option T :=
  match n with
  | O => Some 1
  | S m =>
      if ((i =? 0) || (i =? Z.of_nat n))%Z then Some 1
      else if ((i <? 0) || (i >? Z.of_nat n))%Z then None
      else oadd (comb_rec m (i - 1)%Z) (comb_rec m i)
  end.
Definition zCombinationRecursive (n i : Z) : option T := comb_rec (Z.to_nat n) i.

(** src/zm_misc.c:140-155.  [c] is the caller's array; [Ok None] = NULL.
    The inner loop [for( j=i-1; j>0; j-- ) c[j] += c[j-1];] runs j = i-1 .. 1. *)
Definition pascal_step (i : nat) (c : list T) : res (list T) :=
  c <- set c i 1 ;;
  for_down (i - 1) (fun k c =>
    let j := S k in
    a <- get c j ;; b <- get c (j - 1) ;; set c j (a + b)) c.
Definition zCombinationSeries (n size : nat) (c : list T) : res (option (list T)) :=
  if size <=? n then Ok None
  else rmap Some (for_ 0 (S n) pascal_step c).

(** C's [pow( x, k )] with a non-negative integer exponent. *)
Fixpoint spow (x : T) (k : nat) : T :=
  match k with O => 1 | S m => x * spow x m end.

(** src/zm_misc.c:158-170 *)
Definition smooth_term (order : nat) (x : T) (k : nat) : T :=
  zCombination (Z.of_nat (order + k)) (Z.of_nat k) *
  zCombination (Z.of_nat (2 * order + 1)) (Z.of_nat (order - k)) * spow x k.
Fixpoint smooth_sum (f : nat -> T) (n k : nat) (val : T) : T :=
  match n with
  | O => val
  | S m => smooth_sum f m (S k) (val + (if Nat.odd k then - f k else f k))
  end.
Definition zSmoothStep (x : T) (order : nat) : T :=
  if sle x 0 then 0 else if sle 1 x then 1
  else smooth_sum (smooth_term order x) (S order) O 0 * spow x (order + 1).

(** src/zm_misc.c:173-184 *)
Definition smooth_dif_term (order : nat) (x : T) (k : nat) : T :=
  sofZ (Z.of_nat (order + k + 1)) *
  zCombination (Z.of_nat (order + k)) (Z.of_nat k) *
  zCombination (Z.of_nat (2 * order + 1)) (Z.of_nat (order - k)) * spow x k.
Definition zSmoothStepDif (x : T) (order : nat) : T :=
  if sle x 0 || sle 1 x then 0
  else smooth_sum (smooth_dif_term order x) (S order) O 0 * spow x order.

End Misc.
