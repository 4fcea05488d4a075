(** Expressions, how they are written, and what they mean; independent of the parser.  Only the alphabet of tokens
    and the table of operators are those of the model. *)
From Coq Require Import Reals List String Ascii.
From Verif Require Import Prelude Scalar Parse_Model.
Import ListNotations.

(** an expression as it is written, with its parentheses *)
Inductive expr (T : Type) :=
| ENum (x : T) | EVar (v : string)
| EBin (o : op) (a b : expr T)       (** a o b *)
| EFact (a : expr T)                 (** a ! *)
| ESign (minus : bool) (a : expr T)  (** - a, + a *)
| EFun (f : string) (a : expr T)     (** f(a) *)
| EPar (k : par) (a : expr T).       (** (a), {a}, [a] *)
Arguments ENum {T}. Arguments EVar {T}. Arguments EBin {T}. Arguments EFact {T}. Arguments ESign {T}. Arguments EFun {T}.
Arguments EPar {T}.
Definition sign_op (minus : bool) : op := if minus then OSub else OAdd.

(** the tokens of an expression *)
Fixpoint written {T} (e : expr T) : list (token T) :=
  match e with
  | ENum x => [TNum x]
  | EVar v => [TVar v]
  | EBin o a b => written a ++ TOp o :: written b
  | EFact a => written a ++ [TOp OFct]
  | ESign m a => TOp (sign_op m) :: written a
  | EFun f a => TFunc f :: written a ++ [TClose Par]
  | EPar k a => TOpen k :: written a ++ [TClose k]
  end.

(** the precedence of the operators: a smaller number binds more tightly *)
Definition precedence (o : op) : nat :=
  match o with
  | OFct => 10 | OPow => 20 | OMul | ODiv | OMod => 30 | OAdd | OSub => 40 | ORat => 50 | OComma => 60 | OLet => 70 | OSep => 80
  end.
Definition rank {T} (e : expr T) : nat :=
  match e with EBin o _ _ => precedence o | EFact _ => 10 | ESign _ _ => 40 | _ => 0 end.

(** the usual precedence: operators of equal rank group from the left *)
Fixpoint wellformed {T} (e : expr T) : Prop :=
  match e with
  | ENum _ | EVar _ => True
  | EBin o a b => o <> OFct /\ (rank a <= precedence o)%nat /\ (rank b < precedence o)%nat /\ wellformed a /\ wellformed b
  | EFact a => (rank a <= 10)%nat /\ wellformed a
  | ESign _ a => (rank a < 40)%nat /\ wellformed a
  | EFun _ a | EPar _ a => wellformed a
  end.

(** where an expression begins: at the beginning of the input; after an opening parenthesis at the beginning of the
    input; after two opening parentheses, the inner and the outer one; after an opening parenthesis that follows an
    operator or the name of a function; after an operator or the name of a function *)
Inductive pos := Start | First (k : par) | Double (k k' : par) | Open (k : par) | Inner.
Definition enter (p : pos) (k : par) : pos :=
  match p with Start => First k | First k' | Double k' _ | Open k' => Double k k' | Inner => Open k end.
(** where zmParse takes a sign, and a function, for what they are *)
Definition sign_allowed (p : pos) : Prop := match p with Start | First _ | Double _ _ => True | _ => False end.
Definition fun_allowed (p : pos) : Prop := match p with Start => True | Double k k' => k = k' | _ => False end.
Fixpoint guarded {T} (p : pos) (e : expr T) : Prop :=
  match e with
  | ENum _ | EVar _ => True
  | EBin _ a b => guarded p a /\ guarded Inner b
  | EFact a => guarded p a
  | ESign _ a => sign_allowed p /\ guarded Inner a
  | EFun _ a => fun_allowed p /\ guarded Inner a
  | EPar k a => guarded (enter p k) a
  end.

(** ** the meaning over the reals *)
Section Meaning.
  Local Open Scope R_scope.
  Variables (ztol pi_ e_ : R) (powf : R -> R -> R) (libm : string -> R -> R) (funs : list string).
  (** [remainder x y r]: r is the remainder of the integer parts of x and y; [factorial x y]: y is the factorial *)
  Variable remainder : R -> R -> R -> Prop.
  Variable factorial : R -> R -> Prop.
  Definition var_value (v : string) : R := if String.eqb v "pi" then pi_ else if String.eqb v "e" then e_ else 0.
  Inductive op_means : op -> R -> R -> R -> Prop :=
  | m_add x y : op_means OAdd x y (x + y)
  | m_sub x y : op_means OSub x y (x - y)
  | m_mul x y : op_means OMul x y (x * y)
  | m_div x y : ztol < Rabs y -> op_means ODiv x y (x / y)
  | m_rat x y : ztol < Rabs y -> op_means ORat x y (x / y)
  | m_mod x y r : remainder x y r -> op_means OMod x y r
  | m_pow x y : op_means OPow x y (powf x y).
  Inductive means : expr R -> R -> Prop :=
  | mn_num x : means (ENum x) x
  | mn_var v : means (EVar v) (var_value v)
  | mn_bin o a b x y z : means a x -> means b y -> op_means o x y z -> means (EBin o a b) z
  | mn_fact a x y : means a x -> factorial x y -> means (EFact a) y
  | mn_neg a x : means a x -> means (ESign true a) (- x)
  | mn_pos a x : means a x -> means (ESign false a) x
  | mn_fun f a x : In f funs -> means a x -> means (EFun f a) (libm f x)
  | mn_par k a x : means a x -> means (EPar k a) x.
End Meaning.

(** ** expressions without parentheses, and one way to write each *)
Inductive term (T : Type) :=
| Num (x : T) | Var (v : string) | Bin (o : op) (a b : term T) | Fact (a : term T) | Sign (minus : bool) (a : term T)
| Fun (f : string) (a : term T).
Arguments Num {T}. Arguments Var {T}. Arguments Bin {T}. Arguments Fact {T}. Arguments Sign {T}. Arguments Fun {T}.
Fixpoint write {T} (t : term T) : expr T :=
  let p e := EPar Par e in
  match t with
  | Num x => ENum x
  | Var v => EVar v
  | Bin o a b => EBin o (p (write a)) (p (write b))
  | Fact a => EFact (p (write a))
  | Sign m a => p (p (ESign m (p (write a))))
  | Fun f a => p (p (EFun f (p (write a))))
  end.
(** the same expression without its parentheses *)
Fixpoint erase {T} (e : expr T) : term T :=
  match e with
  | ENum x => Num x | EVar v => Var v | EBin o a b => Bin o (erase a) (erase b) | EFact a => Fact (erase a)
  | ESign m a => Sign m (erase a) | EFun f a => Fun f (erase a) | EPar _ a => erase a
  end.
Fixpoint infix_only {T} (t : term T) : Prop :=
  match t with
  | Num _ | Var _ => True
  | Bin o a b => o <> OFct /\ infix_only a /\ infix_only b
  | Fact a | Sign _ a | Fun _ a => infix_only a
  end.

(** ** characters *)
Section Chars.
  Context {T : Type}.
  Variable numeral : list ascii -> T -> Prop.   (** the numerals and their values *)
  Local Open Scope char_scope.
  Definition open_char (k : par) : ascii := match k with Par => "(" | Brace => "{" | Bracket => "[" end.
  Definition close_char (k : par) : ascii := match k with Par => ")" | Brace => "}" | Bracket => "]" end.
  (** a name: a letter, then letters and digits *)
  Definition a_name (v : string) : Prop :=
    exists c s, list_ascii_of_string v = c :: s /\ is_alpha c = true /\ Forall (fun c => is_alnum c = true) s.
  Inductive spells : token T -> list ascii -> Prop :=
  | sp_num x w : numeral w x -> spells (TNum x) w
  | sp_var v : a_name v -> spells (TVar v) (list_ascii_of_string v)
  | sp_op o : spells (TOp o) [op_char o]
  | sp_fun f : a_name f -> spells (TFunc f) (list_ascii_of_string f ++ ["("])
  | sp_open k : spells (TOpen k) [open_char k]
  | sp_close k : spells (TClose k) [close_char k].
  (** tokens with at least one blank character after each *)
  Inductive spelled : list (token T) -> list ascii -> Prop :=
  | sd_nil : spelled [] []
  | sd_cons t ts w b s : spells t w -> b <> [] -> Forall (fun c => is_delim c = true) b -> spelled ts s -> spelled (t :: ts) (w ++ b ++ s).
  (** the scanner reads a numeral up to a blank, and no letter, parenthesis or end for a number *)
  Definition scans (scan_num : list ascii -> option (T * list ascii)) : Prop :=
    (forall w x c r, numeral w x -> is_delim c = true -> scan_num (w ++ c :: r) = Some (x, c :: r)) /\
    (forall w x, numeral w x -> exists c s, w = c :: s /\ is_delim c = false /\ is_opchar c = false /\ is_alpha c = false) /\
    (forall c r, is_alpha c = true \/ (exists k, c = open_char k \/ c = close_char k) -> scan_num (c :: r) = None) /\
    scan_num [] = None.
End Chars.
