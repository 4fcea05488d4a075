(** Model of src/zm_parse.c and include/zm/zm_parse.h: the parser of mathematical expressions.

    A string is a list of characters.  The scanner of numbers zSNumToken and atof are the parameter [scan_num].  The
    functions of libm, the remainder of ints and zFactorial are parameters.  An uncaught NULL pointer or an access
    outside of an array is [Crash]; a loop that is still running after [n] rounds is [Running].  Messages are not
    modelled; allocation is assumed to succeed and the buffer of BUFSIZ characters to be large enough. *)
From Coq Require Import ZArith List Bool Ascii String.
From Verif Require Import Prelude Scalar.
Import ListNotations.

Inductive out (A : Type) := Done (a : A) | Crash | Running.
Arguments Done {A}. Arguments Crash {A}. Arguments Running {A}.

(** ** operators, zm_parse.h:72-116 *)
Inductive op := OAdd | OSub | OMul | ODiv | OMod | OPow | OFct | OComma | OSep | ORat | OLet.
Inductive spec := INFIX | PREINFIX | POSTFIX.  (* no operator of the table is PREFIX *)
Definition op_spec (o : op) : spec := match o with OAdd | OSub => PREINFIX | OFct => POSTFIX | _ => INFIX end.
Definition op_prio (o : op) : nat :=
  match o with
  | OAdd | OSub => 40 | OMul | ODiv | OMod => 30 | OPow => 20 | OFct => 10 | OComma => 60 | OSep => 80 | ORat => 50 | OLet => 70
  end.
Definition max_prio : nat := 999.
Definition op_char (o : op) : ascii :=
  match o with
  | OAdd => "+" | OSub => "-" | OMul => "*" | ODiv => "/" | OMod => "%" | OPow => "^" | OFct => "!" | OComma => ","
  | OSep => ";" | ORat => ":" | OLet => "="
  end%char.
Definition all_ops := [OAdd; OSub; OMul; ODiv; OMod; OPow; OFct; OComma; OSep; ORat; OLet].

(** the three kinds of parentheses, zm_parse.h:145-156 *)
Inductive par := Par | Brace | Bracket.
Inductive status := FLAT | IN (k : par) | OUT (k : par) | IN_FUNC | OUT_FUNC.
Definition par_eqb (a b : par) : bool :=
  match a, b with Par, Par | Brace, Brace | Bracket, Bracket => true | _, _ => false end.
Definition status_eqb (a b : status) : bool :=
  match a, b with
  | FLAT, FLAT | IN_FUNC, IN_FUNC | OUT_FUNC, OUT_FUNC => true
  | IN a, IN b | OUT a, OUT b => par_eqb a b
  | _, _ => false
  end.

Section Parse.
  Context {T : Type} {ST : Scalar T}.
  Local Open Scope S_scope.

  (** zm_parse.h:118-141; a variable and a function are their names.  A closing parenthesis is never a cell on the
      stack. *)
  Inductive cell :=
  | CNum (x : T) | CVar (v : string) | COp (o : op) | CFunc (f : string) (arg1 : option cell) | CPar (k : par)
  | CChunk (o : op) (arg1 arg2 : option cell).
  (** zm_parse.h:158-163: the stack is a list, [prev] is its tail *)
  Record tok := Tok { cl : cell; lv : Z; st : status }.
  Definition stack := list tok.
  (** zm_parse.h:167-173 without the lists of the names *)
  Record parser := Parser { stk : stack; level : Z; pst : status }.
  (** zmParserInit, zm_parse.c:550-559 *)
  Definition init : parser := Parser [] 0 FLAT.

  (** ** evaluation *)
  Variables (ztol huge pi e_ : T) (powf : T -> T -> T) (modf : T -> T -> res T) (fct : T -> res T) (libm : string -> T -> T).
  (** zm_parse.c:409-427 *)
  Definition _zmParseOpEval (o : op) (a b : T) : res T :=
    match o with
    | OAdd => Ok (a + b) | OSub => Ok (a - b) | OMul => Ok (a * b)
    | ODiv | ORat => Ok (if is_tol ztol b then (if sle 0 b then huge else sopp huge) else a / b)
    | OMod => modf a b | OPow => Ok (powf a b) | OFct => fct a
    | OComma | OSep => Ok a | OLet => Ok b
    end.
  (** 112-139: only these two variables have a value, every other one is 0 *)
  Definition _zmParseVarEval (v : string) : T := if String.eqb v "pi" then pi else if String.eqb v "e" then e_ else 0.
  (** 303-328: the number of the arguments; a function that is not builtin is registered at its first use with argc 0 (174) *)
  Definition builtin : list string :=
    ["sin"; "cos"; "tan"; "cot"; "asin"; "acos"; "atan"; "acot"; "sinh"; "cosh"; "tanh"; "coth"; "exp"; "log"; "ln"; "abs";
     "sqrt"; "deg"; "rad"]%string.
  Definition is_builtin (f : string) : bool := existsb (String.eqb f) builtin.
  Definition func_argc (f : string) : nat := if is_builtin f then 1 else if String.eqb f "testfunc" then 3 else 0.
  (** 199-214 the value of a cell, and 330-344 the arguments it leaves in argv and their number, 346-381 a function.  The
      pointer arg2 of a comma is dereferenced. *)
  Fixpoint ev (c : cell) : res T * (list T -> res (list T * nat)) :=
    let v :=
      match c with
      | CNum x => Ok x
      | CVar v => Ok (_zmParseVarEval v)
      | CFunc f a =>
          '(argv, _) <- match a with None => Ok (repeat 0 (func_argc f), O) | Some a => snd (ev a) (repeat 0 (func_argc f)) end ;;
          if is_builtin f then x <- get argv 0 ;; Ok (libm f x) else Ok 0
      | CChunk o a b =>
          x <- match a with None => Ok 0 | Some a => fst (ev a) end ;;
          y <- match b with None => Ok 0 | Some b => fst (ev b) end ;;
          _zmParseOpEval o x y
      | COp _ | CPar _ => Ok 0
      end in
    (v, fun argv => match c with
      | CChunk OComma a b =>
          '(argv, c) <- match a with None => Ok (argv, O) | Some a => snd (ev a) argv end ;;
          if (length argv <=? c)%nat then Ok (argv, c)
          else match b with
               | None => UB
               | Some b => y <- fst (ev b) ;; argv <- set argv c y ;; Ok (argv, S c)
               end
      | _ => x <- v ;; argv <- set argv 0 x ;; Ok (argv, 1%nat)
      end).
  Definition _zmParseCellEval (c : cell) : res T := fst (ev c).

  (** ** the stack *)
  (** 454-462 *)
  Definition tok_level (s : stack) : Z := match s with [] => 0%Z | t :: _ => lv t end.
  Definition tok_status (s : stack) : status := match s with [] => FLAT | t :: _ => st t end.
  (** 464-482: the specification and the priority of the topmost operator on the level; None is INVALID *)
  Fixpoint tok_op (s : stack) : option op :=
    match s with
    | [] => None
    | t :: s' =>
        match cl t with
        | COp o => Some o
        | _ => match s' with u :: _ => if (lv u =? lv t)%Z then tok_op s' else None | [] => None end
        end
    end.
  Definition tok_spec (s : stack) : option spec := option_map op_spec (tok_op s).
  Definition tok_prio (s : stack) : nat := match tok_op s with Some o => op_prio o | None => max_prio end.
  (** 598-608: [next] is the level of toknext, None if it is NULL *)
  Definition pop (next : option Z) (s : stack) : option tok * stack :=
    match s with
    | [] => (None, [])
    | t :: s' => match next with Some l => if (lv t =? l)%Z then (Some t, s') else (None, s) | None => (Some t, s') end
    end.
  (** 716-739 *)
  Definition _zmParseStackInfix (next : option Z) (s : stack) : stack :=
    let '(a2, s) := pop next s in
    let '(o, s) := pop next s in
    let '(a1, s) := pop next s in
    match a2, o, a1 with
    | Some a2, Some (Tok (COp o) l t), Some a1 => Tok (CChunk o (Some (cl a1)) (Some (cl a2))) l t :: s
    | _, _, _ => s
    end.
  (** 741-766 *)
  Definition _zmParseStackPreinfix (next : option Z) (s : stack) : stack :=
    let '(a2, s) := pop next s in
    let '(o, s) := pop next s in
    let '(a1, s) := pop next s in
    match a2, o with
    | Some a2, Some (Tok (COp o) l t) => Tok (CChunk o (option_map cl a1) (Some (cl a2))) l t :: s
    | _, _ => s
    end.
  (** 768-786 *)
  Definition _zmParseStackPostfix (next : option Z) (s : stack) : stack :=
    let '(o, s) := pop next s in
    let '(a, s) := pop next s in
    match o, a with
    | Some (Tok (COp o) l t), Some a => Tok (CChunk o (Some (cl a)) None) l t :: s
    | _, _ => s
    end.
  (** 788-804; its result is used by no caller *)
  Definition _zmParseStack (next : option Z) (s : stack) : stack :=
    match tok_spec s with
    | Some INFIX => _zmParseStackInfix next s
    | Some PREINFIX => _zmParseStackPreinfix next s
    | Some POSTFIX => _zmParseStackPostfix next s
    | None => s
    end.

  (** 814-839: the loop, [l] is parser->level and [ps] parser->status; the stack and the status it leaves *)
  Fixpoint in_loop (n : nat) (l : Z) (ps : status) (s : stack) : out (stack * status) :=
    match n with
    | O => Running
    | S n =>
        match _zmParseStack None s with
        | [] => Crash
        | t :: s =>
            match cl t with
            | CPar _ => Done (s, ps)
            | _ =>
                let close s := Done (Tok (cl t) l (tok_status s) :: s, tok_status s) in
                match s with
                | [] => close s
                | u :: _ =>
                    match cl u with
                    | CPar _ => close (snd (pop (Some (lv t)) s))
                    | CFunc f _ =>
                        match pop (Some (lv t)) s with
                        | (None, _) => Crash
                        | (Some _, s) => in_loop n l ps (Tok (CFunc f (Some (cl t))) (tok_level s) (tok_status s) :: s)
                        end
                    | _ => in_loop n l ps (t :: s)
                    end
                end
            end
        end
    end.
  (** 806-840; false when the parentheses do not match *)
  Definition _zmParseIn (n : nat) (want : status) (p : parser) : out (parser * bool) :=
    if status_eqb (tok_status (stk p)) want then
      match in_loop n (level p) (pst p) (stk p) with
      | Done (s, ps) => Done (Parser s (level p) ps, true)
      | Crash => Crash
      | Running => Running
      end
    else Done (p, false).

  (** ** tokens *)
  Inductive token := TNum (x : T) | TVar (v : string) | TOp (o : op) | TFunc (f : string) | TOpen (k : par) | TClose (k : par).
  Definition push (p : parser) (c : cell) : parser := Parser (Tok c (level p) (pst p) :: stk p) (level p) (pst p).
  (** 877-880: the loop for an operator of the priority [q] on the level [l] *)
  Fixpoint op_loop (n : nat) (l : Z) (q : nat) (s : stack) : out stack :=
    match n with
    | O => Running
    | S n => if (tok_prio s <=? q)%nat then op_loop n l q (_zmParseStack (Some l) s) else Done s
    end.
  (** 876-891, with 642-694 and 842-867: one token; the answer is whether the parser goes on *)
  Definition step (n : nat) (p : parser) (t : token) : out (parser * bool) :=
    match t with
    | TNum x => Done (push p (CNum x), true)
    | TVar v => Done (push p (CVar v), true)
    | TOp o =>
        match op_loop n (level p) (op_prio o) (stk p) with
        | Done s => Done (push (Parser s (level p) (pst p)) (COp o), true)
        | Crash => Crash
        | Running => Running
        end
    | TFunc f => Done (push (Parser (stk p) (level p + 1) IN_FUNC) (CFunc f None), true)
    | TOpen k => Done (push (Parser (stk p) (level p + 1) (IN k)) (CPar k), true)
    | TClose k =>
        let '(ps, want) := if par_eqb k Par && status_eqb (pst p) IN_FUNC then (OUT_FUNC, IN_FUNC) else (OUT k, IN k) in
        _zmParseIn n want (Parser (stk p) (level p - 1) ps)
    end.
  Fixpoint steps (n : nat) (ts : list token) (p : parser) : out parser :=
    match ts with
    | [] => Done p
    | t :: ts => match step n p t with Done (p, true) => steps n ts p | Done (p, false) => Done p | Crash => Crash | Running => Running end
    end.
  (** 892-893 *)
  Fixpoint end_loop (n : nat) (s : stack) : out stack :=
    match n with
    | O => Running
    | S n => match tok_spec s with Some _ => end_loop n (_zmParseStack None s) | None => Done s end
    end.
  Definition zmParse_tokens (n : nat) (ts : list token) (p : parser) : out parser :=
    match steps n ts p with
    | Done p => match end_loop n (stk p) with Done s => Done (Parser s (level p) (pst p)) | Crash => Crash | Running => Running end
    | Crash => Crash
    | Running => Running
    end.
  (** 896-909 *)
  Definition zmParseEval (p : parser) : out T :=
    match stk p with
    | [] => Done 0
    | [t] => match _zmParseCellEval (cl t) with Ok x => Done x | UB => Crash end
    | _ => Done 0
    end.
  Definition run (n : nat) (ts : list token) : out T :=
    match zmParse_tokens n ts init with Done p => zmParseEval p | Crash => Crash | Running => Running end.

  (** ** the characters *)
  Definition chars := list ascii.
  Variable scan_num : chars -> option (T * chars).
  Local Open Scope char_scope.
  (** 19-21, in the order of the codes; EOF is the character -1 *)
  Definition is_delim (c : ascii) : bool := existsb (Ascii.eqb c) (map ascii_of_nat [255; 9; 11; 12; 10; 13; 32]%nat).
  Definition is_opchar (c : ascii) : bool := existsb (fun o => Ascii.eqb c (op_char o)) all_ops.
  (** isalpha and isalnum in the locale C *)
  Definition is_alpha (c : ascii) : bool :=
    let n := nat_of_ascii c in ((65 <=? n) && (n <=? 90) || (97 <=? n) && (n <=? 122))%nat.
  Definition is_alnum (c : ascii) : bool := let n := nat_of_ascii c in is_alpha c || ((48 <=? n) && (n <=? 57))%nat.
  (** the longest prefix of characters with the property, and what follows *)
  Fixpoint span (f : ascii -> bool) (s : chars) : chars * chars :=
    match s with
    | c :: s' => if f c then let '(a, b) := span f s' in (c :: a, b) else ([], s)
    | [] => ([], [])
    end.
  Definition skip_delim (s : chars) : chars := snd (span is_delim s).
  (** 398-407: every operator is one character *)
  Definition find_op (run : chars) : option op :=
    match run with [c] => find (fun o => Ascii.eqb c (op_char o)) all_ops | _ => None end.
  Definition name (s : chars) : string := string_of_list_ascii s.
  Definition par_of (c : ascii) : option token :=
    if Ascii.eqb c "(" then Some (TOpen Par) else if Ascii.eqb c ")" then Some (TClose Par)
    else if Ascii.eqb c "{" then Some (TOpen Brace) else if Ascii.eqb c "}" then Some (TClose Brace)
    else if Ascii.eqb c "[" then Some (TOpen Bracket) else if Ascii.eqb c "]" then Some (TClose Bracket) else None.
  (** 610-694, 875-889: the next token and what follows.  A run of operator characters which is no operator is dropped. *)
  Definition lex1 (s : chars) : option (token * chars) :=
    let '(r, s) := span is_opchar (skip_delim s) in
    match find_op r with
    | Some o => Some (TOp o, s)
    | None =>
        let '(nm, s') := match s with c :: _ => if is_alpha c then span is_alnum s else ([], s) | [] => ([], s) end in
        match nm, s' with
        | _ :: _, "(" :: s' => Some (TFunc (name nm), s')
        | _, _ =>
            match scan_num s with
            | Some (x, s) => Some (TNum x, s)
            | None =>
                match nm with
                | _ :: _ => Some (TVar (name nm), s')
                | [] => match s with c :: s => option_map (fun t => (t, s)) (par_of c) | [] => None end
                end
            end
        end
    end.
  (** the tokens of a string; [m] bounds their number *)
  Fixpoint lex (m : nat) (s : chars) : list token :=
    match m with
    | O => []
    | S m => match lex1 s with Some (t, s) => t :: lex m s | None => [] end
    end.
  (** 869-894 and 896-909; a token is at least one character *)
  Definition run_string (n : nat) (s : chars) : out T := run n (lex (length s) s).
End Parse.
Arguments cell : clear implicits.
Arguments tok : clear implicits.
Arguments token : clear implicits.
Arguments parser : clear implicits.
Arguments stack : clear implicits.
