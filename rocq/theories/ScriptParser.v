(** Model of ieml/dictionary/script/parser/{lexer,parser}.py and operator.py.
    Definitions only. The PLY generated LALR parser is modelled by a shift-reduce
    parser for the grammar of the docstrings, followed by the evaluation of the
    semantic actions on the syntax tree. [ScriptGrammar.v] holds the grammar itself as a
    relation. PLY runs the actions while it parses: when a text has both a syntax
    error and an error raised by an action, which of the two is reported is not
    modelled. *)
From Coq Require Import List String Ascii Bool NArith Arith.
From Verif Require Import Base Script.
Import ListNotations.
Local Open Scope string_scope.

(** lexer.py 6-21. *)
Inductive token :=
| TPlus
| TMark (n : nat)
| TPrimitive (x : option prim)
| TRemAdd (k : string)
| TRemMul (k : string).

(** lexer.py 25-38: the token starting with this character, two-letter remarkable
    multiplications excepted. U+2019 is represented by character 146. *)
Definition token_of (c : ascii) : option token :=
  match c with
  | "+"%char => Some TPlus
  | ":"%char => Some (TMark 0)
  | "."%char => Some (TMark 1)
  | "-"%char => Some (TMark 2)
  | "'"%char => Some (TMark 3)
  | "146"%char => Some (TMark 3)
  | ","%char => Some (TMark 4)
  | "_"%char => Some (TMark 5)
  | ";"%char => Some (TMark 6)
  | "E"%char => Some (TPrimitive None)
  | "U"%char => Some (TPrimitive (Some PU))
  | "A"%char => Some (TPrimitive (Some PA))
  | "S"%char => Some (TPrimitive (Some PS))
  | "B"%char => Some (TPrimitive (Some PB))
  | "T"%char => Some (TPrimitive (Some PT))
  | "O"%char | "M"%char | "F"%char | "I"%char => Some (TRemAdd (String c ""))
  | "y"%char | "o"%char | "e"%char | "u"%char | "a"%char | "i"%char | "j"%char
  | "g"%char | "s"%char | "b"%char | "t"%char | "h"%char | "c"%char | "k"%char
  | "m"%char | "n"%char | "p"%char | "x"%char | "d"%char | "f"%char | "l"%char =>
    Some (TRemMul (String c ""))
  | _ => None
  end.

(** lexer.py 35 *)
Definition is_woae (c : ascii) : bool :=
  match c with "o"%char | "a"%char | "u"%char | "e"%char => true | _ => false end.

(** lexer.py 24-45: blanks are ignored, illegal characters are logged and skipped. *)
Fixpoint lex (s : string) : list token :=
  match s with
  | EmptyString => []
  | String c r =>
    match token_of c with
    | Some t => t :: lex r
    | None =>
      if Ascii.eqb c "w"%char then
        match r with
        | String d r' => if is_woae d then TRemMul (String c (String d "")) :: lex r'
                         else lex r
        | EmptyString => []
        end
      else lex r
    end
  end.

(** Syntax trees of the grammar. [TMul n args]: rule script_lvl_n with the sums of
    level n-1 [args]; a sum is the list of its terms from left to right. *)
Inductive tree :=
| TrPrim (x : option prim)
| TrRemAdd (k : string)
| TrRemMul (k : string)
| TrMul (n : nat) (args : list (list tree)).

Definition tlevel (t : tree) : nat :=
  match t with
  | TrPrim _ | TrRemAdd _ => 0
  | TrRemMul _ => 1
  | TrMul n _ => n
  end.

Inductive item := I (t : tree) | P.

(** parser.py 80-87, 107-118, 120-172: the sums of level [n] on top of the stack. *)
Fixpoint pop (n : nat) (st : list item) (cur : list tree) (args : list (list tree))
  : list (list tree) * list item :=
  match st with
  | I t :: st' =>
    if Nat.eqb (tlevel t) n then pop n st' [t] (cur :: args) else (cur :: args, st)
  | P :: I t :: st' =>
    if Nat.eqb (tlevel t) n then pop n st' (t :: cur) args else (cur :: args, st)
  | _ => (cur :: args, st)
  end.

(** parser.py 89-105, 155-164: one to three sums followed by LAYERn_MARK. *)
Definition reduce (n : nat) (st : list item) : option (list item) :=
  match st with
  | I t :: st' =>
    if Nat.eqb (tlevel t) n then
      let (args, st'') := pop n st' [t] [] in
      if Nat.leb (List.length args) 3 then Some (I (TrMul (S n) args) :: st'') else None
    else None
  | _ => None
  end.

Fixpoint run (w : list token) (st : list item) : option (list item) :=
  match w with
  | [] => Some st
  | TPlus :: r => run r (P :: st)
  | TPrimitive x :: TMark 0 :: r => run r (I (TrPrim x) :: st)
  | TRemAdd k :: TMark 0 :: r => run r (I (TrRemAdd k) :: st)
  | TRemMul k :: TMark 1 :: r => run r (I (TrRemMul k) :: st)
  | TMark (S n) :: r =>
    if Nat.leb (S n) MAX_LAYER then
      match reduce n st with Some st' => run r st' | None => None end
    else None
  | _ => None
  end.

(** parser.py 48-63: the stack must hold one sum. *)
Definition parse_tree (w : list token) : option (list tree) :=
  match run w [] with
  | Some (I t :: st) =>
    match pop (tlevel t) st [t] [] with
    | ([ts], []) => Some ts
    | _ => None
    end
  | _ => None
  end.

(** The semantic actions, parser.py 65-172. In a sum the terms are collected from right
    to left ([p[3].append(p[1])], 84-85). *)
Section Eval.
  Variable so : list script -> list script.

  Definition eval_sum (ev : tree -> res script) (ts : list tree) : res script :=
    do l <- mapM ev ts; mk_add so (rev l).

  Fixpoint eval (t : tree) : res script :=
    match t with
    | TrPrim None => Ok (Null 0)
    | TrPrim (Some p) => mk_mul_char (prim_char p)
    | TrRemAdd k => mk_add_char so k
    | TrRemMul k => mk_mul_char k
    | TrMul _ args => do l <- mapM (eval_sum eval) args; mk_mul_l l
    end.

  Definition eval_term (ts : list tree) : res script :=
    match ts with
    | [t] => eval t
    | _ => eval_sum eval ts
    end.

  (** parser.py 31-37: exceptions derived from InvalidScript become CannotParse. *)
  Definition as_parse_error (r : res script) : res script :=
    match r with
    | Err InvalidScript | Err InvalidScriptCharacter
    | Err IncompatiblesScriptsLayers => Err CannotParse
    | _ => r
    end.

  (** operator.py 23-34, parser.py 31-37: [script(text)]. *)
  Definition parse (s : string) : res script :=
    match parse_tree (lex s) with
    | None => Err CannotParse
    | Some ts => as_parse_error (eval_term ts)
    end.
End Eval.

(** operator.py 9-14 *)
Definition m (substance : script) (attribute mode : option script) : res script :=
  mk_mul [Some substance; attribute; mode].

(** script.py 75-79: [a + b] *)
Definition script_add (so : list script -> list script) (a b : script) : res script :=
  mk_add so [a; b].

(** tools.py 117-129 *)
Fixpoint promote_n (n : nat) (s : script) : res script :=
  match n with
  | 0 => Ok s
  | S n' => do s' <- mk_mul_l [s]; promote_n n' s'
  end.
Definition promote (s : script) (l : nat) : res script := promote_n (l - layer s) s.

(** operator.py 17-20: [max] of an empty list raises ValueError. *)
Definition add_op (so : list script -> list script) (l : list script) : res script :=
  match l with
  | [] => Err ValueError
  | _ => do p <- mapM (fun s => promote s (maxl (map layer l))) l; mk_add so p
  end.
