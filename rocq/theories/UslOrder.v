(** Model of [<] between expressions: ieml/usl/usl.py 32-41, word.py 80-82,
    syntagmatic_function.py 57-65, lexeme.py 71-73, polymorpheme.py 179-182, script.py 91-124,
    decoration/instance.py 92-93. Definitions only. *)
From Coq Require Import List String Ascii Bool NArith Arith.
From Verif Require Import Base Script Commons Usl Sfun UslParser.
Import ListNotations.
Local Open Scope string_scope.

(** Python compares two tuples (role, actor) and two lists of them by finding the first place where
    the elements are not [==] and comparing these with [<]. *)
(** usl.py 46-47: [==] of lexemes compares their texts; [None] and a lexeme are compared by
    Lexeme.__eq__, so by their texts too; [None] is [None]. *)
Definition actor_eqb (x y : option lexeme) : bool := String.eqb (actor_str x) (actor_str y).
(** usl.py 32-41. [None < lexeme] has no method (TypeError); [lexeme < None] reads
    [None.syntactic_level] (AttributeError). *)
Definition actor_lt (x y : option lexeme) : res bool :=
  match x, y with
  | Some a, Some b => Ok (lexeme_lt a b)
  | None, _ => Err TypeError
  | Some _, None => Err AttributeError
  end.
Definition pair_eqb (a b : role * option lexeme) : bool := (role_eqb (fst a) (fst b) && actor_eqb (snd a) (snd b))%bool.
Definition pair_lt (a b : role * option lexeme) : res bool :=
  if role_eqb (fst a) (fst b) then actor_lt (snd a) (snd b) else Ok (role_lt (fst a) (fst b)).
Fixpoint pairs_lt (l m : list (role * option lexeme)) : res bool :=
  match l, m with
  | _, [] => Ok false
  | [], _ :: _ => Ok true
  | a :: l, b :: m => if pair_eqb a b then pairs_lt l m else pair_lt a b
  end.

(** syntagmatic_function.py 57-60 *)
Definition fun_eqb (f g : sfun lexeme) : bool := seq_eqb pair_eqb (pairs f) (pairs g).
(** 62-65 *)
Definition fun_lt (f g : sfun lexeme) : res bool := pairs_lt (pairs f) (pairs g).
(** word.py 80-82 *)
Definition word_lt (a b : word) : res bool :=
  do x <- fun_lt (w_fun a) (w_fun b);
  Ok (x || (fun_eqb (w_fun a) (w_fun b) && role_lt (w_role a) (w_role b)))%bool.

(** What the user compares: a script, a USL, or a USL with decorations (the text of which
    follows that of the USL, instance.py 81-82). *)
Inductive item := Plain (u : usl) | Decorated (u : usl) (decorations : string).
Definition item_str (i : item) : string := match i with Plain u => usl_str u | Decorated u d => usl_str u ++ d end.
(** polymorpheme.py 152, lexeme.py 21, word.py 45 *)
Definition syntactic_level (u : usl) : nat := match u with UScript _ => 0 | UPm _ => 1 | ULexeme _ => 2 | UWord _ => 3 end.
(** usl.py 40-41 between USLs which are not scripts *)
Definition plain_lt (a b : usl) : res bool :=
  match a, b with
  | UPm p, UPm q => Ok (pm_lt p q)
  | ULexeme l, ULexeme m => Ok (lexeme_lt l m)
  | UWord v, UWord w => word_lt v w
  | _, _ => Ok (Nat.ltb (syntactic_level a) (syntactic_level b))
  end.
(** [a < b]. A script is only compared to a script (script.py 92-93: NotImplemented, no reflected
    method: TypeError). A USL is not smaller than a script (usl.py 33-34); a decorated USL, of
    level 10, is compared as its USL on the right (36-38) and as itself on the left (instance.py 49).
    Simplification: a decorated USL is not decorated again, nor is a script (the parser gives none). *)
Definition item_lt (a b : item) : res bool :=
  match a, b with
  | Plain (UScript s), Plain (UScript t) => Ok (lt s t)
  | Plain (UScript _), _ => Err TypeError
  | _, Plain (UScript _) => Ok false
  | Decorated _ _, _ => Ok false
  | Plain u, Plain v | Plain u, Decorated v _ => plain_lt u v
  end.
