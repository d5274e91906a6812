(** Model of [in], [len] and the singular sequences of USLs: ieml/usl/usl.py 43-58, 78-101 and
    ieml/dictionary/script/script.py 81-89, 156-166.
    Definitions only. Not here: USLs with decorations. *)
From Coq Require Import List String Bool NArith Arith.
From Verif Require Import Base Script Usl Sfun UslParser.
Import ListNotations.
Local Open Scope string_scope.

(** usl.py 82-87 (computed once and kept), script.py 196-200 for a script. *)
Definition usl_ss (so : list script -> list script) (u : usl) : res (list usl) :=
  match u with
  | UScript s => do l <- ss s; Ok (map UScript l)
  | UPm p => Ok (map UPm (pm_ss so p))
  | ULexeme l => Ok (map ULexeme (lexeme_ss so l))
  | UWord w => do l <- word_ss so w; Ok (map UWord l)
  end.
(** 46-51: [==] and [hash] are those of the texts; a script and a USL too (script.py 84-85 leaves
    the answer to the USL). *)
Definition usl_eqb (a b : usl) : bool := String.eqb (usl_str a) (usl_str b).
(** [a in b]. 56-57: the set of the singular sequences of [a] is computed first; script.py
    156-163 when [b] is a script. *)
Definition usl_in (so : list script -> list script) (a b : usl) : res bool :=
  match a, b with
  | UScript i, UScript s => script_in i s
  | _, UScript _ => Ok false
  | _, _ =>
      do x <- usl_ss so a;
      do y <- usl_ss so b;
      Ok (forallb (fun s => existsb (usl_eqb s) y) x)
  end.
(** 53-54, 78-80; script.py 165-166 *)
Definition usl_len (so : list script -> list script) (u : usl) : res nat :=
  match u with
  | UScript s => Ok (N.to_nat (cardinal s))
  | _ => do l <- usl_ss so u; Ok (List.length l)
  end.
(** 99-101, script.py 210-212 *)
Definition usl_singular (so : list script -> list script) (u : usl) : res bool := do n <- usl_len so u; Ok (Nat.eqb n 1).
