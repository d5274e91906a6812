(** What the list of all described expressions of a folder should hold. *)
From Coq Require Import List String Bool NArith.
From Verif Require Import Base Script ScriptParser Dictionary Database Cache Usl UslParser Listing.
Import ListNotations.
Local Open Scope string_scope.

(** The rows of the descriptors are (expression, language, class of descriptors, value). *)
Definition described (rows : list (string * string * string * string)) (t : string) : Prop :=
  exists l c v, In (t, l, c, v) rows.
(** The values of an expression, in a language, for a class of descriptors, in the order of the rows *)
Definition described_by (rows : list (string * string * string * string)) (t l c : string) : list (option string) :=
  map (fun r => pandas_cell (snd r))
      (filter (fun r => let '(t', l', c', _) := r in (String.eqb t' t && String.eqb l' l && String.eqb c' c)%bool) rows).

(** The text is the one of an expression and every morpheme it is written with is in the dictionary. *)
Definition readable (so : list script -> list script) (d : dictionary) (t : string) (x : usl * list (string * string)) : Prop :=
  usl_parse so t = Ok x /\
  forall m, In (UMorpheme m) (ulex 0 false t) -> exists s, parse so m = Ok s /\ in_dictionary d s = true.

(** The value of the list for an expression, a class of descriptors and a language *)
Definition listed_values (e : entry) (c l : string) : list (option string) :=
  match get_key c (e_values e) with
  | Some x => match get_key l x with Some v => v | None => [] end
  | None => []
  end.

(** By key, and by text for the same key *)
Definition before (a b : entry) : Prop :=
  string_lt (e_index a) (e_index b) = true \/ (e_index a = e_index b /\ string_lt (e_ieml a) (e_ieml b) = true).

(** The expressions without decorations that the list can show *)
Definition listable (d : dictionary) (u : usl) : Prop :=
  match u with
  | UScript s => in_dictionary d s = true
  | UPm p => Forall (fun s => in_dictionary d s = true) (constant p)
  | ULexeme _ => True
  | UWord _ => False
  end.

(** What the code does of an expression with decorations, of which the other fields are not modelled:
    its own text, the type and the key of the last case of get_index, and no values yet. *)
Definition decorated_ok (decorated : string -> usl -> list (string * string) -> res entry) : Prop :=
  forall t u ds e, decorated t u ds = Ok e ->
    e_ieml e = t /\ e_type e = "word" /\ e_index e = "3000000000000000000000000000000" /\ e_values e = [].
