(** Specifications used by Properties12: the USLs that the paths of their morphemes determine. *)
From Coq Require Import List String Bool Arith.
From Verif Require Import Base Script ScriptParser Commons Usl UslSpec Sfun SfunSpec UslParser UslGrammar Path.
Import ListNotations.
Local Open Scope string_scope.

(** The listing of the paths of the morphemes of a polymorpheme: at most three groups; the
    dictionary of paths holds a morpheme of a place once; the text of a path has a digit for
    the multiplicity, which is not zero. *)
Definition rebuilt_content (u : pm) : Prop :=
  built u /\ plain u /\ List.length (groups u) <= 3 /\ NoDup (map str (constant u)) /\
  (forall g, In g (groups u) -> 1 <= snd g < 10 /\ NoDup (map str (fst g))).
(** [m] is one of the morphemes of the paradigm [t]. *)
Definition of_category (t : string) (m : script) : Prop := exists x l n, parse (fun l => l) t = Ok x /\ ss x = Ok l /\ In n l /\ str n = str m.
(** The categories of the morphemes of flexions (usl/constants.py 54-77). *)
Definition categories : list string :=
["E:M:.-d.u.-'"; "E:.-n.E:U:.+F:.-'"; "E:O:O:."; "E:M:O:."; "E:.+E:U:S:+T:.-M:M:.o.-'"; "E:.b.O:M:.-"; "E:.b.O:O:.-";
   "E:S:.j.-'M:O:.-O:.-',"; "E:.-',b.-S:.U:.-'y.-'O:.-',_"; "E:.O:O:.-"; "E:I:.-t.u.-'"; "E:F:.-t.o.-'";
   "E:.-'O:O:.-M:.-'t.o.-',"; "E:.-O:O:.-t.o.-'"; "E:.-F:.M:M:.-l.-'"; "E:.O:O:.O:.-t.o.-'"; "E:M:.-O:.-t.o.-'";
   "E:M:.d.+M:O:.-"; "E:F:M:."; "E:.O:.M:O:.-"].
(** The paths of the morphemes of a flexion do not tell groups from constants. They are told
    apart by the categories: two morphemes of a category or more are
    a group. *)
Definition rebuilt_flexion (u : pm) : Prop :=
  built u /\ plain u /\ List.length (groups u) <= 3 /\
  (forall g, In g (groups u) -> snd g = 1 /\ 2 <= List.length (fst g) /\ NoDup (map str (fst g))) /\
  exists cats, NoDup cats /\ incl cats categories /\
    Forall2 (fun t part => forall m, In m part -> of_category t m) cats (map (fun m => [m]) (meaningful (constant u)) ++ map fst (groups u)).
Definition rebuilt_lexeme (l : lexeme) : Prop := rebuilt_flexion (pm_flexion l) /\ rebuilt_content (pm_content l).
(** In a word, every actor has a lexeme, and the focus is one of the actors. *)
Inductive rebuildable : usl -> Prop :=
| rebuildable_pm u : rebuilt_content u -> rebuildable (UPm u)
| rebuildable_lexeme l : rebuilt_lexeme l -> rebuildable (ULexeme l)
| rebuildable_word l r w : word_of l r = Ok w -> In r (map fst (as_list (w_context w) (w_fun w))) ->
    (forall e, In e (as_list (w_context w) (w_fun w)) -> exists x, snd e = Some x /\ rebuilt_lexeme x) -> rebuildable (UWord w).
