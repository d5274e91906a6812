(** Specification used by Properties27. *)
From Coq Require Import List String Bool Permutation.
From Verif Require Import Base Script Usl UslSpec Sfun SfunSpec UslParser UslOrder UslOrderSpec Member.
Import ListNotations.
Local Open Scope string_scope.

(** [t] is the text of a singular sequence of [u]. *)
Definition sequence_text (so : list script -> list script) (u : usl) (t : string) : Prop := exists l x, usl_ss so u = Ok l /\ In x l /\ usl_str x = t.
(** Every address of the word has a lexeme. *)
Definition filled (w : word) : Prop := forall e, In e (as_list (w_context w) (w_fun w)) -> snd e <> None.
Definition filled_usl (u : usl) : Prop := match u with UWord w => filled w | _ => True end.
(** A USL which is not a script. *)
Definition proper (u : usl) : Prop := good_usl u /\ is_script u = false.
(** The lexeme at an address. *)
Definition lexeme_at (w : word) (r : role) (x : lexeme) : Prop := In (r, Some x) (as_list (w_context w) (w_fun w)).
