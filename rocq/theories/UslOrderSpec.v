(** Specification used by Properties26: the words that are compared and what they hold. *)
From Coq Require Import List String Bool.
From Verif Require Import Base Script ScriptSpec Usl UslSpec Sfun SfunSpec UslParser UslOrder.
Import ListNotations.
Local Open Scope string_scope.

(** A word built with a list of addressed lexemes, whatever its focus. *)
Definition built_word (w : word) : Prop := exists (l : addressed) r, word_of l r = Ok w /\ Forall built_lexeme (present l).
(** Its focus is the address of a lexeme, not that of a junction. *)
Definition on_lexeme (w : word) : Prop := In (w_role w) (map fst (as_list (w_context w) (w_fun w))).

(** The word has [x] at the role [r]: a lexeme, or [None] for a junction or a missing lexeme. *)
Definition holds (w : word) (r : role) (x : option lexeme) : Prop := exists g, In (r, g) (actors (w_fun w)) /\ actor_of g = x.
(** The two words have the same thing at [r], or nothing. *)
Definition same_at (v w : word) (r : role) : Prop := forall t, (exists x, holds v r x /\ actor_str x = t) <-> (exists y, holds w r y /\ actor_str y = t).
(** At the first role where they are not the same, only one of them has a lexeme. *)
Definition clash_at (v w : word) (r : role) (e : exn) : Prop :=
  (forall r', role_lt r' r = true -> same_at v w r') /\
  ((exists l, holds v r None /\ holds w r (Some l) /\ e = TypeError) \/ (exists l, holds v r (Some l) /\ holds w r None /\ e = AttributeError)).

(** An expression of the parser. *)
Definition good_usl (u : usl) : Prop :=
  match u with UScript s => regular s | UPm p => built p | ULexeme l => built_lexeme l | UWord w => built_word w /\ on_lexeme w end.
Definition is_script (u : usl) : bool := match u with UScript _ => true | _ => false end.
