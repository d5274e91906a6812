(** Specifications used by Properties35: what the table of a word should show, with the flexion of an
    actor in the columns and the content of an actor in the rows. *)
From Coq Require Import List String Bool Arith.
From Verif Require Import Base Script Commons Usl UslSpec SfunSpec Sfun UslParser Path RebuildSpec LexTableSpec.
Import ListNotations.

(** The roles of a word with their lexemes. *)
Definition word_actors (w : word) : addressed := as_list (w_context w) (w_fun w).
(** The paths [>role>i>flexion] and [>role>i>content]; the path of the focus has a mark. *)
Definition role_path (w : word) (i : role) (p : path) : path := PRole i (role_eqb i (w_role w)) (Some p).
(** A word of which a table can be asked: every actor has a lexeme that its paths determine, and the
    focus is an actor. *)
Definition word_tabular (w : word) : Prop :=
  (exists l r, word_of l r = Ok w) /\ In (w_role w) (map fst (word_actors w)) /\
  forall e, In e (word_actors w) -> exists x, snd e = Some x /\ rebuilt_lexeme x.
(** The flexion of the actor [a] and the content of the actor [b] replaced. *)
Definition replaced (a b : role) (fl ct : pm) (e : role * option lexeme) : role * option lexeme :=
  (fst e, option_map (fun x => {| pm_flexion := if list_eq_dec string_dec (fst e) a then fl else pm_flexion x;
                                  pm_content := if list_eq_dec string_dec (fst e) b then ct else pm_content x |}) (snd e)).
(** The text of the word with, for the actor [a], the flexion [c] and, for the actor [b] which has the
    lexeme [y], its constants and the choice [r] for content. *)
Definition word_at (w : word) (a b : role) (y : lexeme) (c r : pm) (t : string) : Prop :=
  exists q, word_of (map (replaced a b c (mk_pm (constant (pm_content y) ++ constant r) [])) (word_actors w)) (w_role w) = Ok q /\ t = w_str q.
