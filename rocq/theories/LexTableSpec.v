(** Specifications used by Properties33: what the table of a lexeme should show, with its flexion in
    the columns and its content in the rows. *)
From Coq Require Import List String Bool Arith.
From Verif Require Import Base Script Usl UslSpec Path RebuildSpec.
Import ListNotations.

(** The paths [>flexion] and [>content]. *)
Definition flexion_path : path := PLex Flexion None.
Definition content_path : path := PLex Content None.
(** What varies in the rows: the groups of the content, without its constants. *)
Definition content_choices (x : lexeme) : pm := mk_pm [] (groups (pm_content x)).
(** The lexeme with the flexion [c] and, for content, the constants and the choice [r]. *)
Definition lexeme_at (x : lexeme) (c r : pm) : lexeme :=
  {| pm_flexion := c; pm_content := mk_pm (constant (pm_content x) ++ constant r) [] |}.
(** A lexeme of which a table can be asked. *)
Definition lexeme_tabular (x : lexeme) : Prop := rebuilt_lexeme x /\ no_repetition (pm_content x).
(** A flexion with groups has five constants at most when all its morphemes can be shown. *)
Definition shown_flexion (u : pm) : Prop := groups u = [] \/ List.length (constant u) <= 4.
