(** Specifications used by Properties20: what the table of a polymorpheme should show. *)
From Coq Require Import List String Bool Arith.
From Verif Require Import Base Script Usl UslSpec Path RebuildSpec.
Import ListNotations.

(** The groups of [u] whose place satisfies [f], in order. *)
Definition select (u : pm) (f : gidx -> bool) : list group :=
  flat_map (fun g => match groups_at u g with Some gr => if f g then [gr] else [] | None => [] end) [Group0; Group1; Group2].
(** The path of a group, with its multiplicity: [>group_0 1]. *)
Definition group_path (u : pm) (g : gidx) : path :=
  PPoly g None (Some (match groups_at u g with Some gr => snd gr | None => 1 end)) None.
(** The columns are on the group [g]. The rows are on the group [rows], or, when it is not given,
    on all the groups but [g]. The other groups vary in every cell. *)
Definition in_rows (g : gidx) (rows : option gidx) (h : gidx) : bool :=
  match rows with Some r => gidx_eqb h r | None => negb (gidx_eqb h g) end.
Definition in_rest (g : gidx) (rows : option gidx) (h : gidx) : bool :=
  match rows with Some r => (negb (gidx_eqb h g) && negb (gidx_eqb h r))%bool | None => false end.
(** What varies in the columns and in the rows: polymorphemes without constant. *)
Definition column_choices (u : pm) (g : gidx) : pm := mk_pm [] (select u (fun h => gidx_eqb h g)).
Definition row_choices (u : pm) (g : gidx) (rows : option gidx) : pm := mk_pm [] (select u (in_rows g rows)).
(** The cell where the choice [c] of morphemes of the columns meets the choice [r] of the rows. *)
Definition cell (u : pm) (g : gidx) (rows : option gidx) (c r : pm) : pm :=
  mk_pm (constant u ++ constant c ++ constant r) (select u (in_rest g rows)).
(** The header of the row of the choice [r]: the columns still vary. *)
Definition header (u : pm) (g : gidx) (rows : option gidx) (r : pm) : pm :=
  mk_pm (constant u ++ constant r) (select u (fun h => (in_rest g rows h || gidx_eqb h g)%bool)).
(** A polymorpheme of which a table can be asked. *)
Definition tabular (u : pm) (g : gidx) (rows : option gidx) : Prop :=
  rebuilt_content u /\ no_repetition u /\ groups_at u g <> None /\
  match rows with Some r => groups_at u r <> None /\ r <> g | None => True end.
(** The elements of a list are before the ones that follow. *)
Fixpoint increasing {A} (lt : A -> A -> Prop) (l : list A) : Prop :=
  match l with [] => True | x :: r => (forall y, In y r -> lt x y) /\ increasing lt r end.
