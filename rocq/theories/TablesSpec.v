(** What the tables of a script are, for the reader: parts of arrays, and what covers them. *)
From Coq Require Import List String Bool NArith Arith Permutation.
From Verif Require Import Base Script Tables.
Import ListNotations.

Section Parts.
  Context {A : Type}.
  (** The k-th element, if there is one. *)
  Definition at_ {B} (k : nat) (l : list B) : list B := match nth_error l k with Some x => [x] | None => [] end.
  (** All the cells; those of a tab; those of a row, of a column in a tab. *)
  Definition all_cells (t : list (list (list A))) : list A := List.concat (List.concat t).
  Definition tab (t : list (list (list A))) (p : nat) : list A := flat_map (flat_map (at_ p)) t.
  Definition row (t : list (list (list A))) (i p : nat) : list A := flat_map (flat_map (at_ p)) (at_ i t).
  Definition column (t : list (list (list A))) (j p : nat) : list A := flat_map (fun r => flat_map (at_ p) (at_ j r)) t.
  Definition shape (t : list (list (list A))) (n m k : nat) : Prop :=
    List.length t = n /\ Forall (fun r => List.length r = m /\ Forall (fun c => List.length c = k) r) t.
End Parts.

(** The singular sequences of the script [h] are exactly these cells, each once. *)
Definition covers (h : script) (l : list cell) : Prop :=
  exists x, ss h = Ok x /\ Permutation (map (fun y => Some (str y)) x) (map (option_map str) l).

(** An array with the scripts and headers of its tables: a column under one header, which is the
    script of the table, or a table for each tab, with a header for each row and column. *)
Inductive described : array -> list script -> list header -> Prop :=
| a_column t s n : shape t n 1 1 -> covers s (all_cells t) -> described t [s] [[[s]]]
| a_grid t ts hs n m k : shape t n m k -> List.length ts = k -> List.length hs = k ->
    (forall p s, nth_error ts p = Some s -> covers s (tab t p)) ->
    (forall p h, nth_error hs p = Some h -> exists rows columns, h = [rows; columns] /\
       List.length rows = n /\ List.length columns = m /\
       (forall i r, nth_error rows i = Some r -> covers r (row t i p)) /\
       (forall j c, nth_error columns j = Some c -> covers c (column t j p))) ->
    described t ts hs.

(** A table of the script has a dimension with more than 12 headers. *)
Definition several (x : script) : bool := negb (N.eqb (cardinal x) 1).
Inductive too_wide : script -> Prop :=
| wide_mul a b c x : 2 <= List.length (filter several [a; b; c]) -> In x [a; b; c] -> (12 < cardinal x)%N -> too_wide (Mul a b c)
| wide_child a b c x : filter several [a; b; c] = [x] -> too_wide x -> too_wide (Mul a b c)
| wide_term cs x : (forall y, In y cs -> cardinal y <> 1%N) -> In x cs -> too_wide x -> too_wide (Add cs).

(** The place, in the table of a multiplication with several plural children, of the i-th, j-th and
    k-th singular sequences of the children: only the plural children have a dimension. *)
Definition coordinates (a b c : script) (i j k : nat) : list nat :=
  map snd (filter (fun e => several (fst e)) [(a, i); (b, j); (c, k)]) ++ [0; 0; 0].
Definition cell_at {A} (t : list (list (list A))) (p : list nat) : option A :=
  match p with
  | i :: j :: k :: _ =>
    match nth_error t i with
    | Some r => match nth_error r j with Some c => nth_error c k | None => None end
    | None => None
    end
  | _ => None
  end.
