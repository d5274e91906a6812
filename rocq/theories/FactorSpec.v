(** What the properties of the factorisation say, without the program. *)
From Coq Require Import List String Bool NArith Arith.
From Verif Require Import Base Script ScriptSpec.
Import ListNotations.

(** A word of layer [n + 1] is made of three words of layer [n]. *)
Definition third (k n : nat) (w : word) : word := firstn (3 ^ n) (skipn (k * 3 ^ n) w).
Definition thirds (k n : nat) (W : word -> Prop) : word -> Prop := fun u => exists w, W w /\ u = third k n w.

(** The words have one of their thirds in common, and so have these thirds, down to the letters. *)
Definition agree (k n : nat) (W : word -> Prop) : Prop := forall w w', W w -> W w' -> third k n w = third k n w'.
Fixpoint flat (n : nat) (W : word -> Prop) : Prop :=
  match n with
  | 0 => True
  | S n => (agree 0 n W \/ agree 1 n W \/ agree 2 n W) /\
           flat n (thirds 0 n W) /\ flat n (thirds 1 n W) /\ flat n (thirds 2 n W)
  end.
(** The words are all the combinations of their thirds. *)
Definition full (n : nat) (W : word -> Prop) : Prop :=
  forall u v t, W u -> W v -> W t -> W (third 0 n u ++ third 1 n v ++ third 2 n t)%list.
(** The words that are certainly factorised: flat, or a product of such sets. *)
Fixpoint easy (n : nat) (W : word -> Prop) : Prop :=
  flat n W \/
  match n with
  | 0 => True
  | S n => full n W /\ easy n (thirds 0 n W) /\ easy n (thirds 1 n W) /\ easy n (thirds 2 n W)
  end.

(** A word completed with E up to layer [n]: what [promote] does. *)
Definition lifted (n : nat) (w : word) : word := (w ++ repeat None (3 ^ n - List.length w))%list.

(** [ws] are the words in [W], each once: their number is that of the distinct words. *)
Definition lists (W : word -> Prop) (ws : list word) : Prop := NoDup ws /\ forall w, In w ws <-> W w.

(** The words of the scripts in [l] completed up to layer [n]. *)
Definition gathered (l : list script) (n : nat) : word -> Prop :=
  fun w => exists x u, In x l /\ means x u /\ w = lifted n u.
Definition top_layer (l : list script) (n : nat) : Prop :=
  (exists x, In x l /\ layer x = n) /\ forall x, In x l -> layer x <= n.

(** More than 360 distinct words. *)
Definition too_many (W : word -> Prop) : Prop :=
  exists ws, NoDup ws /\ (forall w, In w ws -> W w) /\ (MAX_SINGULAR_SEQUENCES < N.of_nat (List.length ws))%N.

(** The words of [r] are those in [W], and the script does not list a word twice: its length
    is the number of the words. *)
Definition exactly (r : script) (n : nat) (W : word -> Prop) : Prop :=
  layer r = n /\ (forall w, means r w <-> W w) /\ sums_disjoint r /\
  exists ws, lists W ws /\ cardinal r = N.of_nat (List.length ws).
