(** Specification used by Properties9: roles, addressed lists and choices of lexemes. *)
From Coq Require Import List String Bool Permutation.
From Verif Require Import Base Script Usl Sfun.
Import ListNotations.
Local Open Scope string_scope.

(** The roles the constructor accepts: lists of address scripts. *)
Definition valid_role (r : role) : Prop := Forall (fun s => In s ADDRESS_SCRIPTS) r.
(** [a] is a proper prefix of [b]. *)
Definition extends (a b : role) : Prop := exists x r, b = (a ++ x :: r)%list.

(** A list of addressed lexemes, as given to from_list by the parser. *)
Definition addressed := list (role * option lexeme).
Definition present (l : addressed) : list lexeme := flat_map (fun e => match snd e with Some x => [x] | None => [] end) l.

(** [xs] takes a singular sequence of each lexeme of [l], in the same order. *)
Definition choice (so : list script -> list script) (l : addressed) (xs : list lexeme) : Prop :=
  Forall2 (fun e x => exists y, snd e = Some y /\ In x (lexeme_ss so y)) l xs.
(** [l] with the lexemes replaced by [xs]. *)
Definition refilled (l : addressed) (xs : list lexeme) : addressed := combine (map fst l) (map Some xs).
Definition number (so : list script -> list script) (l : addressed) : nat :=
  fold_right Nat.mul 1 (map (fun e => match snd e with Some y => List.length (lexeme_ss so y) | None => 0 end) l).

(** Lists without junction and with at most one lexeme below an independant quality. *)
Definition without_junction (l : addressed) : Prop := forall e s, In e l -> In s (fst e) -> ~ In s JUNCTION_SCRIPTS.
Definition clash (a b : role) : Prop :=
  exists p q, a = (p ++ [INDEPENDANT_QUALITY])%list /\ b = (p ++ INDEPENDANT_QUALITY :: q)%list.
Definition without_clash (l : addressed) : Prop :=
  ForallOrdPairs (fun e e' => ~ clash (fst e) (fst e') /\ ~ clash (fst e') (fst e)) l.
