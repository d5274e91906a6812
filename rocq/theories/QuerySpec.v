(** Specification used by Properties28: what a lookup and a listing are meant to return. *)
From Coq Require Import List String Ascii Bool Sorted.
From Verif Require Import Base Cache Script Database DatabaseSpec DatabasePath Pull Query.
Import ListNotations.
Local Open Scope string_scope.

(** The values of a complete key, in the order of the table. *)
Definition row_values (rows : list (string * string * string * string)) (k : dkey) : list (option string) :=
  let '(i, l, d) := k in map (fun v => pandas_cell v) (values_of rows i l d).
Definition srow_values (rows : list (string * string * string)) (k : skey) : list string := svalues_of rows (fst k) (snd k).
(** The key has the parts which are given. *)
Definition has_part (o : option string) (x : string) : Prop := o = None \/ o = Some x.
Definition asked (i l d : option string) (k : dkey) : Prop := let '(i', l', d') := k in has_part i i' /\ has_part l l' /\ has_part d d'.
Definition sasked (i k : option string) (q : skey) : Prop := has_part i (fst q) /\ has_part k (snd q).
(** The order of the texts, of the keys. *)
Definition dkey_before (a b : dkey) : Prop :=
  let '(i, l, d) := a in let '(j, m, e) := b in
  string_lt i j = true \/ (i = j /\ (string_lt l m = true \/ (l = m /\ string_lt d e = true))).
Definition skey_before (a b : skey) : Prop := string_lt (fst a) (fst b) = true \/ (fst a = fst b /\ string_lt (snd a) (snd b) = true).
(** The languages and classes given are known. *)
Definition legal_part (o : option string) (l : list string) : Prop := match o with Some x => In x l \/ x = "" | None => True end.
(** The expression is among those asked of [list]: every one without a type, else those of the
    class, else those of the class which are paradigms, or which are not. *)
Definition in_folder (class_of : string -> iclass) (singular : string -> bool) (type : option string) (paradigm : option bool) (i : string) : Prop :=
  match type with
  | None => True
  | Some t => t = "" \/ (t = fst (class_folder (class_of i)) /\ match paradigm with None => True | Some p => p = negb (singular i) end)
  end.
