(** Model of ieml/usl/__init__.py 12-21 (index keys) and ieml/commons.py 27-32
    (LastUpdatedOrderedDict). Definitions only. *)
From Coq Require Import List String Ascii Bool NArith Arith.
From Verif Require Import Base.
Import ListNotations.
Local Open Scope string_scope.

(** usl/__init__.py 10: [sorted(digits + ascii_uppercase + ascii_lowercase)]. *)
Definition alphanumeric : string :=
  "0123456789ABCDEFGHIJKLMNOPQRSTUVWXYZabcdefghijklmnopqrstuvwxyz".

Definition char_at (r : N) : string :=
  match String.get (N.to_nat r) alphanumeric with Some c => String c "" | None => "" end.

(** ['0' * n] *)
Fixpoint zeros (n : nat) : string :=
  match n with 0 => "" | S n' => String "0" (zeros n') end.

(** usl/__init__.py 12-21, with the default characters. The recursion is on the
    quotient; [fuel] bounds it and [int2base] gives enough of it (the number of bits). *)
Fixpoint int2base_fuel (fuel : nat) (i : N) (max : nat) : string :=
  match fuel with
  | 0 => ""
  | S f =>
    let q := (i / 62)%N in
    let r := (i - q * 62)%N in
    if negb (N.eqb q 0) then int2base_fuel f q (max - 1) ++ char_at r
    else zeros (max - 1) ++ char_at r
  end.
Definition int2base (i : N) : string := int2base_fuel (S (N.size_nat i)) i 30.

(** commons.py 27-32: an OrderedDict is the list of its items in order; [eqb] is [==] on
    keys. Deleting and inserting again moves the key to the end. *)
Section Dict.
  Context {K V : Type} (eqb : K -> K -> bool).
  Definition odict := list (K * V).
  Definition del_key (k : K) (d : odict) : odict := filter (fun kv => negb (eqb k (fst kv))) d.
  Definition has_key (k : K) (d : odict) : bool := existsb (fun kv => eqb k (fst kv)) d.
  Definition set_item (d : odict) (kv : K * V) : odict :=
    ((if has_key (fst kv) d then del_key (fst kv) d else d) ++ [kv])%list.
  (** A dictionary after the assignments [d[k] = v] in order. *)
  Definition set_items (l : list (K * V)) : odict := fold_left set_item l [].
  (** [d.get(k)] *)
  Definition get_item (k : K) (d : odict) : option V :=
    option_map snd (find (fun kv => eqb k (fst kv)) d).
End Dict.
