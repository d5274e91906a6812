(** Shared vocabulary of the model: Python exceptions as values, strings, sorting. *)
From Coq Require Import List String Ascii Bool NArith Arith Lia.
Import ListNotations.
Local Open Scope string_scope.

(** The Python exceptions raised by the modelled code (ieml/exceptions.py 1-108 and
    the built-in ones). [OutOfFuel] is not a Python exception: it marks a model
    function called with too little fuel. *)
Inductive exn :=
| InvalidScript
| InvalidScriptCharacter
| IncompatiblesScriptsLayers
| TooManySingularSequences
| CannotParse
| IndexError
| KeyError
| ValueError
| AssertionError
| TypeError
| UnboundLocalError
| NotImplementedError
| AttributeError
| NameError
| StopIteration
| FileNotFoundError
| OutOfFuel.

Inductive res (A : Type) :=
| Ok (a : A)
| Err (e : exn).
Arguments Ok {A} a.
Arguments Err {A} e.

Definition bind {A B} (x : res A) (f : A -> res B) : res B :=
  match x with Ok a => f a | Err e => Err e end.

Notation "'do' x <- e ; f" := (bind e (fun x => f))
  (at level 200, x binder, e at level 100, f at level 200, right associativity).

(** [for x in l: r.append(f(x))], stopping at the first exception. *)
Definition mapM {A B} (f : A -> res B) : list A -> res (list B) :=
  fix go (l : list A) : res (list B) :=
    match l with
    | [] => Ok []
    | x :: r => do y <- f x; do ys <- go r; Ok (y :: ys)
    end.

(** [sep.join(l)] *)
Fixpoint join (sep : string) (l : list string) : string :=
  match l with
  | [] => ""
  | [x] => x
  | x :: r => x ++ sep ++ join sep r
  end.

(** ["".join(l)] *)
Fixpoint sconcat (l : list string) : string :=
  match l with
  | [] => ""
  | x :: r => x ++ sconcat r
  end.

Section Sort.
  Context {A : Type} (lt : A -> A -> bool).
  (** [list.sort()] : a stable sort using only [<]. Python's algorithm is timsort;
      every stable sort agrees with it when [<] is a strict weak order. *)
  Fixpoint insert (x : A) (l : list A) : list A :=
    match l with
    | [] => [x]
    | y :: r => if lt y x then y :: insert x r else x :: l
    end.
  Fixpoint sort (l : list A) : list A :=
    match l with
    | [] => []
    | x :: r => insert x (sort r)
    end.
End Sort.

Section Dedup.
  Context {A : Type} (eqb : A -> A -> bool).
  (** [x in l] *)
  Definition memb (x : A) (l : list A) : bool := existsb (eqb x) l.
  (** Elements kept by [set(l)]: the first of each class of equal elements. *)
  Fixpoint dedup_aux (seen l : list A) : list A :=
    match l with
    | [] => []
    | x :: r => if memb x seen then dedup_aux seen r
                else x :: dedup_aux (x :: seen) r
    end.
  Definition dedup (l : list A) : list A := dedup_aux [] l.
End Dedup.

Definition sumN (l : list N) : N := fold_right N.add 0%N l.
Definition prodN (l : list N) : N := fold_right N.mul 1%N l.
Definition maxl (l : list nat) : nat := fold_right Nat.max 0 l.

(** Comparison of Python [bytes]. *)
Fixpoint bytes_lt (a b : list N) : bool :=
  match a, b with
  | _, [] => false
  | [], _ :: _ => true
  | x :: a', y :: b' => if N.eqb x y then bytes_lt a' b' else N.ltb x y
  end.

Fixpoint bytes_eqb (a b : list N) : bool :=
  match a, b with
  | [], [] => true
  | x :: a', y :: b' => N.eqb x y && bytes_eqb a' b'
  | _, _ => false
  end.

(** [itertools.product] of three lists. *)
Definition product3 {A} (l1 l2 l3 : list A) : list (A * A * A) :=
  flat_map (fun x => flat_map (fun y => map (fun z => (x, y, z)) l3) l2) l1.
