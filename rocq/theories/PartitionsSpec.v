(** Specification used by Properties30: the parts of a USL that vary and their selections. *)
From Coq Require Import List String Bool Arith NArith.
From Verif Require Import Base Script Usl Sfun UslParser Path PathSpec Instance.
Import ListNotations.

(** A part is named by the texts of the components of its path. *)
Definition texts (p : path) : list string := map path_str (steps p).
Definition is_prefix (a b : list string) : Prop := exists c, b = (a ++ c)%list.
Definition same_set {A} (a b : list A) : Prop := forall x, In x a <-> In x b.

Section Varies.
  Variable so : list script -> list script.
  (** [n] is the number of singular sequences of [x]. *)
  Definition counts (x : usl) (n : nat) : Prop :=
    match x with
    | UScript s => N.to_nat (cardinal s) = n
    | _ => exists l, usl_ss so x = Ok l /\ List.length l = n
    end.
  (** The path [p] is listed and its element has not exactly one singular sequence. *)
  Definition varies (u : usl) (p : path) : Prop :=
    exists l e x n, iter_path u = Ok l /\ In (p, e) l /\ deref p (Some u) = Ok (Some x) /\ counts x n /\ n <> 1.
  (** The parts: the beginnings of these paths. *)
  Definition part (u : usl) (a : list string) : Prop := a <> [] /\ exists p, varies u p /\ is_prefix a (texts p).
  (** Sets of parts none of which is in another. *)
  Definition selection (u : usl) (l : list (list string)) : Prop :=
    NoDup l /\ (forall a, In a l -> part u a) /\ (forall a b, In a l -> In b l -> is_prefix a b -> a = b).
  (** Parts with no other part in them. *)
  Definition smallest (u : usl) (a : list string) : Prop := part u a /\ forall b, part u b -> is_prefix a b -> b = a.
End Varies.
(** What the name of the function promises: no dimension of variation is left out, each is in one path only. *)
Definition partition (so : list script -> list script) (u : usl) (l : list (list string)) : Prop :=
  forall a, smallest so u a -> exists b, In b l /\ is_prefix b a /\ forall c, In c l -> is_prefix c a -> c = b.
