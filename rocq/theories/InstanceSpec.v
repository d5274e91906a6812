(** What the properties of instanced USLs say, without the program that computes them. *)
From Coq Require Import List String Bool Arith.
From Verif Require Import Base Script Usl Sfun UslParser Path Instance.
Import ListNotations.
Local Open Scope string_scope.

Section Spec.
  Context {obj : Type}.
  (** The decoration [d] finds a component in [u]. *)
  Definition finds (u : usl) (d : decoration) : Prop := exists x, deref (fst d) (Some u) = Ok (Some x).
  Definition found (u : usl) (d : decoration) : bool := match deref (fst d) (Some u) with Ok (Some _) => true | _ => false end.
  (** [d] is put on its component by the construction: it and those before it find one. *)
  Definition put (u : usl) (ds : list (option decoration)) (d : decoration) : Prop :=
    exists before after, ds = (map Some before ++ Some d :: after)%list /\ Forall (finds u) (before ++ [d]).
  (** After: the objects that received a literal have none, the others have theirs. *)
  Definition cleaned (w : world obj) (u : usl) (ds : list (option decoration)) (h h' : heap obj) : Prop :=
    forall o,
      ((exists d, put u ds d /\ target _ w (fst d) = o) -> literal _ h' o = None) /\
      (~ (exists d, put u ds d /\ target _ w (fst d) = o) -> literal _ h' o = literal _ h o).
  (** No object has a literal it had not. *)
  Definition none_new (h h' : heap obj) : Prop := forall o v, literal _ h' o = Some v -> literal _ h o = Some v.
  (** [v] is the literal of [o] when the decorations [ds] are put in this order: the value of the
      last decoration of this object, or the literal the object had. *)
  Definition value_at (w : world obj) (ds : list decoration) (h : heap obj) (o : obj) (v : string) : Prop :=
    (exists before p after, ds = (before ++ (p, v) :: after)%list /\ target _ w p = o /\
       Forall (fun d => target _ w (fst d) <> o) after) \/
    (Forall (fun d => target _ w (fst d) <> o) ds /\ literal _ h o = Some v).
  (** What a program does with instanced USLs, one thing after the other. *)
  Inductive activity (eqb : obj -> obj -> bool) : heap obj -> heap obj -> Prop :=
  | nothing h : activity eqb h h
  | construct sorted w u ds h h' r : instanced obj eqb sorted w u ds h = (h', r) -> activity eqb h h'
  | singular sorted so ws i h h' r : instanced_ss obj eqb sorted so ws i h = (h', r) -> activity eqb h h'
  | of_usl sorted w u h h' r : from_usl obj eqb sorted w u h = (h', r) -> activity eqb h h'
  | after h1 h2 h3 : activity eqb h1 h2 -> activity eqb h2 h3 -> activity eqb h1 h3.
  (** The steps of two threads. *)
  Inductive interleaved : list (op obj) -> list (op obj) -> list (op obj) -> Prop :=
  | i_nil : interleaved [] [] []
  | i_left x l r s : interleaved l r s -> interleaved (x :: l) r (x :: s)
  | i_right x l r s : interleaved l r s -> interleaved l (x :: r) (x :: s).
End Spec.

(** The objects of a USL read by the parser, when no other object was made: one for each role and
    part of a lexeme, one for each script whatever its places (script/parser/parser.py keeps
    the scripts it has read), and new polymorphemes at each deference and each listing
    of a path to a constant or a group (path.py 241-259, polymorpheme.py 187-205); those of a
    flexion have the path of the flexion itself, listed before them. *)
Fixpoint unfocused (p : path) : path :=
  match p with
  | PUsl c => PUsl (option_map unfocused c)
  | PRole r _ c => PRole r false (option_map unfocused c)
  | PLex i c => PLex i (option_map unfocused c)
  | PFlex m c => PFlex m (option_map unfocused c)
  | PPoly g m k c => PPoly g m k (option_map unfocused c)
  end.
Definition identity (p : path) : string :=
  match tail p with
  | PPoly _ (Some m) _ _ | PFlex m _ => "script " ++ str m
  | PPoly _ None _ _ => "deference of " ++ path_str p
  | _ => "at " ++ path_str (unfocused p)
  end.
Definition made_by_listing (before : list path) (p : path) : bool :=
  match tail p with
  | PPoly _ (Some _) _ _ | PFlex _ _ => false
  | PPoly _ None _ _ => true
  | _ => existsb (path_eqb p) before
  end.
Definition listed_identity (l : list path) (n : nat) : string :=
  match nth_error l n with
  | Some p => if made_by_listing (firstn n l) p then "listing " ++ int_str n else identity p
  | None => "listing " ++ int_str n
  end.
Definition parsed (u : usl) : world string :=
  {| target := identity; element := listed_identity (match iter_path u with Ok l => map fst l | Err _ => [] end) |}.

(** The singular sequences of the USL without decorations. *)
Definition variants (so : list script -> list script) (u : usl) (us : list usl) : Prop :=
  match u with
  | UScript _ => False
  | UPm p => us = map UPm (pm_ss so p)
  | ULexeme l => us = map ULexeme (lexeme_ss so l)
  | UWord w => exists ws, word_ss so w = Ok ws /\ us = map UWord ws
  end.
