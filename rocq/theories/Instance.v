(** Model of ieml/usl/decoration/instance.py and of DecoratedComponent (ieml/commons.py 211-227):
    the literals that decorations put on the components of a USL. *)
From Coq Require Import List String Bool Arith.
From Verif Require Import Base Script Commons Usl Sfun UslParser Path.
Import ListNotations.
Local Open Scope string_scope.

Section Instance.
  (** The objects of the program that can hold a literal (scripts and USLs). *)
  Variable obj : Type.
  Variable obj_eqb : obj -> obj -> bool.
  (** commons.py 215 [_literal] of each object, and the stack of the one LiteralContext of the
      program (instance.py 9-22). *)
  Record heap := { literal : obj -> option string; stack : list obj }.
  (** commons.py 217-218 *)
  Definition clear_literal (h : heap) (o : obj) : heap :=
    {| literal := fun x => if obj_eqb x o then None else literal h x; stack := stack h |}.
  (** commons.py 220-224, instance.py 21-22 *)
  Definition set_literal (o : obj) (v : string) (h : heap) : heap :=
    {| literal := fun x => if obj_eqb x o then Some v else literal h x; stack := stack h ++ [o] |}.
  (** instance.py 13-14 *)
  Definition enter (h : heap) : heap := {| literal := literal h; stack := [] |}.
  (** instance.py 16-19 *)
  Definition leave (h : heap) : heap := {| literal := literal (fold_left clear_literal (stack h) h); stack := [] |}.
  (** Computations with a heap and exceptions; [with literal_context():], which lets the
      exception out. *)
  Definition prog (A : Type) := heap -> heap * res A.
  Definition ret {A} (a : A) : prog A := fun h => (h, Ok a).
  Definition raise {A} (e : exn) : prog A := fun h => (h, Err e).
  Definition andthen {A B} (m : prog A) (f : A -> prog B) : prog B :=
    fun h => match m h with (h', Ok a) => f a h' | (h', Err e) => (h', Err e) end.
  Definition in_context {A} (m : prog A) : prog A := fun h => let (h', r) := m (enter h) in (leave h', r).

  (** The identity of the object given by deference of a path in a USL, and that of the n-th
      object listed by its iter_structure_path. Nothing is assumed of them: different paths
      may give the same object (scripts are shared through the cache of their parser). *)
  Record world := { target : path -> obj; element : nat -> obj }.

  Definition decoration := (path * string)%type.
  (** instance.py 34-36; a path to a missing lexeme gives None, without literal *)
  Definition apply (w : world) (u : usl) (d : decoration) : prog unit := fun h =>
    match deref (fst d) (Some u) with
    | Ok (Some _) => (set_literal (target w (fst d)) (snd d) h, Ok tt)
    | Ok None => (h, Err AttributeError)
    | Err e => (h, Err e)
    end.
  (** instance.py 60-67; [None] is an argument that is not a Decoration. The result is
      [self.flexion]. *)
  Definition flexion_first (d : decoration) : bool := match fst d with PFlex _ _ => true | _ => false end.
  Fixpoint apply_all (w : world) (u : usl) (flexion : bool) (ds : list (option decoration)) : prog bool :=
    match ds with
    | [] => ret flexion
    | None :: _ => raise ValueError
    | Some d :: ds => andthen (apply w u d) (fun _ => apply_all w u (flexion_first d || flexion) ds)
    end.
  Definition numbered {A} (l : list A) : list (nat * A) := combine (seq 0 (List.length l)) l.
  (** 73-77. polymorpheme.py 190-193: with flexion the listing of a polymorpheme begins with
      the path [FlexionPath(None)], refused by an assertion. *)
  Definition list_decorations (w : world) (u : usl) (flexion : bool) (h : heap) : res (list decoration) :=
    match u, flexion with
    | UPm _, true => Err AssertionError
    | _, _ =>
      do items <- iter_path u;
      Ok (flat_map (fun e => match literal h (element w (fst e)) with Some v => [(snd e, v)] | None => [] end) (numbered (map fst items)))
    end.
  (** 79: [sorted]. The order of paths is not modelled (their comparison may raise TypeError):
      any function of the list. *)
  Variable sorted : list decoration -> res (list decoration).
  Record instance := { i_usl : usl; i_flexion : bool; i_decorations : list decoration }.
  (** 51-69 *)
  Definition instanced (w : world) (u : usl) (ds : list (option decoration)) : prog instance :=
    in_context (andthen (apply_all w u false ds) (fun flexion h =>
      match (do l <- list_decorations w u flexion h; sorted l) with
      | Ok l => (h, Ok {| i_usl := u; i_flexion := flexion; i_decorations := l |})
      | Err e => (h, Err e)
      end)).
  (** 105-120. path.py 123-128: [contained] catches DeferenceError, a KeyError. *)
  Definition contained (d : decoration) (u : usl) : res bool :=
    match deref (fst d) (Some u) with Ok _ => Ok true | Err KeyError => Ok false | Err e => Err e end.
  Fixpoint contained_in (ds : list decoration) (u : usl) : res (list decoration) :=
    match ds with
    | [] => Ok []
    | d :: ds => do b <- contained d u; do r <- contained_in ds u; Ok (if b then d :: r else r)
    end.
  Definition usl_ss (so : list script -> list script) (u : usl) : res (list usl) :=
    match u with
    | UScript _ => Err AttributeError
    | UPm p => Ok (map UPm (pm_ss so p))
    | ULexeme l => Ok (map ULexeme (lexeme_ss so l))
    | UWord x => do l <- word_ss so x; Ok (map UWord l)
    end.
  Definition one_ss (w : world) (ds : list decoration) (u : usl) : prog (usl + instance) :=
    in_context (fun h =>
      match contained_in ds u with
      | Ok [] => (h, Ok (inl u))
      | Ok dec => andthen (instanced w u (map Some dec)) (fun i => ret (inr i)) h
      | Err e => (h, Err e)
      end).
  (** [ws]: the identities in each singular sequence. *)
  Fixpoint all_ss (ws : nat -> world) (ds : list decoration) (n : nat) (us : list usl) : prog (list (usl + instance)) :=
    match us with
    | [] => ret []
    | u :: us => andthen (one_ss (ws n) ds u) (fun x => andthen (all_ss ws ds (S n) us) (fun l => ret (x :: l)))
    end.
  Definition instanced_ss (so : list script -> list script) (ws : nat -> world) (i : instance) : prog (list (usl + instance)) :=
    match usl_ss so (i_usl i) with Ok us => all_ss ws (i_decorations i) 0 us | Err e => raise e end.
  (** 82-83 *)
  Definition from_usl (w : world) (u : usl) : prog instance := fun h =>
    match (do l <- list_decorations w u false h; sorted l) with
    | Ok l => instanced w u (map Some l) h
    | Err e => (h, Err e)
    end.

  (** The steps of the constructor on the shared objects, for interleavings of threads. *)
  Inductive op := Enter | Set_ (o : obj) (v : string) | Leave.
  Definition step (h : heap) (x : op) : heap :=
    match x with Enter => enter h | Set_ o v => set_literal o v h | Leave => leave h end.
  Definition run (h : heap) (l : list op) : heap := fold_left step l h.
  (** The literals set before the first exception. *)
  Fixpoint sets (w : world) (u : usl) (ds : list (option decoration)) : list op :=
    match ds with
    | Some d :: ds => match deref (fst d) (Some u) with Ok (Some _) => Set_ (target w (fst d)) (snd d) :: sets w u ds | _ => [] end
    | _ => []
    end.
  Definition ops (w : world) (u : usl) (ds : list (option decoration)) : list op := Enter :: sets w u ds ++ [Leave].
End Instance.
