(** What the descriptor and structure database is meant to be: two lists of records, in
    order of addition. Nothing here knows about files, lines or quoting. *)
From Coq Require Import List String Ascii Bool NArith Arith.
From Verif Require Import Base Database.
Import ListNotations.
Local Open Scope string_scope.

(** ieml, language, descriptor, value *)
Definition drecord := (string * string * string * string)%type.
(** ieml, key, value *)
Definition srecord := (string * string * string)%type.
Definition state := (list drecord * list srecord)%type.

(** An argument left out selects everything. *)
Definition selects (o : option string) (x : string) : bool :=
  match o with None => true | Some y => String.eqb y x end.

Section Spec.
  Variable parse : string -> res string.        (* the normalised expression *)
  Variables langs descs : list string.
  Variable svalue : string -> string -> option string. (* the value kept for a structure key *)
  Variable kept : string -> string.              (* the text kept for a descriptor value *)
  Variable same : string -> string -> bool.      (* [same v x]: removing v removes x *)

  Definition mem (x : string) (l : list string) : bool := existsb (String.eqb x) l.

  Definition selects_value (o : option string) (x : string) : bool :=
    match o with None => true | Some v => same (kept v) x end.

  Definition selects_svalue (k v : option string) (x : string) : bool :=
    match k, v with
    | Some k, Some v => match svalue k v with Some v' => String.eqb v' x | None => false end
    | _, _ => true
    end.

  Definition spec_step (st : state) (o : op) : state :=
    let '(D, T) := st in
    match o with
    | AddDescriptor ieml l d v =>
      match parse ieml with
      | Ok i => if (mem l langs && mem d descs && negb (String.eqb (kept v) ""))%bool
                then ((D ++ [(i, l, d, kept v)])%list, T) else st
      | Err _ => st
      end
    | RemoveDescriptor ieml l d v =>
      match parse ieml with
      | Ok i => (filter (fun r => let '(i', l', d', v') := r in
                  negb (String.eqb i i' && selects l l' && selects d d' && selects_value v v')) D, T)
      | Err _ => st
      end
    | AddStructure ieml k v =>
      match parse ieml, svalue k v with
      | Ok i, Some v' => (D, (T ++ [(i, k, v')])%list)
      | _, _ => st
      end
    | RemoveStructure ieml k v =>
      match parse ieml with
      | Ok i => (D, filter (fun r => let '(i', k', v') := r in
                  negb (String.eqb i i' && selects k k' && selects_svalue k v v')) T)
      | Err _ => st
      end
    end.

  Definition spec_run (st : state) (ops : list op) : state := fold_left spec_step ops st.
End Spec.

(** The values of a key, in order of addition. *)
Definition values_of (D : list drecord) (i l d : string) : list string :=
  map snd (filter (fun r => let '(i', l', d', _) := r in
                            (String.eqb i' i && String.eqb l' l && String.eqb d' d)%bool) D).
Definition svalues_of (T : list srecord) (i k : string) : list string :=
  map snd (filter (fun r => let '(i', k', _) := r in (String.eqb i' i && String.eqb k' k)%bool) T).

(** The value kept for a structure key: an inhibition is one of the inhibitable
    relations; is_root and is_ignored are booleans; other keys are refused. *)
Definition structure_value (relations : list string) (read_bool : string -> option bool)
  (k v : string) : option string :=
  if String.eqb k "inhibition" then if mem v relations then Some v else None
  else if mem k ["is_root"; "is_ignored"]
  then match read_bool v with Some true => Some "True" | Some false => Some "False" | None => None end
  else None.

(** A character occurs in a string. *)
Definition occurs (c : ascii) (s : string) : Prop := In c (list_ascii_of_string s).
(** A value on one line, without quotes. *)
Definition plain (s : string) : Prop := ~ occurs """" s /\ ~ occurs "010" s /\ ~ occurs "013" s.
(** Line breaks kept as the two characters \ and n. *)
Fixpoint one_line (s : string) : string :=
  match s with
  | EmptyString => ""
  | String c r => if Ascii.eqb c "010" then String "\" (String "n" (one_line r)) else String c (one_line r)
  end.
(** [v] is [x], or [x] is [v] followed by a quote and more. *)
Definition same_or_quoted (v x : string) : bool :=
  (String.eqb v x || String.prefix (v ++ """") x)%bool.
(** What the database assumes of the parser and of the layout of the folder: parsing
    yields a normal form, the empty text is no expression, and distinct normal forms and
    kinds of file have distinct paths; the kind can be read from the path. *)
Record folder_ok (parse : string -> res string) (path : bool -> string -> string) (is_desc : string -> bool) : Prop := {
  parse_idem : forall s n, parse s = Ok n -> parse n = Ok n;
  parse_empty : forall n, parse "" <> Ok n;
  path_inj : forall b b' i j, parse i = Ok i -> parse j = Ok j -> path b i = path b' j -> b = b' /\ i = j;
  path_kind : forall b i, parse i = Ok i -> is_desc (path b i) = b }.

(** The structure values and descriptor texts this library keeps. *)
Definition svalue := structure_value INHIBITABLE_RELATIONS json_bool.
Definition kept (v : string) : string := one_line (normalize_value v).

(** The calls considered: the expressions are on one line without quotes, added values
    have no carriage return, a value to remove comes with its complete key. *)
Definition op_ok (parse : string -> res string) (o : op) : Prop :=
  match o with
  | AddDescriptor i l d v => (forall n, parse i = Ok n -> plain n) /\ ~ occurs "013" v
  | RemoveDescriptor i l d v => (forall n, parse i = Ok n -> plain n) /\ (v <> None -> l <> None /\ d <> None)
  | AddStructure i k v => (forall n, parse i = Ok n -> plain n) /\ v <> ""
  | RemoveStructure i k v => (forall n, parse i = Ok n -> plain n) /\ (v <> None -> k <> None /\ v <> Some "")
  end.
