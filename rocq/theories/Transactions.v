(** Model of ieml/ieml_database/transactions/DBTransaction.py: set_descriptors and
    set_inhibitions. The expression is given by its normal form; that a script is its own
    factorisation (_check_script, 22) is not modelled. *)
From Coq Require Import List String Ascii Bool NArith Arith.
From Verif Require Import Base Database Git Cache.
Import ListNotations.
Local Open Scope string_scope.

(** [sorted(v)] of strings. *)
Definition sorted_texts (l : list string) : list string := sort string_lt l.
Fixpoint texts_eqb (a b : list string) : bool :=
  match a, b with
  | [], [] => true
  | x :: a, y :: b => (String.eqb x y && texts_eqb a b)%bool
  | _, _ => false
  end.
(** [sorted(new) == sorted(old)] where [old] was read by pandas: sorting texts together with
    missing values is a TypeError, and a missing value is no text. *)
Definition same_sorted (new : list string) (old : list (option string)) : res bool :=
  let texts := flat_map (fun o => match o with Some x => [x] | None => [] end) old in
  let missing := existsb (fun o => match o with None => true | _ => false end) old in
  if missing then match texts with [] => Ok false | _ => Err TypeError end
  else Ok (texts_eqb (sorted_texts new) (sorted_texts texts)).
(** [all(f(x) for x in l)] *)
Fixpoint allM {A} (f : A -> res bool) (l : list A) : res bool :=
  match l with
  | [] => Ok true
  | x :: l => do b <- f x; if b then allM f l else Ok false
  end.

Section Transactions.
  Variable parse_ieml : string -> res string.
  Variable path : bool -> string -> string.
  Variable is_desc : string -> bool.
  Variable fo : fsys -> fsys.

  (** Calls inside [with gitdb.commit(...)]: the first exception ends the body. *)
  Fixpoint body (ops : list op) (fs : fsys) : res unit * fsys :=
    match ops with
    | [] => (Ok tt, fs)
    | o :: ops => match exec parse_ieml path fs o with
                  | Ok fs' => body ops fs'
                  | Err e => (Err e, fs)
                  end
    end.

  (** 298-327: the calls to make, None if nothing changes. [value] gives the texts of each
      language, a language left out having none (_check_descriptors, 38-47). *)
  Definition plan_descriptors (fs : fsys) (ieml descriptor : string) (value : string -> list string)
    : res (option (list op)) :=
    do same <- allM (fun l => do old <- descriptor_values parse_ieml is_desc fo fs ieml l descriptor; same_sorted (value l) old)
                    LANGUAGES;
    if same then Ok None
    else
      do empty <- allM (fun ld => let '(l, d) := ld in
                          if String.eqb d descriptor then Ok (match value l with [] => true | _ => false end)
                          else do old <- descriptor_values parse_ieml is_desc fo fs ieml l d;
                               Ok (match old with [] => true | _ => false end))
                       (list_prod LANGUAGES DESCRIPTORS_CLASS);
      if empty then Ok (Some [RemoveDescriptor ieml None None None])
      else Ok (Some (RemoveDescriptor ieml None (Some descriptor) None ::
                     flat_map (fun l => map (AddDescriptor ieml l descriptor) (value l)) LANGUAGES)).

  (** DBTransaction.py 288-324. All the values are read before the comparisons (299). *)
  Definition set_descriptors (r : repo) (ieml descriptor : string) (value : string -> list string) (a : accident)
    : res bool * repo :=
    match (do _ <- mapM (fun l => descriptor_values parse_ieml is_desc fo (work r) ieml l descriptor) LANGUAGES;
           plan_descriptors (work r) ieml descriptor value) with
    | Err e => (Err e, r)
    | Ok None => (Ok false, r)
    | Ok (Some ops) =>
      let (out, r') := transaction r (body ops) a in
      (match out with Ok _ => Ok true | Err e => Err e end, r')
    end.

  (** 333: [db.get_dictionary().tables.root(ieml) == ieml] *)
  Variable is_root : fsys -> string -> bool.

  (** DBTransaction.py 326-352 *)
  Definition set_inhibitions (r : repo) (ieml : string) (inhibitions : list string) (a : accident) : res unit * repo :=
    if negb (is_root (work r) ieml) then (Err AssertionError, r)
    else if negb (forallb (fun i => inb i INHIBITABLE_RELATIONS) inhibitions) then (Err AssertionError, r)
    else
      match (do rows <- get_structure is_desc fo (work r); structure_get_values rows ieml "inhibition") with
      | Err e => (Err e, r)
      | Ok old =>
        if (forallb (fun e => inb e inhibitions) old && forallb (fun e => inb e old) inhibitions)%bool then (Ok tt, r)
        else
          let to_remove := filter (fun e => negb (inb e inhibitions)) old in
          let to_add := filter (fun e => negb (inb e old)) inhibitions in
          transaction r (body (map (AddStructure ieml "inhibition") to_add ++
                               map (fun e => RemoveStructure ieml (Some "inhibition") (Some e)) to_remove)%list) a
      end.
End Transactions.
