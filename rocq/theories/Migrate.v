(** Model of the scripts that rename entries of the database: scripts/database_management/normalize_database.py 37-107
    (rewrite_words.py 67-141 and remove_usl.py 105-119 have the same loops) and scripts/factorize_db.py 28-54.
    Definitions only. The clone, the commit and the printed lines are left out: an exception inside the commit
    brings the folder back to what it was (Git.v). *)
From Coq Require Import List String Ascii Bool NArith Arith.
From Verif Require Import Base Script Dictionary Database Pull Paradigms Usl Sfun UslParser Listing Query Simplify.
Import ListNotations.
Local Open Scope string_scope.

(** [for x in l: ...] where the body may raise. *)
Fixpoint each {A} (f : fsys -> A -> res fsys) (fs : fsys) (l : list A) : res fsys :=
  match l with
  | [] => Ok fs
  | x :: l => do fs' <- f fs x; each f fs' l
  end.

(** [str(_s)], the text under which normalize_database.py 50-64 wants an entry: that of the parsed expression,
    simplified if it is a word that can be. [decorated] is the text of an instanced USL, which is no Word. *)
Definition wanted_text (parse_usl : string -> res (usl * list (string * string)))
  (decorated : usl -> list (string * string) -> res string) (s : string) : res string :=
  do x <- parse_usl s;
  match x with
  | (UWord w, []) => match simplify_word w with Ok w' => Ok (w_str w') | Err _ => Ok (w_str w) end
  | (u, []) => Ok (usl_str u)
  | (u, ds) => decorated u ds
  end.
(** [str(parser.parse(s))] *)
Definition usl_text (parse_usl : string -> res (usl * list (string * string)))
  (decorated : usl -> list (string * string) -> res string) (s : string) : res string :=
  do x <- parse_usl s;
  match x with
  | (u, []) => Ok (usl_str u)
  | (u, ds) => decorated u ds
  end.

Section Migrate.
  (** [str(IEMLParser().parse(s))] *)
  Variable parse_ieml : string -> res string.
  (** The path of the file of a text: the class and the number are those of the parsed expression, the
      name is the text (ieml_database.py 118-146). *)
  Variable path : bool -> string -> string.
  Variable is_desc : string -> bool.
  Variable fo : fsys -> fsys.
  (** The text under which the script wants the entry, such as [wanted_text]. *)
  Variable new_text : string -> res string.

  (** ieml_database.py 118-146 with its argument [normalize]: the name of the file is that of the normal
      form, or the text given. *)
  Definition path_of_text (normalize descriptor : bool) (ieml : string) : res string :=
    do n <- parse_ieml ieml; Ok (path descriptor (if normalize then n else ieml)).

  (** ieml_database.py 277-289, [remove_descriptor(ieml, normalize=normalize)]. *)
  Definition remove_descriptors (normalize : bool) (fs : fsys) (ieml : string) : res fsys :=
    do k <- normalize_key parse_ieml true ieml None None true false;
    do p <- path_of_text normalize true (fst (fst k));
    match fs_get fs p with
    | None => Ok fs
    | Some _ => Ok (fs_del fs p)
    end.
  (** ieml_database.py 316-326, [remove_structure(ieml, normalize=normalize)]. *)
  Definition remove_structures (normalize : bool) (fs : fsys) (ieml : string) : res fsys :=
    do k <- normalize_key parse_ieml true ieml None None true true;
    do p <- path_of_text normalize false (fst (fst k));
    match fs_get fs p with
    | None => Ok fs
    | Some _ => Ok (fs_del fs p)
    end.

  (** normalize_database.py 97-99 *)
  Definition copy_structure (srows : list (string * string * string)) (old new : string) (fs : fsys) : res fsys :=
    do items <- structure_values_partial parse_ieml srows (Some old) None;
    each (fun fs e => each (fun fs v => add_structure parse_ieml path fs new (snd (fst e)) (Some v)) fs (snd e)) fs items.
  (** normalize_database.py 101-103. A missing value is no str: ieml_database.py 36-38. *)
  Definition copy_value (new : string) (e : dkey) (fs : fsys) (v : option string) : res fsys :=
    match v with
    | Some v => add_descriptor parse_ieml path fs new (snd (fst e)) (snd e) v
    | None => do _ <- normalize_key parse_ieml true new (Some (snd (fst e))) (Some (snd e)) false false; Err ValueError
    end.
  Definition copy_descriptors (rows : list (string * string * string * string)) (old new : string) (fs : fsys) : res fsys :=
    do items <- get_values_partial parse_ieml rows (Some old) None None;
    each (fun fs e => each (copy_value new (fst e)) fs (snd e)) fs items.
  Definition copy_entry (srows : list (string * string * string)) (rows : list (string * string * string * string))
    (fs : fsys) (m : string * string) : res fsys :=
    do fs <- copy_structure srows (fst m) (snd m) fs; copy_descriptors rows (fst m) (snd m) fs.
  Definition remove_entry (normalize : bool) (fs : fsys) (old : string) : res fsys :=
    do fs <- remove_structures normalize fs old; remove_descriptors normalize fs old.

  (** normalize_database.py 93-107: the rows were read before. *)
  Definition migrate (srows : list (string * string * string)) (rows : list (string * string * string * string))
    (to_migrate : list (string * string)) (fs : fsys) : res fsys :=
    do fs <- each (copy_entry srows rows) fs to_migrate;
    each (remove_entry false) fs (map fst to_migrate).

  (** normalize_database.py 46-70: the entries whose text is not the one wanted. [to_migrate] is a dict. *)
  Fixpoint to_migrate (all_db : list string) (acc : list (string * string)) : res (list (string * string)) :=
    match all_db with
    | [] => Ok acc
    | s :: l =>
      match new_text s with
      | Err CannotParse => to_migrate l acc
      | Err e => Err e
      | Ok n => if (String.eqb n s || inb s (map fst acc))%bool then to_migrate l acc
                else to_migrate l (acc ++ [(s, n)])%list
      end
    end.

  (** ieml_database.py 149-163 without a type, in the folder of the database. *)
  Definition all_texts (fs : fsys) : list string :=
    listing (sconcat (map snd (fo (filter (fun f => is_desc (fst f)) fs)))).

  (** normalize_database.py 37-107 *)
  Definition normalize_database (fs : fsys) : res fsys :=
    do rows <- get_descriptors is_desc fo fs;
    do srows <- get_structure is_desc fo fs;
    do ms <- to_migrate (all_texts fs) [];
    migrate srows rows ms fs.

  (** factorize_db.py 44-54: the entry is removed, then written under its new text. *)
  Definition move_entry (srows : list (string * string * string)) (rows : list (string * string * string * string))
    (fs : fsys) (m : string * string) : res fsys :=
    do fs <- remove_entry true fs (fst m); copy_entry srows rows fs m.
  (** factorize_db.py 28-54. [scripts] are those of the dictionary that the user agrees to move, each with
      its factorized form. *)
  Definition factorize_database (scripts : list (string * string)) (fs : fsys) : res fsys :=
    do rows <- get_descriptors is_desc fo fs;
    do srows <- get_structure is_desc fo fs;
    each (move_entry srows rows) fs scripts.
End Migrate.
