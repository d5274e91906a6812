(** Model of filename_of and path_of, ieml/ieml_database/ieml_database.py 77-146, and of
    the recognition of descriptor files by [find -path *.desc] (199-200). *)
From Coq Require Import List String Ascii Bool NArith Arith.
From Verif Require Import Base.
Import ListNotations.
Local Open Scope string_scope.

(** 79-86: the classes with a folder, the name of the folder and the size of the prefix. *)
Inductive iclass := CMorpheme | CPolymorpheme | CLexeme | CWord.
Definition class_folder (c : iclass) : string * nat :=
  match c with
  | CMorpheme => ("morpheme", 0)
  | CPolymorpheme => ("polymorpheme", 5)
  | CLexeme => ("lexeme", 8)
  | CWord => ("word", 10)
  end.
(** 88-89 *)
Definition MAX_IEML_NAME_SIZE := 100.
Definition HASH_SIZE := 10.

(** [posixpath.join(a, b)] *)
Fixpoint ends_with_slash (s : string) : bool :=
  match s with
  | EmptyString => false
  | String c EmptyString => Ascii.eqb c "/"
  | String _ r => ends_with_slash r
  end.
Definition os_join (a b : string) : string :=
  match b with
  | String "/" _ => b
  | _ => if (String.eqb a "" || ends_with_slash a)%bool then a ++ b else a ++ "/" ++ b
  end.

Section Path.
  (** [sha224(l.encode('utf8')).hexdigest()] *)
  Variable sha : string -> string.
  (** The class of the expression with this normal form, and [len(ieml) == 1]. *)
  Variable class_of : string -> iclass.
  Variable singular : string -> bool.
  Variable folder : string.

  (** 111-116 *)
  Definition filename_of (l : string) : string :=
    if Nat.ltb MAX_IEML_NAME_SIZE (String.length l)
    then substring 0 (MAX_IEML_NAME_SIZE - HASH_SIZE - 1) l ++ "|" ++ substring 0 HASH_SIZE (sha l)
    else l.

  (** 124-146 on a parsed expression, with normalize=True. [os.path.join] of several
      parts joins them from the left. *)
  Definition db_path (descriptor : bool) (ieml : string) : string :=
    let ext := if descriptor then ".desc" else ".ieml" in
    let (cf, size) := class_folder (class_of ieml) in
    let filename := filename_of ieml in
    let prefix := substring 0 size filename in
    let p := os_join (os_join (os_join folder cf) (if singular ieml then "singular" else "paradigm")) prefix in
    os_join p (filename ++ ext).
End Path.

(** The path ends in ".desc". *)
Fixpoint is_desc_file (p : string) : bool :=
  match p with
  | EmptyString => false
  | String _ r => (String.eqb p ".desc" || is_desc_file r)%bool
  end.
