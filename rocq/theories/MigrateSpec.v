(** What the scripts that rename the entries of a database are run on. *)
From Coq Require Import List String Ascii Bool NArith Arith.
From Verif Require Import Base Database DatabaseSpec Paradigms.
Import ListNotations.
Local Open Scope string_scope.

(** A writer that keeps the texts as they are: an earlier version of the library, or a hand. *)
Definition verbatim (parse : string -> res string) (texts : list string) (s : string) : res string :=
  if mem s texts then (do _ <- parse s; Ok s) else Err CannotParse.
(** The records of a folder written so. *)
Definition records (parse : string -> res string) (texts : list string) (ops : list op) : state :=
  spec_run (verbatim parse texts) LANGUAGES DESCRIPTORS_CLASS svalue kept same_or_quoted ([], []) ops.

(** The texts considered can be parsed, are without quotes and surrounding blanks, and come with their
    normal forms, which are parsed as themselves, and with those of their new texts; their files are distinct. *)
Record renaming (parse : string -> res string) (path : bool -> string -> string) (is_desc : string -> bool)
  (new_text : string -> res string) (texts : list string) : Prop := {
  rn_folder : folder_ok (verbatim parse texts) path is_desc;
  rn_idem : forall s n, parse s = Ok n -> In n texts -> parse n = Ok n;
  rn_texts : forall s, In s texts -> plain s /\ strip byte_space s = s /\ exists n, parse s = Ok n /\ In n texts;
  rn_new : forall s, In s texts -> new_text s = Err CannotParse \/
           exists n m, new_text s = Ok n /\ n <> "" /\ parse n = Ok m /\ In m texts }.

(** The expression has a descriptor. *)
Definition described (D : list drecord) (i : string) : Prop := exists l d v, In (i, l, d, v) D.
(** No value is a text that pandas reads as missing. *)
Definition readable_values (D : list drecord) : Prop := forall i l d v, In (i, l, d, v) D -> ~ In v NA_VALUES.
(** [i] is the normal form of the text. *)
Definition is_form (parse : string -> res string) (i t : string) : bool :=
  match parse t with Ok n => String.eqb n i | Err _ => false end.
(** [i] is the normal form of the new text. *)
Definition goes_to (parse new_text : string -> res string) (i t : string) : bool :=
  match new_text t with Ok n => is_form parse i n | Err _ => false end.
