(** Vocabulary of the claims about get_descriptors(files_list) (C93). *)
From Coq Require Import List String Ascii Bool.
From Verif Require Import Base DatabaseSpec.
Import ListNotations.
Local Open Scope string_scope.

(** A name without zero nor backslash which does not begin with a dash. *)
Definition printable (f : string) : Prop := ~ occurs "000" f /\ ~ occurs "\" f /\ forall r, f <> String "-" r.
(** The first character of the name is one of 0 to 7. *)
Definition digit_first (f : string) : Prop := exists c r, f = String c r /\ In c ["0"; "1"; "2"; "3"; "4"; "5"; "6"; "7"]%char.
