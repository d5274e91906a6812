(** Vocabulary of the claims about GitInterface.diff (C88). *)
From Coq Require Import List String Ascii Bool.
From Verif Require Import Base Database DatabaseSpec.
Import ListNotations.
Local Open Scope string_scope.

(** [l] is made of the elements of [a] and of those of [b], each in its order. *)
Inductive shuffle {A} : list A -> list A -> list A -> Prop :=
| sh_nil : shuffle [] [] []
| sh_left x a b l : shuffle a b l -> shuffle (x :: a) b (x :: l)
| sh_right x a b l : shuffle a b l -> shuffle a (x :: b) (x :: l).
(** From the list [old], taking [deleted] away and putting [added] in, one gets [new]. *)
Definition turns {A} (old deleted added new : list A) : Prop :=
  exists same, shuffle deleted same old /\ shuffle added same new.
(** [ls] are the lines of the file [c]. *)
Definition lines_of (c : string) (ls : list string) : Prop :=
  c = sconcat ls /\ Forall (fun l => exists b, l = b ++ nl /\ ~ occurs "010" b) ls.
(** The text of a file, or nothing. *)
Definition text_at (fs : fsys) (p : string) : string := match fs_get fs p with Some c => c | None => "" end.
(** A file of text: without zeros. *)
Definition textual (fs : fsys) (p : string) : Prop := ~ occurs "000" (text_at fs p).
(** The records about an expression. *)
Definition about (i : string) (D : list drecord) : list drecord := filter (fun r => let '(i', _, _, _) := r in String.eqb i i') D.
Definition sabout (i : string) (T : list srecord) : list srecord := filter (fun r => let '(i', _, _) := r in String.eqb i i') T.
Definition fields (r : drecord) : list string := let '(i, l, d, v) := r in [i; l; d; v].
Definition sfields (r : srecord) : list string := let '(i, k, v) := r in [i; k; v].
(** The records kept after a history of calls (C40). *)
Definition records (parse : string -> res string) (ops : list op) : state :=
  spec_run parse LANGUAGES DESCRIPTORS_CLASS svalue kept same_or_quoted ([], []) ops.
