(** What a user expects of transactions which are killed or run at the same time. *)
From Coq Require Import List String Bool Arith.
From Verif Require Import Base Database Git Schedule.
Import ListNotations.

(** The visible files of two folders are the same. *)
Definition same_files (a b : fsys) : Prop := forall p, dotted p = false -> fs_get a p = fs_get b p.
(** Visible files, index and HEAD agree. *)
Definition tidy_folder (r : repo) : Prop :=
  same_files (work r) (index r) /\ same_files (index r) (tree_of r (head r)).
(** HEAD is a commit, and so are the parents of every commit. *)
Definition sound (r : repo) : Prop :=
  head r < List.length (commits r) /\
  forall n c p, nth_error (commits r) n = Some c -> In p (c_parents c) -> p < n.

(** [c] is in the history of [d]. *)
Inductive in_history (r : repo) (c : nat) : nat -> Prop :=
| here : in_history r c c
| before d k p : nth_error (commits r) d = Some k -> In p (c_parents k) -> in_history r c p -> in_history r c d.

(** Nothing of the transaction is left. *)
Definition undone (r r' : repo) : Prop :=
  head r' = head r /\ same_files (work r') (work r) /\
  exists cs, commits r' = (commits r ++ cs)%list.
(** The transaction is the last commit, on top of the one it started from; the files are those its
    body has made. *)
Definition done (r : repo) (final : fsys) (r' : repo) : Prop :=
  exists t, commits r' = (commits r ++ [{| c_tree := t; c_parents := [head r] |}])%list /\
    head r' = List.length (commits r) /\ same_files t final /\ same_files (work r') final.

(** No other user is inside a transaction when one commits. *)
Definition commits_alone (w : world) (e : event) : Prop :=
  match e with
  | Return i => tidy_folder (folder w) \/ forall j, j <> i -> places w j = Outside
  | _ => True
  end.
Fixpoint all_commits_alone (w : world) (es : list event) : Prop :=
  match es with
  | [] => True
  | e :: es => commits_alone w e /\ all_commits_alone (fst (happen w e)) es
  end.
(** Every user who is inside entered at the present HEAD. *)
Definition nobody_late (w : world) : Prop := forall i c, places w i = Inside c -> c = head (folder w).
(** HEAD and the commits at which users entered are commits. *)
Definition inside_sound (w : world) : Prop :=
  sound (folder w) /\ forall i c, places w i = Inside c -> c < List.length (commits (folder w)).
