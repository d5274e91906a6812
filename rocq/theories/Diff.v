(** Model of GitInterface.diff, ieml/ieml_database/git_interface.py 401-429. What libgit2 answers
    is described by relations: the lines of a patch are an alignment of the lines of the two
    versions, any one, cut in hunks, any ones. Renames are not looked for. *)
From Coq Require Import List String Ascii Bool NArith Arith.
From Verif Require Import Base Database Git.
Import ListNotations.
Local Open Scope string_scope.

(** ** What libgit2 answers *)
(** The lines of a file, each with its line feed; the last may have none. *)
Fixpoint git_lines_aux (cur : string) (s : string) : list string :=
  match s with
  | EmptyString => if String.eqb cur "" then [] else [cur]
  | String c r => if Ascii.eqb c "010" then (cur ++ nl) :: git_lines_aux "" r else git_lines_aux (cur ++ String c "") r
  end.
Definition git_lines (s : string) : list string := git_lines_aux "" s.
(** A line of a patch: in both versions, in the new one only, in the old one only. *)
Inductive edit := Keep (l : string) | Add (l : string) | Del (l : string).
Definition old_side (s : list edit) : list string :=
  List.concat (map (fun e => match e with Keep l | Del l => [l] | Add _ => [] end) s).
Definition new_side (s : list edit) : list string :=
  List.concat (map (fun e => match e with Keep l | Add l => [l] | Del _ => [] end) s).
Definition kept_line (e : edit) : Prop := match e with Keep _ => True | _ => False end.
(** The hunks [hs] of the alignment [s]: outside of them nothing changes. *)
Inductive cut : list edit -> list (list edit) -> Prop :=
| cut_nil s : Forall kept_line s -> cut s []
| cut_cons k h s hs : Forall kept_line k -> ~ Forall kept_line h -> cut s hs -> cut (k ++ h ++ s)%list (h :: hs).
Definition text (o : option string) : string := match o with Some c => c | None => "" end.
(** The hunks of a patch between two versions, None an absent file. *)
Definition hunks_between (o n : option string) (hs : list (list edit)) : Prop :=
  exists s, old_side s = git_lines (text o) /\ new_side s = git_lines (text n) /\ cut s hs.
(** A file with a zero among its first bytes is binary: its patches have no hunk. *)
Definition binary (o : option string) : bool :=
  existsb (Ascii.eqb "000") (firstn (80 * 100) (list_ascii_of_string (text o))).

(** A line as read from pygit2: whether [old_lineno] and [new_lineno] are not -1, and the content.
    A last line without line feed is followed by a line that says so, with the same numbers. *)
Record pline := { in_old : bool; in_new : bool; l_content : string }.
Definition no_newline : string := nl ++ "\ No newline at end of file" ++ nl.
Fixpoint ends_line (s : string) : bool :=
  match s with
  | EmptyString => false
  | String c EmptyString => Ascii.eqb c "010"
  | String _ r => ends_line r
  end.
Definition plines (e : edit) : list pline :=
  let line o n l :=
    {| in_old := o; in_new := n; l_content := l |} ::
    (if ends_line l then [] else [{| in_old := o; in_new := n; l_content := no_newline |}]) in
  match e with Keep l => line true true l | Add l => line false true l | Del l => line true false l end.

(** ** The method *)
(** [s.split] at the double quotes *)
Fixpoint split_quote (cur s : string) : list string :=
  match s with
  | EmptyString => [cur]
  | String c r => if Ascii.eqb c """" then cur :: split_quote "" r else split_quote (cur ++ String c "") r
  end.
Record diff_entry := { e_ieml : string; e_added : list string; e_deleted : list string; e_new : bool; e_removed : bool }.

Section Diff.
  (** The hunks chosen by libgit2, and the order of the patches. *)
  Variable hunks_of : option string -> option string -> list (list edit).
  Variable order : list string -> list string.

  (** 407-427: the entry of a patch; None when no line was seen. *)
  Definition patch_entry (o n : option string) : res (option diff_entry) :=
    let ls := List.concat (map plines (List.concat (if (binary o || binary n)%bool then [] else hunks_of o n))) in
    let deleted := map l_content (filter (fun l => negb (in_new l)) ls) in
    let added := map l_content (filter (fun l => (in_new l && negb (in_old l))%bool) ls) in
    match rev ls with
    | [] => Ok None
    | l :: _ =>
      match nth_error (split_quote "" (l_content l)) 1 with
      | None => Err IndexError
      | Some i => Ok (Some {| e_ieml := i; e_added := added; e_deleted := deleted;
                              e_new := match o with None => true | _ => false end;
                              e_removed := match n with None => true | _ => false end |})
      end
    end.
  (** [repo.diff(t0, t1)]: a patch for each path whose content changed. *)
  Definition changed_paths (a b : fsys) : list string :=
    order (filter (fun p => negb (opt_eqb (fs_get a p) (fs_get b p))) (dedup String.eqb (map fst a ++ map fst b)%list)).
  Definition diff_trees (a b : fsys) : res (list (string * diff_entry)) :=
    do l <- mapM (fun p => do e <- patch_entry (fs_get a p) (fs_get b p);
                           Ok match e with Some e => [(p, e)] | None => [] end) (changed_paths a b);
    Ok (List.concat l).
  (** 401-429. [revparse_single] raises KeyError for an unknown commit. *)
  Definition diff (r : repo) (c0 c1 : nat) : res (list (string * diff_entry)) :=
    match nth_error (commits r) c0, nth_error (commits r) c1 with
    | Some a, Some b => diff_trees (c_tree a) (c_tree b)
    | _, _ => Err KeyError
    end.
End Diff.
