(** Model of ieml/ieml_database/git_interface.py: status, reset, checkout, transactions and
    pull, on an abstract repository. What pygit2 does is described at the level of whole
    files: a tree, the index and the working directory map paths to contents. File modes,
    renames (pull refuses them), ignore rules and the network are not modelled. *)
From Coq Require Import List String Ascii Bool NArith Arith.
From Verif Require Import Base Database.
Import ListNotations.
Local Open Scope string_scope.

Record commit := { c_tree : fsys; c_parents : list nat }.
(** A commit id is a position in [commits]; HEAD is the tip of the current branch. *)
Record repo := { commits : list commit; head : nat; index : fsys; work : fsys }.

Definition tree_of (r : repo) (c : nat) : fsys :=
  match nth_error (commits r) c with Some c => c_tree c | None => [] end.

Definition opt_eqb (a b : option string) : bool :=
  match a, b with
  | Some x, Some y => String.eqb x y
  | None, None => true
  | _, _ => false
  end.

(** The flags of a path in [repo.status()]: new, deleted or modified in the working
    directory with respect to the index, or staged (the index differs from HEAD). *)
Inductive flag := WtNew | WtDeleted | WtModified | IndexChanged.
Definition wt_flag (r : repo) (p : string) : option flag :=
  match fs_get (work r) p, fs_get (index r) p with
  | Some _, None => Some WtNew
  | None, Some _ => Some WtDeleted
  | Some a, Some b => if String.eqb a b then None else Some WtModified
  | None, None => None
  end.
Definition staged (r : repo) (p : string) : bool :=
  negb (opt_eqb (fs_get (index r) p) (fs_get (tree_of r (head r)) p)).

(** Paths that start with a dot, git_interface.py 145. *)
Definition dotted (p : string) : bool := String.prefix "." p.

Definition all_paths (r : repo) : list string :=
  dedup String.eqb (map fst (work r) ++ map fst (index r) ++ map fst (tree_of r (head r)))%list.

(** git_interface.py 141-147: the changed paths, without those starting with a dot. The
    second component is the working directory flag. *)
Definition status (r : repo) : list (string * option flag) :=
  map (fun p => (p, wt_flag r p))
      (filter (fun p => (negb (dotted p) && (match wt_flag r p with Some _ => true | None => false end || staged r p))%bool)
              (all_paths r)).

(** [repo.reset(commit_id, GIT_RESET_HARD)]: the index becomes the tree; files of the tree
    get its content, tracked files that are not in the tree are removed, the others stay. *)
Definition hard_reset (r : repo) (c : nat) : repo :=
  let t := tree_of r c in
  let untracked := filter (fun f => match fs_get t (fst f), fs_get (index r) (fst f) with None, None => true | _, _ => false end)
                          (work r) in
  {| commits := commits r; head := c; index := t; work := (t ++ untracked)%list |}.

(** git_interface.py 149-166. *)
Definition reset (r : repo) (c : nat) : repo :=
  let r1 := hard_reset r c in
  fold_left (fun r' f => match snd f with
                         | Some WtNew => {| commits := commits r'; head := head r'; index := index r';
                                            work := fs_del (work r') (fst f) |}
                         | _ => r'
                         end) (status r1) r1.

(** git_interface.py 71-79: [index.add] copies the file, [index.remove] forgets it. *)
Definition stage (r : repo) (ix : fsys) (f : string * option flag) : fsys :=
  match snd f with
  | Some WtNew | Some WtModified =>
    match fs_get (work r) (fst f) with Some c => fs_set ix (fst f) c | None => ix end
  | Some WtDeleted => fs_del ix (fst f)
  | _ => ix
  end.

(** What happens while a transaction commits: nothing special, or an exception after [n]
    files have been staged. *)
Inductive accident := NoAccident | FailsAfter (n : nat).

(** git_interface.py 62-96, the body having returned. *)
Definition exit_ok (r : repo) (commit_id : nat) (a : accident) : res unit * repo :=
  let st := status r in
  match st with
  | [] => (Ok tt, r)
  | _ =>
    match a with
    | NoAccident =>
      let ix := fold_left (stage r) st (index r) in
      (Ok tt, {| commits := (commits r ++ [{| c_tree := ix; c_parents := [commit_id] |}])%list;
                 head := List.length (commits r); index := ix; work := work r |})
    | FailsAfter n =>
      let ix := fold_left (stage r) (firstn n st) (index r) in
      (Err ValueError, reset {| commits := commits r; head := head r; index := ix; work := work r |} commit_id)
    end
  end.

(** [with db.commit(...): body] where the body reads and writes files of the working
    directory, and returns or raises: git_interface.py 53-103. *)
Definition transaction (r : repo) (body : fsys -> res unit * fsys) (a : accident) : res unit * repo :=
  match status r with
  | _ :: _ => (Err ValueError, r)
  | [] =>
    let commit_id := head r in
    let (out, w) := body (work r) in
    let r1 := {| commits := commits r; head := head r; index := index r; work := w |} in
    match out with
    | Ok _ => exit_ok r1 commit_id a
    | Err e => (Err e, reset r1 commit_id)
    end
  end.
