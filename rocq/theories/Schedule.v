(** Model of transactions (ieml/ieml_database/git_interface.py 43-103, 141-181) whose process can
    be killed at any moment, and of several transactions on one folder at the same time. *)
From Coq Require Import List String Ascii Bool NArith Arith.
From Verif Require Import Base Database Git.
Import ListNotations.
Local Open Scope string_scope.

Definition with_work (r : repo) (w : fsys) : repo :=
  {| commits := commits r; head := head r; index := index r; work := w |}.
Definition with_index (r : repo) (ix : fsys) : repo :=
  {| commits := commits r; head := head r; index := ix; work := work r |}.

(** git_interface.py 71-79: the index with every changed file staged. *)
Definition staged_index (r : repo) : fsys := fold_left (stage r) (status r) (index r).

(** git_interface.py 87-92, the objects of the commit being written but HEAD not moved yet. *)
Definition with_commit (r : repo) (c : commit) : repo :=
  {| commits := (commits r ++ [c])%list; head := head r; index := index r; work := work r |}.
(** The reference of HEAD is updated, in one step. *)
Definition move_head (r : repo) (h : nat) : repo :=
  {| commits := commits r; head := h; index := index r; work := work r |}.

(** git_interface.py 169-181, from the constructor (136) without commit and with the branch which is
    already checked out: [reset()] of the HEAD. *)
Definition open_folder (r : repo) : repo := reset r (head r).

(** ** One transaction, killed at some moment.
    The body is a list of changes of the working directory. A kill leaves: the changes made so far,
    with the file being written in any state ([Killed_writing]); every change, the index being
    written or not (84, the index file is replaced in one step); the objects of the commit (86-92),
    HEAD moved or not; any state of files and index when it happens in [reset] (98, 103, and
    149-166), which never moves HEAD since HEAD is the commit to go back to. *)
Inductive killed (r : repo) (ws : list (fsys -> fsys)) : repo -> Prop :=
| Killed_between n : n <= List.length ws ->
    killed r ws (with_work r (fold_left (fun w f => f w) (firstn n ws) (work r)))
| Killed_writing n p c : n <= List.length ws ->
    killed r ws (with_work r (fs_set (fold_left (fun w f => f w) (firstn n ws) (work r)) p c))
| Killed_staged : forall r1, r1 = with_work r (fold_left (fun w f => f w) ws (work r)) ->
    killed r ws (with_index r1 (staged_index r1))
| Killed_objects : forall r1, r1 = with_work r (fold_left (fun w f => f w) ws (work r)) ->
    killed r ws (with_commit (with_index r1 (staged_index r1))
                             {| c_tree := staged_index r1; c_parents := [head r] |})
| Killed_committed : forall r1, r1 = with_work r (fold_left (fun w f => f w) ws (work r)) ->
    killed r ws (move_head (with_commit (with_index r1 (staged_index r1))
                                        {| c_tree := staged_index r1; c_parents := [head r] |})
                           (List.length (commits r)))
| Killed_resetting ix w :
    killed r ws {| commits := commits r; head := head r; index := ix; work := w |}.

(** ** Several users of one folder. *)
(** Where a user is: outside of any transaction, or inside one entered at a commit (54). *)
Inductive place := Outside | Inside (commit_id : nat).
Record world := { folder : repo; places : nat -> place }.

Inductive event :=
| Enter (i : nat)                      (* __enter__, 53-60 *)
| Change (i : nat) (f : fsys -> fsys)  (* the body changes files *)
| Return (i : nat)                     (* __exit__ without exception, 65-101 *)
| Raise (i : nat) (e : exn)            (* __exit__ with an exception, 102-103 *)
| Kill (i : nat) (ix w : fsys)         (* the process ends, leaving any files and index *)
| Open.                                (* GitInterface(...) of the folder, 107-136 *)

Definition put (ps : nat -> place) (i : nat) (p : place) : nat -> place :=
  fun j => if Nat.eqb j i then p else ps j.

(** git_interface.py 65-101. [create_commit] refuses a first parent which is not the tip of the
    branch (libgit2): the exception leads to [reset(self.commit_id)]. *)
Definition exit_return (r : repo) (commit_id : nat) : res unit * repo :=
  match status r with
  | [] => (Ok tt, r)
  | _ =>
    let r1 := with_index r (staged_index r) in
    if Nat.eqb (head r) commit_id then
      (Ok tt, move_head (with_commit r1 {| c_tree := staged_index r; c_parents := [commit_id] |})
                        (List.length (commits r)))
    else (Err ValueError, reset r1 commit_id)
  end.

(** One event. The answer is what the user gets: None when nothing is returned yet. Events which do
    not fit the place of the user (a change outside of a transaction, ...) have no effect. *)
Definition happen (w : world) (e : event) : world * option (res unit) :=
  match e with
  | Enter i =>
    match places w i, status (folder w) with
    | Outside, [] => ({| folder := folder w; places := put (places w) i (Inside (head (folder w))) |}, None)
    | Outside, _ => (w, Some (Err ValueError))
    | Inside _, _ => (w, None)
    end
  | Change i f =>
    match places w i with
    | Inside _ => ({| folder := with_work (folder w) (f (work (folder w))); places := places w |}, None)
    | Outside => (w, None)
    end
  | Return i =>
    match places w i with
    | Inside c => let (out, r) := exit_return (folder w) c in
                  ({| folder := r; places := put (places w) i Outside |}, Some out)
    | Outside => (w, None)
    end
  | Raise i e =>
    match places w i with
    | Inside c => ({| folder := reset (folder w) c; places := put (places w) i Outside |}, Some (Err e))
    | Outside => (w, None)
    end
  | Kill i ix wk =>
    match places w i with
    | Inside _ => ({| folder := with_index (with_work (folder w) wk) ix; places := put (places w) i Outside |}, None)
    | Outside => (w, None)
    end
  | Open => ({| folder := open_folder (folder w); places := places w |}, None)
  end.

Fixpoint happens (w : world) (es : list event) : world :=
  match es with [] => w | e :: es => happens (fst (happen w e)) es end.
