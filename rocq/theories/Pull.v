(** Model of GitInterface.pull, ieml/ieml_database/git_interface.py 202-368, and of
    Descriptors.from_csv_string, ieml/ieml_database/descriptors.py 109-120. *)
From Coq Require Import List String Ascii Bool NArith Arith.
From Verif Require Import Base Database DatabasePath Git.
Import ListNotations.
Local Open Scope string_scope.

(** descriptors.py 64: class -> language -> values. *)
Definition descriptor := list (string * list (string * list string)).
Definition descriptor_of (rows : list (string * string * string * string)) (i : string) : descriptor :=
  map (fun d => (d, map (fun l => (l, map snd (filter (fun r => let '(i', l', d', _) := r in
        (String.eqb i' i && String.eqb l' l && String.eqb d' d)%bool) rows))) LANGUAGES)) DESCRIPTORS_CLASS.

(** descriptors.py 109-120 with assert_unique_ieml: the expression and its descriptors. An
    unknown class or language is a KeyError, a row without four fields a ValueError. *)
Definition from_csv_string (s : string) : res (string * descriptor) :=
  do rows <- mapM row4 (csv_rows s);
  if negb (forallb (fun r => let '(_, l, d, _) := r in (inb l LANGUAGES && inb d DESCRIPTORS_CLASS)%bool) rows)
  then Err KeyError
  else match dedup String.eqb (map (fun r => fst (fst (fst r))) rows) with
       | [i] => Ok (i, descriptor_of rows i)
       | _ => Err ValueError
       end.

(** [d[k] = v] *)
Definition dict_set {V} (d : list (string * V)) (k : string) (v : V) : list (string * V) :=
  if existsb (fun e => String.eqb k (fst e)) d
  then map (fun e => if String.eqb k (fst e) then (k, v) else e) d
  else (d ++ [(k, v)])%list.
Definition dict_get {V} (d : list (string * V)) (k : string) : option V :=
  option_map snd (find (fun e => String.eqb k (fst e)) d).

Definition fs_put (fs : fsys) (p : string) (o : option string) : fsys :=
  match o with Some c => fs_set fs p c | None => fs_del fs p end.

Section Pull.
  (** The merge of the lines of two versions of a file by git, None if they conflict. *)
  Variable merge_file : option string -> string -> string -> option string.
  (** The order in which the conflicts are listed. *)
  Variable order : list string -> list string.

  (** The three-way merge of one path by [repo.merge]: ancestor, local, remote. *)
  Inductive merged := Clean (o : option string) | Conflict.
  Definition merge3 (b o t : option string) : merged :=
    if opt_eqb o t then Clean o
    else if opt_eqb b o then Clean t
    else if opt_eqb b t then Clean o
    else match o, t with
         | Some x, Some y => match merge_file b x y with Some c => Clean (Some c) | None => Conflict end
         | _, _ => Conflict
         end.

  (** 281-320: the loop over the conflicts. The first component is the mapping returned,
      the second the variable [ieml]. LANGUAGES and DESCRIPTORS_CLASS are not imported by
      the file: the branch of a locally deleted descriptor file raises NameError. *)
  Definition conflict_step (ours theirs : fsys) (acc : list (string * descriptor) * option string) (p : string)
    : res (list (string * descriptor) * option string) :=
    if is_desc_file p then
      match fs_get ours p with
      | Some c => do r <- from_csv_string c; Ok (dict_set (fst acc) (fst r) (snd r), Some (fst r))
      | None => match fs_get theirs p with
                | None => Err AssertionError
                | Some c => do _ <- from_csv_string c; Err NameError
                end
      end
    else Ok acc.

  (** 262-356: base is the common ancestor, [target] the fetched commit. The working
      directory is assumed clean at the start; after an exception the half-merged index
      and files are not modelled. *)
  Definition pull_merge (r : repo) (base : fsys) (target : nat) : res (list (string * descriptor) * repo) :=
    let ours := tree_of r (head r) in
    let theirs := tree_of r target in
    let paths := dedup String.eqb (map fst base ++ map fst ours ++ map fst theirs)%list in
    let m p := merge3 (fs_get base p) (fs_get ours p) (fs_get theirs p) in
    let conflicts := order (filter (fun p => match m p with Conflict => true | _ => false end) paths) in
    let result p := match m p with Clean o => o | Conflict => fs_get theirs p end in
    let tree := fold_left (fun t p => fs_put t p (result p)) paths ours in
    let w := fold_left (fun t p => if opt_eqb (result p) (fs_get ours p) then t else fs_put t p (result p)) paths (work r) in
    do acc <- fold_left (fun acc p => do a <- acc; conflict_step ours theirs a p) conflicts (Ok ([], None));
    match conflicts, snd acc with
    | _ :: _, None => Err UnboundLocalError
    | _, _ =>
      Ok (fst acc, {| commits := (commits r ++ [{| c_tree := tree; c_parents := [head r; target] |}])%list;
                      head := List.length (commits r); index := tree; work := w |})
    end.

  (** 225-262: what [repo.merge_analysis] answers. *)
  Inductive analysis := UpToDate | FastForward | Normal | Unmergeable.
  (** 169-181 with a commit and no branch. *)
  Definition checkout_commit (r : repo) (c : nat) : repo := reset (reset r (head r)) c.
  Definition pull (r : repo) (base : fsys) (target : nat) (a : analysis) : res (list (string * descriptor) * repo) :=
    match a with
    | UpToDate => Ok ([], r)
    | FastForward => Ok ([], checkout_commit r target)
    | Normal => pull_merge r base target
    | Unmergeable => Err AttributeError (* the message uses self.branch, which does not exist *)
    end.
End Pull.
