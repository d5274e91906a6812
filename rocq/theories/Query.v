(** Model of the lookups with some parts of the key left out, ieml/ieml_database/descriptors.py 84-107 and
    ieml/ieml_database/ieml_database.py 62-75, and of the listing of a folder, ieml_database.py 149-176.
    Definitions only. *)
From Coq Require Import List String Ascii Bool NArith Arith.
From Verif Require Import Base Script Dictionary Database DatabasePath Pull Paradigms Usl Sfun UslParser Listing.
Import ListNotations.
Local Open Scope string_scope.

(** [res[k].append(v)] with [res = defaultdict(list)] *)
Fixpoint dict_append {K V} (eqb : K -> K -> bool) (d : list (K * list V)) (k : K) (v : V) : list (K * list V) :=
  match d with
  | [] => [(k, [v])]
  | (k', vs) :: d' => if eqb k k' then (k', (vs ++ [v])%list) :: d' else (k', vs) :: dict_append eqb d' k v
  end.
Definition group_by {K V} (eqb : K -> K -> bool) (l : list (K * V)) : list (K * list V) :=
  fold_left (fun d e => dict_append eqb d (fst e) (snd e)) l [].
(** [get_level_values(k) == v], no condition when [v is None] *)
Definition at_level (o : option string) (x : string) : bool := match o with None => true | Some y => String.eqb x y end.

Definition dkey := (string * string * string)%type.
Definition dkey_eqb (a b : dkey) : bool :=
  let '(i, l, d) := a in let '(j, m, e) := b in (String.eqb i j && String.eqb l m && String.eqb d e)%bool.
Definition skey := (string * string)%type.
Definition skey_eqb (a b : skey) : bool := (String.eqb (fst a) (fst b) && String.eqb (snd a) (snd b))%bool.

Section Query.
  Variable parse_ieml : string -> res string.

  (** descriptors.py 84-99, on the rows sorted by 69. Without any part of the key the selection is the
      boolean True, which is no column of the table. *)
  Definition get_values_partial (rows : list (string * string * string * string)) (ieml language descriptor : option string)
    : res (list (dkey * list (option string))) :=
    do _ <- normalize_key parse_ieml false (match ieml with Some i => i | None => "" end) language descriptor true false;
    match ieml, language, descriptor with
    | None, None, None => Err KeyError
    | _, _, _ =>
      Ok (group_by dkey_eqb
            (map (fun r => let '(i, l, d, v) := r in ((i, l, d), pandas_cell v))
                 (filter (fun r => let '(i, l, d, _) := r in (at_level ieml i && at_level language l && at_level descriptor d)%bool)
                         (sort row4_lt rows))))
    end.

  (** descriptors.py 101-107, on a str. *)
  Definition descriptor_item (acc : res (list (string * list (string * list (option string))))) (ieml : string) (e : dkey * list (option string)) :=
    let '((i, l, d), vs) := e in
    do r <- acc;
    if negb (String.eqb ieml i) then Err AssertionError
    else if inb d (map fst r) then Ok (map (fun c => if String.eqb d (fst c) then (fst c, dict_set (snd c) l vs) else c) r)
    else Err KeyError.
  Definition get_descriptor (rows : list (string * string * string * string)) (ieml : string)
    : res (list (string * list (string * list (option string)))) :=
    do items <- get_values_partial rows (Some ieml) None None;
    fold_left (fun acc e => descriptor_item acc ieml e) items
              (Ok (map (fun d => (d, map (fun l => (l, [])) LANGUAGES)) DESCRIPTORS_CLASS)).

  (** ieml_database.py 62-75, on the rows sorted by 51. *)
  Definition structure_values_partial (rows : list (string * string * string)) (ieml key : option string)
    : res (list (skey * list string)) :=
    do _ <- normalize_key parse_ieml false (match ieml with Some i => i | None => "" end) key None true true;
    match ieml, key with
    | None, None => Err KeyError
    | _, _ =>
      Ok (group_by skey_eqb
            (map (fun r => let '(i, k, v) := r in ((i, k), v))
                 (filter (fun r => let '(i, k, _) := r in (at_level ieml i && at_level key k)%bool) (sort row_lt rows))))
    end.
End Query.

Section List.
  Variable folder : string.
  Variable fo : fsys -> fsys.

  (** ieml_database.py 150-156; a class is given by its name in lower case. *)
  Definition list_folder (type : option string) (paradigm : option bool) : string :=
    match type with
    | None => folder
    | Some t =>
      if String.eqb t "" then folder
      else match paradigm with
           | None => os_join folder t
           | Some p => os_join (os_join folder t) (if p then "paradigm" else "singular")
           end
    end.
  (** The file is somewhere below the directory. *)
  Definition below (p file : string) : bool := String.prefix (os_join p "") file.
  (** 158-163. [Popen(cwd=p)] raises when there is no such directory ([dirs]). *)
  Definition list_content (dirs : string -> bool) (fs : fsys) (type : option string) (paradigm : option bool) : res (list string) :=
    let p := list_folder type paradigm in
    if dirs p then Ok (listing (sconcat (map snd (fo (filter (fun f => (below p (fst f) && is_desc_file (fst f))%bool) fs)))))
    else Err FileNotFoundError.
  (** 165-174: parse=True *)
  Fixpoint list_parsed (parse : string -> res (usl * list (string * string))) (l : list string) : res (list (usl * list (string * string))) :=
    match l with
    | [] => Ok []
    | s :: l =>
      match parse s with
      | Ok u => do r <- list_parsed parse l; Ok (u :: r)
      | Err CannotParse => list_parsed parse l
      | Err e => Err e
      end
    end.
End List.
