(** Model of ieml/ieml_database/descriptors.py and of the file part of
    ieml/ieml_database/ieml_database.py. Definitions only. A Python str is a sequence of
    characters below 256; files are decoded and encoded with utf8 without loss, so a file
    is identified with its decoded content. *)
From Coq Require Import List String Ascii Bool NArith Arith.
From Verif Require Import Base.
Import ListNotations.
Local Open Scope string_scope.

(** ieml/constants.py 44-51 *)
Definition LANGUAGES : list string := ["fr"; "en"].
(** ieml/constants.py 229-235 *)
Definition DESCRIPTORS_CLASS : list string := ["translations"; "tags"; "comments"; "rdf_repositories"].
(** ieml/constants.py 149 *)
Definition STRUCTURE_KEYS : list string := ["inhibition"; "is_root"; "is_ignored"].
(** ieml/constants.py 151-157 *)
Definition INHIBITABLE_RELATIONS : list string :=
  ["father_substance"; "father_attribute"; "father_mode"; "opposed"; "associated"; "crossed"; "twin"].

Definition inb (s : string) (l : list string) : bool := existsb (String.eqb s) l.

(** [if x:] on an optional string. *)
Definition truthy (o : option string) : bool :=
  match o with Some s => negb (String.eqb s "") | None => false end.

(** str.lower on the letters of the words that matter. *)
Definition lower_char (c : ascii) : ascii :=
  let n := N_of_ascii c in
  if (N.leb 65 n && N.leb n 90)%bool then ascii_of_N (n + 32) else c.
Fixpoint lower (s : string) : string :=
  match s with EmptyString => "" | String c r => String (lower_char c) (lower r) end.

Definition json_space (c : ascii) : bool :=
  let n := N_of_ascii c in (N.eqb n 32 || N.eqb n 9 || N.eqb n 10 || N.eqb n 13)%bool.

(** The white space removed by str.strip, below 256. *)
Definition py_space (c : ascii) : bool :=
  let n := N_of_ascii c in
  (N.eqb n 32 || (N.leb 9 n && N.leb n 13) || (N.leb 28 n && N.leb n 31) || N.eqb n 133 || N.eqb n 160)%bool.

Fixpoint lstrip (sp : ascii -> bool) (s : string) : string :=
  match s with
  | EmptyString => ""
  | String c r => if sp c then lstrip sp r else s
  end.
Fixpoint rstrip (sp : ascii -> bool) (s : string) : string :=
  match s with
  | EmptyString => ""
  | String c r => match rstrip sp r with
                  | EmptyString => if sp c then "" else String c ""
                  | r' => String c r'
                  end
  end.
Definition strip (sp : ascii -> bool) (s : string) : string := rstrip sp (lstrip sp s).

(** descriptors.py 46-51: [json.loads(str(value).lower())] has to be a bool. Every other
    outcome is a ValueError (JSONDecodeError is a subclass of it). *)
Definition json_bool (s : string) : option bool :=
  let t := strip json_space (lower s) in
  if String.eqb t "true" then Some true else if String.eqb t "false" then Some false else None.

(** ieml_database.py 336-337 *)
Fixpoint escape_value (v : string) : string :=
  match v with
  | EmptyString => ""
  | String c r =>
    if Ascii.eqb c """" then String """" (String """" (escape_value r))
    else if Ascii.eqb c "010" then String "\" (String "n" (escape_value r))
    else String c (escape_value r)
  end.

(** ieml_database.py 36-41: only strings are given, the ValueError is not modelled. *)
Definition normalize_value (v : string) : string := strip py_space v.

(** ** A folder: the files by path. *)
Definition fsys := list (string * string).
Definition fs_get (fs : fsys) (p : string) : option string :=
  option_map snd (find (fun f => String.eqb p (fst f)) fs).
Definition fs_del (fs : fsys) (p : string) : fsys := filter (fun f => negb (String.eqb p (fst f))) fs.
(** [open(p, 'w').write(c)] *)
Definition fs_set (fs : fsys) (p c : string) : fsys :=
  if existsb (fun f => String.eqb p (fst f)) fs
  then map (fun f => if String.eqb p (fst f) then (p, c) else f) fs
  else (fs ++ [(p, c)])%list.
(** [open(p, 'a').write(c)] *)
Definition fs_append (fs : fsys) (p c : string) : fsys :=
  match fs_get fs p with
  | Some c0 => fs_set fs p (c0 ++ c)
  | None => fs_set fs p c
  end.

Definition nl : string := String "010" "".

(** [f.readlines()] on a file opened in text mode: "\n", "\r\n" and "\r" end a line and
    are all read as "\n" (universal newlines). *)
Fixpoint readlines_aux (cur : string) (s : string) : list string :=
  match s with
  | EmptyString => if String.eqb cur "" then [] else [cur]
  | String c r =>
    if Ascii.eqb c "010" then (cur ++ nl) :: readlines_aux "" r
    else if Ascii.eqb c "013" then
      match r with
      | String d r' => if Ascii.eqb d "010" then (cur ++ nl) :: readlines_aux "" r'
                       else (cur ++ nl) :: readlines_aux "" r
      | EmptyString => [cur ++ nl]
      end
    else readlines_aux (cur ++ String c "") r
  end.
Definition readlines (s : string) : list string := readlines_aux "" s.

(** [l.startswith(p)] *)
Definition startswith (l p : string) : bool := String.prefix p l.

(** ** Reading: Python's csv.reader with a space as delimiter and double quotes (descriptors.py
    109-113) and pandas.read_csv(sep=' ', header=None) (ieml_database.py 205, 216) are the
    same machine on the files written by the library; empty lines are skipped by pandas
    and never written. *)
Inductive csv_state := StartRecord | StartField | InField | InQuoted | QuoteInQuoted.
Fixpoint csv_run (st : csv_state) (field : string) (row : list string) (s : string)
  : list (list string) :=
  let save := (row ++ [field])%list in
  match s with
  | EmptyString =>
    match st with
    | StartRecord => []
    | _ => [save]
    end
  | String c r =>
    match st with
    | InQuoted =>
      if Ascii.eqb c """" then csv_run QuoteInQuoted field row r
      else csv_run InQuoted (field ++ String c "") row r
    | StartRecord | StartField =>
      if Ascii.eqb c "010" then
        match st with
        | StartRecord => csv_run StartRecord "" [] r
        | _ => save :: csv_run StartRecord "" [] r
        end
      else if Ascii.eqb c """" then csv_run InQuoted field row r
      else if Ascii.eqb c " " then csv_run StartField "" save r
      else csv_run InField (field ++ String c "") row r
    | InField | QuoteInQuoted =>
      if Ascii.eqb c "010" then save :: csv_run StartRecord "" [] r
      else if Ascii.eqb c " " then csv_run StartField "" save r
      else if (match st with QuoteInQuoted => Ascii.eqb c """" | _ => false end)
      then csv_run InQuoted (field ++ String c "") row r
      else csv_run InField (field ++ String c "") row r
    end
  end.
Definition csv_rows (s : string) : list (list string) := csv_run StartRecord "" [] s.

(** pandas reads these texts as missing values, quoted or not (default na_values of
    read_csv). The conversion of a column whose texts are all numbers is not modelled. *)
Definition NA_VALUES : list string :=
  [""; "#N/A"; "#N/A N/A"; "#NA"; "-1.#IND"; "-1.#QNAN"; "-NaN"; "-nan"; "1.#IND"; "1.#QNAN";
   "<NA>"; "N/A"; "NA"; "NULL"; "NaN"; "n/a"; "nan"; "null"].
Definition pandas_cell (s : string) : option string := if inb s NA_VALUES then None else Some s.

(** Rows of the descriptors table: ieml, language, descriptor, value. *)
Definition row4 (r : list string) : res (string * string * string * string) :=
  match r with
  | [i; l; d; v] => Ok (i, l, d, v)
  | _ => Err ValueError
  end.
Definition row3 (r : list string) : res (string * string * string) :=
  match r with
  | [i; k; v] => Ok (i, k, v)
  | _ => Err ValueError
  end.

(** The calls made on a database. *)
Inductive op :=
| AddDescriptor (ieml lang desc value : string)
| RemoveDescriptor (ieml : string) (lang desc value : option string)
| AddStructure (ieml key value : string)
| RemoveStructure (ieml : string) (key value : option string).

Section Database.
  (** [str(IEMLParser().parse(s))] *)
  Variable parse_ieml : string -> res string.
  (** The path of the descriptor file (true) or of the structure file (false) of a
      normalised ieml, ieml_database.py 118-146. *)
  Variable path : bool -> string -> string.

  (** descriptors.py 19-62 with parse_ieml=True ([parse]) or False. [ieml] is a str. *)
  Definition normalize_key (parse : bool) (ieml : string) (key value : option string) (partial structure : bool)
    : res (string * option string * option string) :=
    if negb (partial || (truthy key && (structure || truthy value)))%bool then Err ValueError
    else
      do i <- (if (negb (String.eqb ieml "") && parse)%bool then parse_ieml ieml else Ok ieml);
      if structure then
        if (truthy key && negb (inb (match key with Some k => k | None => "" end) STRUCTURE_KEYS))%bool
        then Err ValueError
        else if truthy value then
          match key, value with
          | Some k, Some v =>
            if String.eqb k "inhibition" then
              if inb v INHIBITABLE_RELATIONS then Ok (i, key, value) else Err ValueError
            else if (String.eqb k "is_root" || String.eqb k "is_ignored")%bool then
              match json_bool v with
              | Some b => Ok (i, key, Some (if b then "True" else "False"))
              | None => Err ValueError
              end
            else Ok (i, key, value)
          | _, _ => Ok (i, key, value)
          end
        else Ok (i, key, value)
      else
        if (truthy key && negb (inb (match key with Some k => k | None => "" end) LANGUAGES))%bool
        then Err ValueError
        else if (truthy value && negb (inb (match value with Some v => v | None => "" end) DESCRIPTORS_CLASS))%bool
        then Err ValueError
        else Ok (i, key, value).

  (** ieml_database.py 118-146: a str is parsed (again). *)
  Definition path_of (descriptor : bool) (ieml : string) : res string :=
    do p <- parse_ieml ieml; Ok (path descriptor p).

  (** The line written by add_descriptor, ieml_database.py 271-275. *)
  Definition descriptor_line (ieml language descriptor value : string) : string :=
    """" ++ escape_value ieml ++ """ " ++ language ++ " " ++ descriptor ++ " """ ++ escape_value value ++ """" ++ nl.

  (** ieml_database.py 263-275. *)
  Definition add_descriptor (fs : fsys) (ieml language descriptor value : string) : res fsys :=
    do k <- normalize_key true ieml (Some language) (Some descriptor) false false;
    let i := fst (fst k) in
    let v := normalize_value value in
    if String.eqb v "" then Ok fs
    else do p <- path_of true i; Ok (fs_append fs p (descriptor_line i language descriptor v)).

  (** The prefix of the lines removed, ieml_database.py 303-305. *)
  Definition descriptor_prefix (ieml language descriptor : string) (value : option string) : string :=
    """" ++ ieml ++ """ " ++ language ++ " " ++ descriptor ++ " " ++
    match value with Some v => """" ++ escape_value v ++ """" | None => "" end.

  (** ieml_database.py 298-308: language and descriptor given. *)
  Definition remove_full (fs : fsys) (p ieml language descriptor : string) (value : option string) : fsys :=
    let v := match value with
             | Some x => if String.eqb x "" then value else Some (normalize_value x)
             | None => None
             end in
    match fs_get fs p with
    | None => fs
    | Some c =>
      fs_set fs p (sconcat (filter (fun l => negb (startswith l (descriptor_prefix ieml language descriptor v)))
                                   (readlines c)))
    end.

  (** ieml_database.py 277-308, with normalize=True. The recursive calls are at most two
      levels deep: [remove_lang] is the call with a language. *)
  Definition remove_lang (fs : fsys) (ieml language : string) (descriptor value : option string) : res fsys :=
    do k <- normalize_key true ieml (Some language) descriptor true false;
    let i := fst (fst k) in
    do p <- path_of true i;
    match fs_get fs p with
    | None => Ok fs
    | Some _ =>
      match descriptor with
      | Some d => Ok (remove_full fs p i language d value)
      | None =>
        fold_left (fun acc d =>
          do fs' <- acc;
          do k' <- normalize_key true i (Some language) (Some d) true false;
          let i' := fst (fst k') in
          do p' <- path_of true i';
          match fs_get fs' p' with
          | None => Ok fs'
          | Some _ => Ok (remove_full fs' p' i' language d None)
          end) DESCRIPTORS_CLASS (Ok fs)
      end
    end.

  Definition remove_descriptor (fs : fsys) (ieml : string) (language descriptor value : option string) : res fsys :=
    match language with
    | Some l => remove_lang fs ieml l descriptor value
    | None =>
      do k <- normalize_key true ieml None descriptor true false;
      let i := fst (fst k) in
      do p <- path_of true i;
      match fs_get fs p with
      | None => Ok fs
      | Some _ =>
        match descriptor, value with
        | None, None => Ok (fs_del fs p)
        | _, _ => fold_left (fun acc l => do fs' <- acc; remove_lang fs' i l descriptor None) LANGUAGES (Ok fs)
        end
      end
    end.

  (** ieml_database.py 194-211: the concatenation of the .desc files in the order [find]
      lists them ([fo]); [is_desc] recognises them by their path. *)
  Variable is_desc : string -> bool.
  Variable fo : fsys -> fsys.
  Definition get_descriptors (fs : fsys) : res (list (string * string * string * string)) :=
    mapM row4 (csv_rows (sconcat (map snd (fo (filter (fun f => is_desc (fst f)) fs))))).

  (** descriptors.py 72-82. The rows are sorted by key with a stable sort, so that the
      rows of one key keep their order. *)
  Definition get_values (rows : list (string * string * string * string)) (ieml language descriptor : string)
    : res (list (option string)) :=
    do _ <- normalize_key false ieml (Some language) (Some descriptor) false false;
    Ok (map (fun r => pandas_cell (snd r))
            (filter (fun r => let '(i, l, d, v) := r in
                              (String.eqb i ieml && String.eqb l language && String.eqb d descriptor)%bool) rows)).

  (** [db.get_descriptors().get_values(...)] *)
  Definition descriptor_values (fs : fsys) (ieml language descriptor : string) : res (list (option string)) :=
    do rows <- get_descriptors fs; get_values rows ieml language descriptor.

  (** ** Structure files *)
  (** ieml_database.py 310-314; [str(None)] is "None". *)
  Definition structure_line (ieml key : string) (value : option string) : string :=
    """" ++ ieml ++ """ " ++ key ++ " """ ++ match value with Some v => v | None => "None" end ++ """" ++ nl.
  Definition add_structure (fs : fsys) (ieml : string) (key : string) (value : option string) : res fsys :=
    do k <- normalize_key true ieml (Some key) value false true;
    let '(i, _, v) := k in
    do p <- path_of false i; Ok (fs_append fs p (structure_line i key v)).

  (** ieml_database.py 316-334. *)
  Definition structure_prefix (ieml key : string) (value : option string) : string :=
    """" ++ ieml ++ """ " ++ key ++ " " ++
    match value with Some v => if String.eqb v "" then "" else """" ++ v ++ """" | None => "" end.
  Definition remove_structure (fs : fsys) (ieml : string) (key value : option string) : res fsys :=
    do k <- normalize_key true ieml key value true true;
    let '(i, _, v) := k in
    do p <- path_of false i;
    match fs_get fs p with
    | None => Ok fs
    | Some c =>
      match key with
      | None => Ok (fs_del fs p)
      | Some ky => Ok (fs_set fs p (sconcat (filter (fun l => negb (startswith l (structure_prefix i ky v))) (readlines c))))
      end
    end.

  (** ieml_database.py 213-219. An empty structure is an EmptyDataError, a ValueError. *)
  Definition structure_rows (fs : fsys) : res (list (string * string * string)) :=
    mapM row3 (csv_rows (sconcat (map snd (fo (filter (fun f => negb (is_desc (fst f))) fs))))).
  Definition get_structure (fs : fsys) : res (list (string * string * string)) :=
    do rows <- structure_rows fs; match rows with [] => Err ValueError | _ => Ok rows end.
  (** The values of a key: "True" and "False" are kept as texts, as pandas does unless the
      column has no other text, and no structure value is a missing value. *)
  Definition structure_values (rows : list (string * string * string)) (ieml key : string) : list string :=
    map snd (filter (fun r => let '(i, k, v) := r in (String.eqb i ieml && String.eqb k key)%bool) rows).
  (** ieml_database.py 54-61 (Structure.get_values). When no key occurs twice, pandas
      answers with a Series, on which [to_dict('list')] is a TypeError. *)
  Definition structure_get_values (rows : list (string * string * string)) (ieml key : string) : res (list string) :=
    match structure_values rows ieml key with
    | [] => Ok []
    | vs => if forallb (fun r => Nat.eqb (List.length (structure_values rows (fst (fst r)) (snd (fst r)))) 1) rows
            then Err TypeError else Ok vs
    end.

  (** One call; a call that raises leaves the folder as it was (no exception can come
      after a write). *)
  Definition exec (fs : fsys) (o : op) : res fsys :=
    match o with
    | AddDescriptor i l d v => add_descriptor fs i l d v
    | RemoveDescriptor i l d v => remove_descriptor fs i l d v
    | AddStructure i k v => add_structure fs i k (Some v)
    | RemoveStructure i k v => remove_structure fs i k v
    end.
  Definition exec_step (fs : fsys) (o : op) : fsys := match exec fs o with Ok fs' => fs' | Err _ => fs end.
  Definition run (fs : fsys) (ops : list op) : fsys := fold_left exec_step ops fs.
End Database.
