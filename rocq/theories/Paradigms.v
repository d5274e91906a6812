(** Model of the transactions on paradigms, ieml/ieml_database/transactions/DBTransaction.py 75-286, and
    of the dictionary read from a folder, ieml/ieml_database/ieml_database.py 149-164 and 221-224.
    Definitions only. The dictionary is read from the files: the cache of get_dictionary (222) is
    modelled in Cache.v. *)
From Coq Require Import List String Ascii Bool NArith Arith.
From Verif Require Import Base Script ScriptParser Tables Factor Dictionary Database Git Cache Transactions Usl.
Import ListNotations.
Local Open Scope string_scope.

(** ** The listing of the paradigms, ieml_database.py 158-164 *)
(** The lines which [cut], [uniq] and [readlines] see: what is between line feeds, without the empty
    text after the last one. *)
Fixpoint split_lines (cur s : string) : list string :=
  match s with
  | EmptyString => if String.eqb cur "" then [] else [cur]
  | String c r => if Ascii.eqb c "010" then cur :: split_lines "" r else split_lines (cur ++ String c "") r
  end.
Definition lines (s : string) : list string := split_lines "" s.
(** [cut -f2] on one line, fields being separated by double quotes: a line without any quote is kept. *)
Fixpoint until_quote (s : string) : string :=
  match s with
  | EmptyString => ""
  | String c r => if Ascii.eqb c """" then "" else String c (until_quote r)
  end.
Fixpoint after_quote (s : string) : option string :=
  match s with
  | EmptyString => None
  | String c r => if Ascii.eqb c """" then Some r else after_quote r
  end.
Definition cut_line (s : string) : string :=
  match after_quote s with None => s | Some r => until_quote r end.
(** [uniq] *)
Fixpoint uniq (l : list string) : list string :=
  match l with
  | x :: (y :: _) as r => if String.eqb x y then uniq r else x :: uniq r
  | _ => l
  end.
(** [bytes.strip] *)
Definition byte_space (c : ascii) : bool :=
  let n := N_of_ascii c in (N.eqb n 32 || (N.leb 9 n && N.leb n 13))%bool.
Definition listing (content : string) : list string :=
  filter (fun s => negb (String.eqb s "")) (map (strip byte_space) (uniq (map cut_line (lines content)))).

(** The rows of a structure sorted by text and key, ieml_database.py 51 ([sort_index] on two levels is stable). *)
Definition row_lt (a b : string * string * string) : bool :=
  let '(i, k, _) := a in let '(j, l, _) := b in
  (string_lt i j || (String.eqb i j && string_lt k l))%bool.
(** The rows of the descriptors sorted by text, language and class, descriptors.py 69. *)
Definition row4_lt (a b : string * string * string * string) : bool :=
  let '(i, k, c, _) := a in let '(j, l, d, _) := b in
  (string_lt i j || (String.eqb i j && (string_lt k l || (String.eqb k l && string_lt c d))))%bool.

Definition same_root (a b : option script) : bool :=
  match a, b with
  | Some x, Some y => script_eqb x y
  | None, None => true
  | _, _ => false
  end.

Section Paradigms.
  Variable so : list script -> list script.
  Variable parse_ieml : string -> res string.
  Variable path : bool -> string -> string.
  Variable is_desc : string -> bool.
  Variable fo : fsys -> fsys.
  (** The path is that of a .desc file in the folder morpheme/paradigm, ieml_database.py 150-158. *)
  Variable listed : string -> bool.

  (** ieml_database.py 149-164 with type='morpheme', paradigm=True *)
  Definition list_paradigms (fs : fsys) : list string :=
    listing (sconcat (map snd (fo (filter (fun f => listed (fst f)) fs)))).
  (** 221-224 *)
  Definition get_dictionary (fs : fsys) : res dictionary :=
    do rows <- get_structure is_desc fo fs;
    make_dictionary so (list_paradigms fs) (sort row_lt rows).

  (** Calls inside [with gitdb.commit(...)]; the evaluation of the arguments of a call may raise. *)
  Fixpoint steps (l : list (res op)) (fs : fsys) : res unit * fsys :=
    match l with
    | [] => (Ok tt, fs)
    | Err e :: _ => (Err e, fs)
    | Ok o :: l => match exec parse_ieml path fs o with
                   | Ok fs' => steps l fs'
                   | Err e => (Err e, fs)
                   end
    end.

  (** DBTransaction.py 20-23 *)
  Definition check_script (s : script) : res unit :=
    do f <- factorize so false (inl s); if script_eqb f s then Ok tt else Err AssertionError.

  (** [" / ".join("{}:{}".format(l, ', '.join(descriptors.get_values(i, l, 'translations'))) for l in LANGUAGES)]:
      a missing value is not a str. *)
  Definition message_of (fs : fsys) (i : string) : res unit :=
    do _ <- mapM (fun l => do vs <- descriptor_values parse_ieml is_desc fo fs i l "translations";
                           if existsb (fun v => match v with None => true | Some _ => false end) vs
                           then Err TypeError else Ok tt) LANGUAGES;
    Ok tt.
  (** The same with the root of a script, which may be None: [get_values(None, ...)] is a ValueError
      (descriptors.py 20-21). *)
  Definition message_of_root (fs : fsys) (r : option script) : res unit :=
    match r with None => Err ValueError | Some r => message_of fs (str r) end.

  (** The set of the roots of the singular sequences. TableStructure.root returns None, it never raises a
      KeyError (table_structure.py 24-30). *)
  Definition roots_met (d : dictionary) (s : script) : res (list (option script)) :=
    do l <- ss s; Ok (dedup same_root (map (root_of d) l)).

  (** Translations and comments: for each language a list of texts, None when the key is missing. *)
  Definition texts := string -> option (list string).
  (** 110-115, 163-168 *)
  Definition add_texts (i : string) (translations comments : texts) : list (res op) :=
    flat_map (fun l =>
      (match translations l with None => [Err KeyError] | Some vs => map (fun v => Ok (AddDescriptor i l "translations" v)) vs end ++
       match comments l with None => [Err KeyError] | Some vs => map (fun v => Ok (AddDescriptor i l "comments" v)) vs end)%list) LANGUAGES.

  (** 122-168. [add_structure(script, 'is_root', False)]: False is not normalised and is written "False". *)
  Definition add_plan (fs : fsys) (s : script) : res unit :=
    do d <- get_dictionary fs;
    do _ <- check_script s;
    if N.eqb (cardinal s) 1 then Err ValueError
    else if in_dictionary d s then Err ValueError
    else
      do c <- roots_met d s;
      match c with
      | [r] => do _ <- message_of fs (str s); message_of_root fs r
      | _ => Err ValueError
      end.
  Definition add_calls (s : script) (translations comments : texts) : list (res op) :=
    (Ok (RemoveDescriptor (str s) None None None) :: Ok (RemoveStructure (str s) None None) ::
     Ok (AddStructure (str s) "is_root" "False") :: add_texts (str s) translations comments)%list.
  Definition add_morpheme_paradigm (r : repo) (s : script) (translations comments : texts) (a : accident) : res unit * repo :=
    match add_plan (work r) s with
    | Err e => (Err e, r)
    | Ok _ => transaction r (steps (add_calls s translations comments)) a
    end.

  (** 38-47: a language left out has no texts. *)
  Definition check_descriptors (t : texts) : texts :=
    fun l => if inb l LANGUAGES then Some (match t l with None => [] | Some vs => vs end) else t l.
  (** 11-12 *)
  Definition append_idx (t : texts) (i : nat) : texts :=
    fun l => option_map (map (fun v => v ++ int_str i)) (t l).

  (** 75-98: what is checked, and computed for the message *)
  Definition create_plan (fs : fsys) (s : script) : res unit :=
    do _ <- check_script s;
    if N.eqb (cardinal s) 1 then Err ValueError
    else
      do rows <- get_descriptors is_desc fo fs;
      if existsb (fun row => String.eqb (fst (fst (fst row))) (str s)) rows then Err ValueError
      else
        do d <- get_dictionary fs;
        do l <- ss s;
        (* 90-95: only a KeyError of [root] lets the loop go on *)
        do _ <- mapM (fun x => match root_of d x with Some _ | None => @Err unit ValueError end) l;
        message_of fs (str s).
  Definition create_calls (s : script) (inhibitions : list string) (translations comments : texts) : list (res op) :=
    (Ok (RemoveStructure (str s) (Some "is_root") None) :: Ok (AddStructure (str s) "is_root" "True") ::
     (if forallb (fun i => inb i INHIBITABLE_RELATIONS) inhibitions
      then map (fun i => Ok (AddStructure (str s) "inhibition" i)) inhibitions else [Err AssertionError]) ++
     add_texts (str s) translations comments)%list.
  (** 117-121 *)
  Fixpoint add_tables (r : repo) (i : nat) (l : list script) (translations comments : texts) (a : accident) : res unit * repo :=
    match l with
    | [] => (Ok tt, r)
    | t :: l => match add_morpheme_paradigm r t (append_idx translations i) (append_idx comments i) a with
                | (Ok _, r) => add_tables r (S i) l translations comments a
                | (Err e, r) => (Err e, r)
                end
    end.
  (** 75-121 *)
  Definition create_root_paradigm (r : repo) (s : script) (inhibitions : list string) (translations comments : texts) (a : accident)
    : res unit * repo :=
    let translations := check_descriptors translations in
    let comments := check_descriptors comments in
    match create_plan (work r) s with
    | Err e => (Err e, r)
    | Ok _ =>
      match transaction r (steps (create_calls s inhibitions translations comments)) a with
      | (Err e, r) => (Err e, r)
      | (Ok _, r) =>
        match tables s with
        | Err e => (Err e, r)
        | Ok t => add_tables r 0 (filter (fun x => negb (script_eqb x s)) (t_scripts t)) translations comments a
        end
      end
    end.

  (** 170-193 *)
  Definition delete_root_plan (fs : fsys) (s : script) : res dictionary :=
    do d <- get_dictionary fs;
    do _ <- check_script s;
    if negb (memb script_eqb s (map fst (d_forest d))) then Err ValueError
    else do _ <- message_of fs (str s); Ok d.
  Definition delete_root_calls (d : dictionary) (s : script) (empty : bool) : list (res op) :=
    (Ok (RemoveStructure (str s) None None) ::
     if empty then
       match object d s "contains" with
       | Err e => [Err e]
       | Ok l => map (fun x => Ok (RemoveDescriptor (str x) None None None)) l
       end
     else [])%list.
  Definition delete_morpheme_root_paradigm (r : repo) (s : script) (empty : bool) (a : accident) : res unit * repo :=
    match delete_root_plan (work r) s with
    | Err e => (Err e, r)
    | Ok d => transaction r (steps (delete_root_calls d s empty)) a
    end.

  (** 195-214. The message has no place for the root, it is computed nevertheless. *)
  Definition delete_plan (fs : fsys) (s : script) : res unit :=
    do d <- get_dictionary fs;
    do _ <- check_script s;
    if (in_dictionary d s && N.eqb (cardinal s) 1)%bool then Err ValueError
    else do _ <- message_of fs (str s); message_of_root fs (root_of d s).
  Definition delete_morpheme_paradigm (r : repo) (s : script) (a : accident) : res unit * repo :=
    match delete_plan (work r) s with
    | Err e => (Err e, r)
    | Ok _ => transaction r (steps [Ok (RemoveStructure (str s) None None); Ok (RemoveDescriptor (str s) None None None)]) a
    end.

  (** 217-264: None when the two scripts are the same; otherwise whether the old one is a root, its rows
      of the structure and its descriptors, both sorted. *)
  Definition update_plan (fs : fsys) (old new : script)
    : res (option (bool * list (string * string) * list (string * string * option string))) :=
    do _ <- check_script old;
    do _ <- check_script new;
    if script_eqb old new then Ok None
    else if (N.eqb (cardinal old) 1 && N.eqb (cardinal new) 1)%bool then Err AssertionError
    else
      do d <- get_dictionary fs;
      do rows <- get_descriptors is_desc fo fs;
      do srows <- get_structure is_desc fo fs;
      if negb (in_dictionary d old) then Err AssertionError
      else if in_dictionary d new then Err AssertionError
      else
        do values <- structure_get_values srows (str old) "is_root";
        do is_root <- match values with
                      | [] => Ok false
                      | v :: _ => Dictionary.truthy v
                      end;
        do c <- roots_met d new;
        if negb (Nat.eqb (List.length c) 1) then Err AssertionError
        else
          do _ <- mapM (fun l => descriptor_values parse_ieml is_desc fo fs (str new) l "translations") LANGUAGES;
          do inside <- (if is_root then script_in old new else Ok true);
          if negb inside then Err AssertionError
          else
            Ok (Some (is_root,
                      map (fun row => (snd (fst row), snd row)) (filter (fun row => String.eqb (fst (fst row)) (str old)) (sort row_lt srows)),
                      map (fun row => let '(_, l, c, v) := row in (l, c, pandas_cell v))
                          (filter (fun row => String.eqb (fst (fst (fst row))) (str old)) (sort row4_lt rows)))).
  (** 266-286; a missing value is not a str (ieml_database.py 37-38). *)
  Definition update_calls (old new : script) (is_root : bool) (structure : list (string * string)) (values : list (string * string * option string))
    : list (res op) :=
    (Ok (RemoveStructure (str old) None None) ::
     (if is_root
      then Ok (AddStructure (str old) "is_root" "False") :: map (fun e => Ok (AddStructure (str new) (fst e) (snd e))) structure
      else [Ok (AddStructure (str new) "is_root" "False")]) ++
     Ok (RemoveDescriptor (str old) None None None) ::
     flat_map (fun e => let '(l, c, v) := e in
       match v with
       | None => [Err ValueError]
       | Some v => Ok (AddDescriptor (str new) l c v) ::
                   if is_root then [Ok (AddDescriptor (str old) l c ("(translation migrated to " ++ str new ++ ") " ++ v))] else []
       end) values)%list.
  Definition update_morpheme_paradigm (r : repo) (old new : script) (a : accident) : res unit * repo :=
    match update_plan (work r) old new with
    | Err e => (Err e, r)
    | Ok None => (Ok tt, r)
    | Ok (Some (is_root, structure, values)) => transaction r (steps (update_calls old new is_root structure values)) a
    end.
End Paradigms.
