(** Model of the list of all described expressions: ieml/ieml_database/ieml_database.py 226-260,
    ieml/usl/__init__.py 24-41, and ieml/usl/parser/parser.py 81-89 with a dictionary. Definitions only.
    The cache of get_list (227) is modelled in Cache.v; here the list is computed from the files. *)
From Coq Require Import List String Ascii Bool NArith Arith.
From Verif Require Import Base Script ScriptParser Commons Tables Factor Dictionary Database Git Cache
  Usl Sfun UslParser Paradigms.
Import ListNotations.
Local Open Scope string_scope.

(** ieml/constants.py 238 *)
Definition TYPES : list string := ["morpheme"; "polymorpheme"; "lexeme"; "word"; "phrase"].
(** ieml/constants.py 33-37, after [.lower().capitalize()] (ieml_database.py 248). *)
Definition CLASS_NAMES : list string := ["Auxiliary"; "Verb"; "Noun"].

(** The tokens MORPHEME of a text, in its order. *)
Definition morpheme_tokens (w : list utoken) : list string :=
  flat_map (fun t => match t with UMorpheme s => [s] | _ => [] end) w.

(** One element of the list, a Python dictionary: the keys 'ieml', 'type', 'paradigm', 'class', 'index',
    'cardinality' ('domains' is always empty), then one key per class of descriptors. *)
Record entry := { e_ieml : string; e_type : string; e_paradigm : bool; e_class : string; e_index : string;
                  e_cardinality : string; e_values : list (string * list (string * list (option string))) }.
Definition RESERVED : list string := ["ieml"; "type"; "paradigm"; "class"; "index"; "cardinality"; "domains"].

Section Listing.
  Variable so : list script -> list script.
  Variable d : dictionary.

  (** parser.py 81-89. The rule runs on each morpheme before those on what contains it, so that a
      morpheme which is not in the dictionary is found before any error about words. *)
  Definition known (t : string) : res script :=
    do s <- parse so t; if in_dictionary d s then Ok s else Err ValueError.
  (** parser.py 42-58 *)
  Definition parse_in (s : string) : res (usl * list (string * string)) :=
    if String.eqb s "" then Ok (UScript (Null 0), [])
    else
      match p_proposition (ulex 0 false s) with
      | None => Err CannotParse
      | Some (u, ds) =>
        match (do _ <- mapM known (morpheme_tokens (ulex 0 false s)); e_usl so u) with
        | Ok x => Ok (x, ds)
        | Err ValueError => Err CannotParse
        | Err e => Err e
        end
      end.

  (** usl/__init__.py 24-25: the constants, from the lowest digit on, in base [len(dic.scripts)] *)
  Fixpoint number (b : N) (l : list nat) : N :=
    match l with
    | [] => 0%N
    | i :: l => (N.of_nat i + b * number b l)%N
    end.
  Definition polymorph_idx (p : pm) : res N :=
    do l <- mapM (idx (d_scripts d)) (constant p);
    Ok (number (N.of_nat (List.length (d_scripts d))) l).
  (** usl/__init__.py 29-41 *)
  Definition get_index (u : usl) : res (nat * string) :=
    match u with
    | UScript s => do i <- idx (d_scripts d) s; Ok (0, "0" ++ int2base (N.of_nat i))
    | UPm p =>
      match constant p, groups p with
      | [s], [] => do i <- idx (d_scripts d) s; Ok (0, "0" ++ int2base (N.of_nat i))
      | _, _ => do i <- polymorph_idx p; Ok (1, "1" ++ int2base i)
      end
    | UWord _ => Ok (2, "2" ++ int2base 0)
    | ULexeme _ => Ok (3, "3" ++ int2base 0)
    end.
  (** ieml_database.py 242-243 *)
  Definition unwrap (i : nat) (u : usl) : usl :=
    match i, u with
    | 0, UPm p => match constant p with s :: _ => UScript s | [] => u end
    | _, _ => u
    end.
  (** [len]: script.py, usl.py 53-54 and 78-80 *)
  Definition usl_cardinal (u : usl) : res N :=
    match u with
    | UScript s => Ok (cardinal s)
    | UPm p => Ok (N.of_nat (List.length (pm_ss so p)))
    | ULexeme l => Ok (N.of_nat (List.length (lexeme_ss so l)))
    | UWord w => do l <- word_ss so w; Ok (N.of_nat (List.length l))
    end.
  (** [GRAMMATICAL_CLASS_NAMES[...]]: the class of a word is a script (usl/constants.py 449-457), which
      is no key. *)
  Definition class_name (u : usl) : res string :=
    match u with
    | UScript s => match nth_error CLASS_NAMES (script_class s) with Some x => Ok x | None => Err KeyError end
    | UPm p => match nth_error CLASS_NAMES (pm_class p) with Some x => Ok x | None => Err KeyError end
    | ULexeme l => match nth_error CLASS_NAMES (pm_class (pm_content l)) with Some x => Ok x | None => Err KeyError end
    | UWord _ => Err KeyError
    end.
  Definition is_root (u : usl) : bool :=
    match u with UScript s => memb script_eqb s (map fst (d_forest d)) | _ => false end.
  (** ieml_database.py 244-255 *)
  Definition entry_of (i : nat) (r : string) (u : usl) : res entry :=
    do n <- usl_cardinal u;
    do c <- class_name u;
    Ok {| e_ieml := usl_str u; e_type := nth i TYPES ""; e_paradigm := negb (N.eqb n 1); e_class := c; e_index := r;
          e_cardinality := if N.eqb n 1 then "singular_sequence" else if is_root u then "root_paradigm" else "paradigm";
          e_values := [] |}.

  (** What 240-255 give for a text with decorations: not modelled, it is any function. *)
  Variable decorated : string -> usl -> list (string * string) -> res entry.
  (** 240-255 *)
  Definition new_entry (ieml : string) (u : usl) (ds : list (string * string)) : res entry :=
    match ds with
    | [] =>
      if String.eqb (usl_str u) ieml then do k <- get_index u; entry_of (fst k) (snd k) (unwrap (fst k) u)
      else Err AssertionError
    | _ => decorated ieml u ds
    end.

  (** 256-259. The descriptor may be the name of another key, whose value has no languages. *)
  Definition add_value (e : entry) (descriptor language : string) (v : option string) : res entry :=
    if memb String.eqb descriptor RESERVED then Err TypeError
    else
      let langs := match get_key descriptor (e_values e) with
                   | Some x => x
                   | None => map (fun l => (l, [])) LANGUAGES
                   end in
      match get_key language langs with
      | None => Err KeyError
      | Some vs =>
        Ok {| e_ieml := e_ieml e; e_type := e_type e; e_paradigm := e_paradigm e; e_class := e_class e;
              e_index := e_index e; e_cardinality := e_cardinality e;
              e_values := set_key descriptor (set_key language (vs ++ [v])%list langs) (e_values e) |}
      end.

  (** 232-259 *)
  Definition list_step (acc : list (string * entry)) (row : string * string * string * string)
    : res (list (string * entry)) :=
    let '(ieml, language, descriptor, v) := row in
    match get_key ieml acc with
    | Some e => do e' <- add_value e descriptor language (pandas_cell v); Ok (set_key ieml e' acc)
    | None =>
      match parse_in ieml with
      | Err CannotParse => Ok acc
      | Err x => Err x
      | Ok (u, ds) =>
        do e <- new_entry ieml u ds;
        do e' <- add_value e descriptor language (pandas_cell v);
        Ok (set_key ieml e' acc)
      end
    end.
  Fixpoint list_rows (acc : list (string * entry)) (rows : list (string * string * string * string))
    : res (list (string * entry)) :=
    match rows with
    | [] => Ok acc
    | row :: rows => do acc' <- list_step acc row; list_rows acc' rows
    end.
  Definition entry_lt (a b : entry) : bool := string_lt (e_index a) (e_index b).
  (** 226-260, for a dictionary and the rows of the descriptors as read: they are sorted (descriptors.py 69). *)
  Definition list_described (rows : list (string * string * string * string)) : res (list entry) :=
    do acc <- list_rows [] (sort row4_lt rows);
    Ok (sort entry_lt (map snd acc)).
End Listing.

(** 226-260 on a folder *)
Definition get_list (so : list script -> list script) (is_desc listed : string -> bool) (fo : fsys -> fsys)
  (decorated : dictionary -> string -> usl -> list (string * string) -> res entry) (fs : fsys) : res (list entry) :=
  do d <- get_dictionary so is_desc fo listed fs;
  do rows <- get_descriptors is_desc fo fs;
  list_described so d (decorated d) rows.
