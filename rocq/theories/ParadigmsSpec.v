(** What the properties of the transactions on paradigms say, without the code which computes them. *)
From Coq Require Import List String Ascii Bool NArith Arith.
From Verif Require Import Base Script ScriptParser ScriptSpec Factor Dictionary DictionarySpec Database DatabaseSpec Git Transactions Paradigms.
Import ListNotations.
Local Open Scope string_scope.

(** What is assumed of the parser and of the folder: the texts of scripts are read as scripts, and the
    files listed as paradigms are the descriptor files of the plural scripts. *)
Record paradigms_folder (so : list script -> list script) (parse_ieml : string -> res string) (path : bool -> string -> string)
  (is_desc listed : string -> bool) : Prop := {
  pf_folder : folder_ok parse_ieml path is_desc;
  pf_scripts : forall t s, parse so t = Ok s -> parse_ieml t = Ok (str s);
  pf_listed : forall b i, parse_ieml i = Ok i ->
    (listed (path b i) = true <-> b = true /\ exists s, parse so i = Ok s /\ cardinal s <> 1%N) }.

(** The script is its own factorisation. *)
Definition factorised (so : list script -> list script) (s : script) : Prop :=
  exists f, factorize so false (inl s) = Ok f /\ str f = str s.

(** The values of a key of the structure of an expression; none when the structure cannot be read. *)
Definition structure_of (is_desc : string -> bool) (fo : fsys -> fsys) (fs : fsys) (i k : string) : list string :=
  match get_structure is_desc fo fs with Ok rows => structure_values rows i k | Err _ => [] end.

(** The texts of the root paradigms of a dictionary *)
Definition roots_of (d : dictionary) : list string := map str (d_root_scripts d).

(** The history of a repository after one more commit, or after none when no file changes. *)
Definition one_commit (r r' : repo) : Prop :=
  commits r' = commits r /\ head r' = head r \/
  exists t, commits r' = (commits r ++ [{| c_tree := t; c_parents := [head r] |}])%list /\ head r' = List.length (commits r).
