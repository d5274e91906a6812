(** Model of the file watching cache: ieml/commons.py 87-208. *)
From Coq Require Import List String Ascii Bool NArith Arith.
From Verif Require Import Base Database.
Import ListNotations.
Local Open Scope string_scope.

(** Segments of a path below the database folder. *)
Fixpoint segments (s : string) : list string :=
  match s with
  | EmptyString => [""]
  | String c r =>
    match segments r with
    | [] => [String c ""]
    | x :: l => if Ascii.eqb c "/" then "" :: x :: l else String c x :: l
    end
  end.

(** A segment of a glob pattern: a name, or a star followed by a suffix; the star does not
    match a leading dot (glob.glob). *)
Inductive glob := Name (s : string) | Star (suffix : string).
Fixpoint has_suffix (suf s : string) : bool :=
  (String.eqb s suf || match s with String _ r => has_suffix suf r | EmptyString => false end)%bool.
Definition glob_segment (g : glob) (s : string) : bool :=
  match g with
  | Name n => String.eqb n s
  | Star suf => (has_suffix suf s && negb (String.prefix "." s))%bool
  end.
Fixpoint glob_match (g : list glob) (s : list string) : bool :=
  match g, s with
  | [], [] => true
  | x :: g', y :: s' => (glob_segment x y && glob_match g' s')%bool
  | _, _ => false
  end.
(** ieml_database.py 222 and 227 *)
Definition DICTIONARY_PATTERN := [Name "morpheme"; Name "paradigm"; Star ""].
Definition LIST_PATTERN := [Name "morpheme"; Star ""; Star ".desc"].

(** commons.py 99: the watched files, sorted by path. *)
Definition string_lt (a b : string) : bool :=
  bytes_lt (map N_of_ascii (list_ascii_of_string a)) (map N_of_ascii (list_ascii_of_string b)).
Definition watched (g : list glob) (fs : fsys) : fsys :=
  sort (fun a b => string_lt (fst a) (fst b)) (filter (fun f => glob_match g (segments (fst f))) fs).

(** commons.py 141-144: the text that is digested. *)
Definition digest_text (fs : fsys) : string := sconcat (map (fun f => fst f ++ ":" ++ snd f) fs).

Section Cache.
  Context {V : Type}.
  (** [hashlib.md5(res).hexdigest()] *)
  Variable md5 : string -> string.
  Variable g : list glob.
  (** The wrapped function, and the truth value of its results. *)
  Variable f : fsys -> V.
  Variable truth : V -> bool.

  (** The cache files of this name: digest and content; None is a file that cannot be
      read back. *)
  Definition cachedir := list (string * option V).
  Definition fingerprint (fs : fsys) : string := md5 (digest_text (watched g fs)).

  (** commons.py 124-133, 115-122 *)
  Definition is_pruned (cd : cachedir) (fs : fsys) : bool :=
    match cd with
    | [(h, _)] => negb (String.eqb (fingerprint fs) h)
    | _ => true
    end.
  Definition cached (cd : cachedir) (fs : fsys) : option V :=
    match find (fun e => String.eqb (fingerprint fs) (fst e)) cd with
    | Some (_, v) => v
    | None => None
    end.

  (** commons.py 169-203 with use_cache and a cache folder. [written] tells whether the
      result could be pickled; if not the call raises after the computation, leaving an
      unreadable file. *)
  Definition call (cd : cachedir) (fs : fsys) (written : bool) : res V * cachedir :=
    let instance := if is_pruned cd fs then None else cached cd fs in
    match instance with
    | Some v => if truth v then (Ok v, cd)
                else let r := f fs in
                     if written then (Ok r, [(fingerprint fs, Some r)]) else (Err TypeError, [(fingerprint fs, None)])
    | None => let r := f fs in
              if written then (Ok r, [(fingerprint fs, Some r)]) else (Err TypeError, [(fingerprint fs, None)])
    end.

  (** A history: the folder is changed in any way, or the function is called. *)
  Inductive event := Edit (fs : fsys) | Call (written : bool).
  Fixpoint history_results (fs : fsys) (cd : cachedir) (es : list event) : list (fsys * res V) :=
    match es with
    | [] => []
    | Edit fs' :: es => history_results fs' cd es
    | Call w :: es => let (r, cd') := call cd fs w in (fs, r) :: history_results fs cd' es
    end.
End Cache.
