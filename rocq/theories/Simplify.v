(** Model of simplify_word (ieml/usl/word.py 26-42). Definitions only. *)
From Coq Require Import List String Bool Arith.
From Verif Require Import Base Script Usl Sfun.
Import ListNotations.
Local Open Scope string_scope.

(** word.py 34: the nodes of [sfun.actors] with a lexeme have an empty one. *)
Definition all_empty (f : sfun lexeme) : bool :=
  forallb (fun e => match actor_of (snd e) with Some l => lexeme_empty l | None => true end) (actors f).
(** 35: the address is longer than the role of the word, or they differ at a common index. *)
Definition aside (word_role r : role) : bool :=
  (Nat.ltb (List.length word_role) (List.length r) || existsb (fun p => negb (String.eqb (fst p) (snd p))) (combine word_role r))%bool.
(** 30-31 *)
Definition role_below (w : word) : role :=
  match w_fun w with Dep _ _ _ | Indep _ => tl (w_role w) | _ => w_role w end.
(** 33-38; the actor of a junction is None. *)
Definition kept_entries (word_role : role) (f : sfun lexeme) : list (role * option lexeme) :=
  map (fun e => (fst e, actor_of (snd e)))
    (filter (fun e => negb (all_empty (snd e) && aside word_role (fst e))) (actors f)).
(** 40-42: [_from_list] of the class of the function; the one of junctions waits for a second
    argument (syntagmatic_function.py 263). *)
Definition simplify_word (w : word) : res word :=
  let l := kept_entries (role_below w) (w_fun w) in
  do p <- match w_fun w with
          | Jun _ _ => Err TypeError
          | Indep _ => do f <- indep_from (fuel_for l) l; Ok (f, CIndependant)
          | Dep _ _ _ => do f <- dep_from (fuel_for l) l; Ok (f, CDependant)
          | Proc _ _ _ => do f <- proc_from (fuel_for l) l; Ok (f, CProcess)
          end;
  mk_word (fst p) (w_role w) (snd p).
