(** Model of rewrite_word (scripts/database_management/rewrite_words.py 20-44). Definitions only. *)
From Coq Require Import List String Bool Arith.
From Verif Require Import Base Script Usl Sfun Simplify.
Import ListNotations.
Local Open Scope string_scope.

(** 20-26, by class of function. *)
Definition TO_REMOVE (f : sfun lexeme) : list string :=
  match f with
  | Proc _ _ _ => ["E:.-'we.-S:.-'t.o.-',"; "E:.-'wu.-S:.-'t.o.-',"; "E:.-wa.-t.o.-'"]
  | Dep _ _ _ => ["E:.wo.-"; "E:S:.-d.u.-'"]
  | _ => []
  end.
(** 38-40: the constants of the flexion which are not to be removed; the groups are not passed on. *)
Definition rewritten (bad : list string) (l : lexeme) : lexeme :=
  {| pm_flexion := mk_pm (filter (fun s => negb (ins (str s) bad)) (constant (pm_flexion l))) []; pm_content := pm_content l |}.
(** The actor of a junction is None, which has no [pm_flexion]. *)
Definition rewrite_entry (e : role * sfun lexeme) : res (role * option lexeme) :=
  match actor_of (snd e) with
  | None => Err AttributeError
  | Some l => Ok (fst e, Some (rewritten (TO_REMOVE (snd e)) l))
  end.
(** 28-44, as [simplify_word] *)
Definition rewrite_word (w : word) : res word :=
  do l <- mapM rewrite_entry (filter (fun e => negb (all_empty (snd e) && aside (role_below w) (fst e))) (actors (w_fun w)));
  do p <- match w_fun w with
          | Jun _ _ => Err TypeError
          | Indep _ => do f <- indep_from (fuel_for l) l; Ok (f, CIndependant)
          | Dep _ _ _ => do f <- dep_from (fuel_for l) l; Ok (f, CDependant)
          | Proc _ _ _ => do f <- proc_from (fuel_for l) l; Ok (f, CProcess)
          end;
  mk_word (fst p) (w_role w) (snd p).
