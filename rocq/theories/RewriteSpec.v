(** Specification used by Properties41: a word without some flexions. *)
From Coq Require Import List String Bool Arith.
From Verif Require Import Base Script Usl Sfun.
Import ListNotations.
Local Open Scope string_scope.

(** Infinitive, optative, active; singular, indefinite (rewrite_words.py 20-26). *)
Definition PROCESS_REMOVE := ["E:.-'we.-S:.-'t.o.-',"; "E:.-'wu.-S:.-'t.o.-',"; "E:.-wa.-t.o.-'"].
Definition DEPENDANT_REMOVE := ["E:.wo.-"; "E:S:.-d.u.-'"].
(** The flexions to remove at an address: those of a process at its valence, none of an independent quality, those of a
    dependant quality at an actant and at a dependant quality. *)
Definition unwanted (r : role) : list string :=
  let a := last r "" in if ins a VALENCES then PROCESS_REMOVE else if String.eqb a INDEPENDANT_QUALITY then [] else DEPENDANT_REMOVE.
(** The same content, and a flexion with the other constants only. *)
Definition strips (bad : list string) (x x' : lexeme) : Prop :=
  pm_content x' = pm_content x /\ groups (pm_flexion x') = [] /\
  forall s, is_empty s = false -> (In s (constant (pm_flexion x')) <-> In s (constant (pm_flexion x)) /\ ~ In (str s) bad).
(** An address and its lexeme before and after. *)
Definition stripped (e e' : role * option lexeme) : Prop :=
  fst e' = fst e /\ exists x x', snd e = Some x /\ snd e' = Some x' /\ strips (unwanted (fst e)) x x'.
