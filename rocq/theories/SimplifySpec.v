(** Specification used by Properties31: what is left of a word without its empty leaves. *)
From Coq Require Import List String Bool Arith.
From Verif Require Import Base Script Usl Sfun MemberSpec.
Import ListNotations.

(** A word of the parser. *)
Definition made (w : word) : Prop := exists l r, word_of l r = Ok w.
Definition above (r s : role) : Prop := exists t, s = (r ++ t)%list.
(** The address in focus, with the address of the kind of function in front. *)
Definition focus (w : word) : role :=
  let p := context_prefix (w_context w) in (p ++ skipn (List.length p) (w_role w))%list.
(** All the addresses of a word, also those of its junctions, which have no lexeme. *)
Definition nodes (w : word) : list (role * option lexeme) :=
  map (fun e => ((context_prefix (w_context w) ++ fst e)%list, actor_of (snd e))) (actors (w_fun w)).
(** An address with a lexeme which is not empty. *)
Definition occupied (w : word) (s : role) : Prop := exists x, lexeme_at w s x /\ lexeme_empty x = false.
(** The valence of a process is above all its addresses. *)
Definition valence (r : role) : Prop := exists v, r = [v] /\ In v VALENCES.
Definition keeps (w : word) (r : role) : Prop :=
  above r (focus w) \/ exists s, occupied w s /\ (above r s \/ valence r).
(** An address through a junction. *)
Definition linked (r : role) : Prop := Exists (fun a => In a JUNCTION_SCRIPTS) r.
Definition through (w : word) : Prop := linked (focus w) \/ exists s, occupied w s /\ linked s.
(** An address with no other one below. *)
Definition leaf (w : word) (r : role) : Prop :=
  forall s, In s (map fst (nodes w)) -> above r s \/ valence r -> s = r.
