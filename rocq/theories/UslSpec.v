(** Specification of polymorphemes, independent of the model's helpers. *)
From Coq Require Import List String Bool Arith Permutation.
From Verif Require Import Base Script ScriptSpec Usl.
Import ListNotations.

(** The morphemes that count: those that are not an empty script. *)
Definition meaningful (l : list script) : list script := filter (fun m => negb (is_empty m)) l.
(** The same morphemes (up to [==]), each the same number of times, in any order. *)
Definition same_morphemes (l l' : list script) : Prop := Permutation (map str (meaningful l)) (map str (meaningful l')).
(** The same groups in any order, with the same multiplicities. *)
Definition same_group (g h : group) : Prop := same_morphemes (fst g) (fst h) /\ snd g = snd h.
Definition same_groups (gs hs : list group) : Prop := exists gs', Permutation gs gs' /\ Forall2 same_group gs' hs.

(** Arguments a caller can give to [PolyMorpheme(constant, groups)]. *)
Definition good_groups (gs : list group) : Prop := Forall (fun g => Forall regular (fst g)) gs.

(** [c] is some of the elements of [l], in their order. *)
Inductive subseq {A} : list A -> list A -> Prop :=
| sub_nil l : subseq [] l
| sub_take x c l : subseq c l -> subseq (x :: c) (x :: l)
| sub_skip x c l : subseq c l -> subseq c (x :: l).

(** What is taken from the groups: the numbers taken from two groups differ by one at most
    ([q] or [q+1]); they do not exceed the multiplicities, except that when a group has only
    [q] morphemes, [q+1] can be taken from the others. *)
Definition picks (gs : list group) (cs : list (list script)) : Prop :=
  exists q,
    Forall (fun g => q <= List.length (fst g) /\ q <= snd g) gs /\
    Forall2 (fun g c => subseq c (fst g) /\
      (List.length c = q \/
       (List.length c = S q /\ (S q <= snd g \/ exists h, In h gs /\ List.length (fst h) = q)))) gs cs.

(** [d] lists the distinct elements of [l], without repetition. *)
Definition distinct_of (l d : list script) : Prop :=
  NoDup (map str d) /\ incl d l /\ (forall x, In x l -> In (str x) (map str d)).

(** The polymorphemes of a choice. *)
Definition result_of (constants : list script) (cs : list (list script)) (t : string) : Prop :=
  exists d, distinct_of (List.concat cs ++ constants) d /\ 1 <= List.length d <= 5 /\ t = pm_str (mk_pm d []).

(** A polymorpheme (a lexeme) that a caller can build. *)
Definition built (p : pm) : Prop := exists cs gs, Forall regular cs /\ good_groups gs /\ p = mk_pm cs gs.
Definition built_lexeme (l : lexeme) : Prop := built (pm_flexion l) /\ built (pm_content l).

(** The morphemes of the group [g] that are in the polymorpheme [s]. *)
Definition taken (s : pm) (g : group) : list script := filter (fun m => existsb (fun c => script_eqb m c) (constant s)) (fst g).
(** No morpheme occurs twice, as [check] requires. *)
Definition no_repetition (p : pm) : Prop := NoDup (map str (constant p ++ flat_map fst (groups p))).
