(** Specification of what the tests of USLs ([check]) require. *)
From Coq Require Import List String Bool Arith NArith.
From Verif Require Import Base Script ScriptSpec Usl UslSpec Sfun.
Import ListNotations.

(** The arguments of [PolyMorpheme(constant=cs, groups=gs)] that make a correct polymorpheme:
    the empty scripts are left out; no morpheme is given twice, neither in a group nor in
    two; every morpheme is a singular sequence; a group that is not void has a multiplicity
    between 1 and 3 and at least as many morphemes. *)
Definition acceptable (cs : list script) (gs : list group) : Prop :=
  let morphemes := meaningful (cs ++ flat_map fst gs) in
  NoDup (map str morphemes) /\
  (forall m, In m morphemes -> cardinal m = 1%N) /\
  (forall ms n, In (ms, n) gs -> meaningful ms <> [] -> 1 <= n <= 3 /\ n <= List.length (meaningful ms)).

(** A correct polymorpheme. *)
Definition correct (p : pm) : Prop :=
  exists cs gs, Forall regular cs /\ good_groups gs /\ acceptable cs gs /\ p = mk_pm cs gs.
Definition correct_lexeme (l : lexeme) : Prop := correct (pm_flexion l) /\ correct (pm_content l).
