(** Specification vocabulary for scripts: which scripts a program can build, when two
    results are the same for the user, what a script means. *)
From Coq Require Import List String Bool NArith Arith Permutation.
From Verif Require Import Base Script ScriptParser.
Import ListNotations.

(** An iteration order of Python sets: any function that only reorders. *)
Definition set_order (so : list script -> list script) : Prop :=
  forall l, Permutation (so l) l.

(** The scripts that some sequence of calls to the public constructors can build. *)
Inductive constructible : script -> Prop :=
| c_null l s : mk_null l = Ok s -> constructible s
| c_mul cs s : (forall c, In (Some c) cs -> constructible c) -> mk_mul cs = Ok s -> constructible s
| c_mul_char ch s : mk_mul_char ch = Ok s -> constructible s
| c_add so cs s : set_order so -> (forall c, In c cs -> constructible c) ->
    mk_add so cs = Ok s -> constructible s
| c_add_char so ch s : set_order so -> mk_add_char so ch = Ok s -> constructible s.

(** A sum with only one term, as [script("wo.+wo.")] returns. *)
Definition one_term_sum (s : script) : Prop := exists x, s = Add [x].

(** The scripts on which the order and the algebra are stated. *)
Definition regular (s : script) : Prop := constructible s /\ ~ one_term_sum s.

(** Python's [a == b]. *)
Definition script_eq (a b : script) : Prop := str a = str b.

(** Two calls give the user the same thing. *)
Definition same_result (r r' : res script) : Prop :=
  match r, r' with
  | Ok s, Ok s' => script_eq s s'
  | Err e, Err e' => e = e'
  | _, _ => False
  end.

(** The attributes of a script that are observable through the API. *)
Definition same_attributes (a b : script) : Prop :=
  str a = str b /\ layer a = layer b /\ cardinal a = cardinal b /\
  canonical a = canonical b /\ script_class a = script_class b /\
  paradigm a = paradigm b /\ is_empty a = is_empty b.

(** The meaning of a script of layer [l]: a set of words of [3^l] letters among
    E (written [None]), U, A, S, B, T. *)
Definition word := list (option prim).

Fixpoint means (s : script) (w : word) : Prop :=
  match s with
  | Null l => w = repeat None (3 ^ l)
  | Prim p => w = [Some p]
  | Mul a b c => exists u v t, means a u /\ means b v /\ means c t /\ w = (u ++ v ++ t)%list
  | Add cs => fold_right (fun c Q => means c w \/ Q) False cs
  end.

Definition same_meaning (a b : script) : Prop :=
  layer a = layer b /\ forall w, means a w <-> means b w.

(** A script with a single word. *)
Definition singular (s : script) : Prop := exists w, forall w', means s w' <-> w' = w.

(** The terms of every sum occurring in the script are disjoint. *)
Definition disjoint (a b : script) : Prop := forall w, means a w -> means b w -> False.

Fixpoint sums_disjoint (s : script) : Prop :=
  match s with
  | Null _ | Prim _ => True
  | Mul a b c => sums_disjoint a /\ sums_disjoint b /\ sums_disjoint c
  | Add cs => ForallOrdPairs disjoint cs /\ fold_right (fun c Q => sums_disjoint c /\ Q) True cs
  end.

(** The grammatical class announced by the first letter of a word: auxiliary (0) for E,
    verb (1) for U and A, noun (2) for S, B and T. *)
Definition letter_class (x : option prim) : nat :=
  match x with
  | None => 0
  | Some PU | Some PA => 1
  | Some _ => 2
  end.
Definition word_class (w : word) : nat := letter_class (hd None w).

(** [t] is one of the terms of [c]: [c] itself, or a term of the sum [c]. *)
Definition term_of (t c : script) : Prop :=
  (is_add c = false /\ t = c) \/ In t (add_children c).

(** The distinct terms of the arguments of a sum. *)
Definition distinct_terms (cs ts : list script) : Prop :=
  NoDup (map str ts) /\
  (forall t, In t ts -> exists c, In c cs /\ term_of t c) /\
  (forall c t, In c cs -> term_of t c -> exists t', In t' ts /\ str t' = str t).

(** The same script up to the spelling of the empty script and one-term sums. *)
Inductive same_script : script -> script -> Prop :=
| same_refl s : same_script s s
| same_sym s t : same_script s t -> same_script t s
| same_trans s t u : same_script s t -> same_script t u -> same_script s u
| same_mul a b c a' b' c' : same_script a a' -> same_script b b' -> same_script c c' ->
    same_script (Mul a b c) (Mul a' b' c')
| same_add l l' : Forall2 same_script l l' -> same_script (Add l) (Add l')
| same_empty l : same_script (Mul (Null l) (Null l) (Null l)) (Null (S l))
| same_one x : same_script (Add [x]) x.
