(** Model of ieml/usl/polymorpheme.py and ieml/usl/lexeme.py. Definitions only. *)
From Coq Require Import List String Ascii Bool NArith Arith DecimalString.
From Verif Require Import Base Script Commons.
Import ListNotations.
Local Open Scope string_scope.

(** Comparison of tuples and lists: the first different elements decide, then the lengths. *)
Section Seq.
  Context {A : Type} (eqb lt : A -> A -> bool).
  Fixpoint seq_eqb (a b : list A) : bool :=
    match a, b with
    | [], [] => true
    | x :: a, y :: b => (eqb x y && seq_eqb a b)%bool
    | _, _ => false
    end.
  Fixpoint seq_lt (a b : list A) : bool :=
    match a, b with
    | _, [] => false
    | [], _ :: _ => true
    | x :: a, y :: b => if eqb x y then seq_lt a b else lt x y
    end.
End Seq.

(** [str(n)] of an int. *)
Definition int_str (n : nat) : string := NilEmpty.string_of_uint (Nat.to_uint n).

(** A group is a tuple of morphemes and its multiplicity; multiplicities are natural
    numbers here (the parser only gives such ones). *)
Definition group := (list script * nat)%type.
Definition group_eqb (g h : group) : bool := (seq_eqb script_eqb (fst g) (fst h) && Nat.eqb (snd g) (snd h))%bool.
Definition group_lt (g h : group) : bool :=
  if seq_eqb script_eqb (fst g) (fst h) then Nat.ltb (snd g) (snd h) else seq_lt script_eqb lt (fst g) (fst h).

(** polymorpheme.py 151-172 *)
Record pm := { constant : list script; groups : list group }.

(** polymorpheme.py 53-54 *)
Definition filter_empty (l : list script) : list script := filter (fun m => negb (is_empty m)) l.
(** polymorpheme.py 154-172; a constant without morpheme is the tuple of E: (168-169). *)
Definition mk_pm (cs : list script) (gs : list group) : pm :=
  {| constant := match isort (filter_empty cs) with [] => [Null 0] | l => l end;
     groups := sort group_lt (map (fun g => (isort (filter_empty (fst g)), snd g)) gs) |}.

(** polymorpheme.py 164-166; the E: put in an empty constant is not printed. *)
Definition group_str (g : group) : string := "m" ++ int_str (snd g) ++ "(" ++ join " " (map str (fst g)) ++ ")".
Definition pm_str (p : pm) : string :=
  join " " (map str (filter_empty (constant p)) ++ map group_str (groups p))%list.

(** polymorpheme.py 171-172: the classes are ordered auxiliary, verb, noun. *)
Definition pm_class (p : pm) : nat := maxl (map script_class (constant p)).

(** polymorpheme.py 174-175 *)
Definition pm_empty (p : pm) : bool :=
  match groups p, constant p with
  | [], [c] => is_empty c
  | _, _ => false
  end.

(** usl.py 45-46: [==] compares strings. *)
Definition pm_eqb (p q : pm) : bool := String.eqb (pm_str p) (pm_str q).
(** usl.py 33-42, polymorpheme.py 180-183, between polymorphemes. *)
Definition pm_lt (p q : pm) : bool :=
  let n := List.length (constant p) in
  let n' := List.length (constant q) in
  let same := seq_eqb script_eqb (constant p) (constant q) in
  (Nat.ltb n n' ||
   (Nat.eqb n n' && seq_lt script_eqb lt (constant p) (constant q)) ||
   (same && seq_lt group_eqb group_lt (groups p) (groups q)))%bool.

(** ** Singular sequences *)
(** [itertools.combinations(l, k)] *)
Fixpoint combinations {A} (k : nat) (l : list A) : list (list A) :=
  match k with
  | 0 => [[]]
  | S k' => match l with
            | [] => []
            | x :: r => (map (cons x) (combinations k' r) ++ combinations k r)%list
            end
  end.
(** [itertools.product] of the lists [ls] *)
Fixpoint product {A} (ls : list (list A)) : list (list A) :=
  match ls with
  | [] => [[]]
  | l :: r => flat_map (fun x => map (cons x) (product r)) l
  end.

(** constants.py 220 *)
Definition MORPHEME_SERIE_SIZE_LIMIT_CONTENT := 5.
(** constants.py 225 *)
Definition POLYMORPHEME_MAX_MULTIPLICITY := 3.

Definition minl (l : list nat) : nat := match l with [] => 0 | x :: r => fold_left Nat.min r x end.

Section SingularSequences.
  (** The iteration order of the set of morphemes, 138. *)
  Variable so : list script -> list script.
  Variable gs : list group.

  Definition n_groups := List.length gs.
  (** 100 *)
  Definition min_len := minl (map (fun g => List.length (fst g)) gs).
  (** 102-105: group [j] is in [max_sizes_groups[q]]. *)
  Definition exceeds (q : nat) (g : group) : bool := (Nat.ltb (snd g) q && Nat.leb q min_len)%bool.
  Definition group_at (i : nat) : group := nth i gs ([], 0).

  (** 118-126, for one choice of the groups that yield q + 1 elements. *)
  Definition choices (q : nat) (indexes : list nat) : list (list (list script)) :=
    if existsb (fun j => exceeds (S q) (group_at j)) indexes then []
    else if existsb (fun j => Nat.leb (List.length (fst (group_at j))) q) indexes then []
    else product (map (fun i => combinations (S q) (fst (group_at i))) indexes ++
                  map (fun i => combinations q (fst (group_at i)))
                      (filter (fun i => negb (existsb (Nat.eqb i) indexes)) (seq 0 n_groups)))%list.

  (** 107-127: [for i in count()], which stops at the latest when q is min_len + 1. *)
  Fixpoint iter_groups (fuel i : nat) : list (list (list script)) :=
    match fuel with
    | 0 => []
    | S f =>
      let q := i / n_groups in
      let r := i mod n_groups in
      if (Nat.eqb q (S min_len) || existsb (exceeds q) gs)%bool then []
      else (flat_map (choices q) (combinations r (seq 0 n_groups)) ++ iter_groups f (S i))%list
    end.
  Definition groups_combinations := iter_groups (S (n_groups * S min_len)) 0.

  (** 129-145 *)
  Definition traits (constants : list script) : list pm :=
    let ps := flat_map (fun g =>
      let morphemes := so (dedup script_eqb (List.concat g ++ constants)%list) in
      if (Nat.eqb (List.length morphemes) 0 || Nat.ltb MORPHEME_SERIE_SIZE_LIMIT_CONTENT (List.length morphemes))%bool
      then [] else [mk_pm morphemes []]) groups_combinations in
    map snd (set_items String.eqb (map (fun p => (pm_str p, p)) ps)).
End SingularSequences.

(** 56-58, 211-216 *)
Definition pm_ss (so : list script -> list script) (p : pm) : list pm :=
  match groups p with
  | [] => [p]
  | gs => traits so gs (constant p)
  end.

(** usl.py 71-73, 93-94: cardinal and is_singular. *)
Definition pm_singular (so : list script -> list script) (p : pm) : bool := Nat.eqb (List.length (pm_ss so p)) 1.

(** polymorpheme.py 15-50, every test raising ValueError; the tests on the Python types
    always pass here. *)
Definition sorted_scripts (l : list script) : bool := seq_eqb script_eqb (isort l) l.
Definition check_pm (p : pm) : res unit :=
  let all := (constant p ++ flat_map fst (groups p))%list in
  let nonempty (g : group) := match fst g with [] => false | _ => true end in
  if negb (seq_eqb group_eqb (sort group_lt (groups p)) (groups p)) then Err ValueError
  else if existsb (fun g => negb (sorted_scripts (fst g))) (groups p) then Err ValueError
  else if existsb (fun g => (nonempty g && (Nat.eqb (snd g) 0 || Nat.ltb POLYMORPHEME_MAX_MULTIPLICITY (snd g)))%bool) (groups p)
  then Err ValueError
  else if existsb (fun g => (nonempty g && Nat.ltb (List.length (fst g)) (snd g))%bool) (groups p) then Err ValueError
  else if negb (sorted_scripts (constant p)) then Err ValueError
  else if negb (Nat.eqb (List.length (dedup script_eqb all)) (List.length all)) then Err ValueError
  else if existsb (fun m => negb (N.eqb (cardinal m) 1)) all then Err ValueError
  else Ok tt.

(** ** Lexemes, ieml/usl/lexeme.py *)
Record lexeme := { pm_flexion : pm; pm_content : pm }.
Definition paren (s : string) : string := "(" ++ s ++ ")".
(** 33-41 *)
Definition lexeme_str (l : lexeme) : string :=
  let parts0 := if pm_empty (pm_content l) then [] else [paren (pm_str (pm_content l))] in
  let parts := match parts0 with
               | [] => if pm_empty (pm_flexion l) then [] else [paren (pm_str (pm_flexion l))]
               | _ => (parts0 ++ [paren (pm_str (pm_flexion l))])%list
               end in
  let s := sconcat (List.rev parts) in
  if String.eqb s "" then "()" else s.
Definition lexeme_eqb (a b : lexeme) : bool := String.eqb (lexeme_str a) (lexeme_str b).
(** 66-68 *)
Definition lexeme_empty (l : lexeme) : bool := (pm_empty (pm_content l) && pm_empty (pm_flexion l))%bool.
(** 71-73, between lexemes *)
Definition lexeme_lt (a b : lexeme) : bool :=
  (pm_lt (pm_flexion a) (pm_flexion b) ||
   (pm_eqb (pm_flexion a) (pm_flexion b) && pm_lt (pm_content a) (pm_content b)))%bool.
(** 76-85 *)
Definition lexeme_ss (so : list script -> list script) (l : lexeme) : list lexeme :=
  if (pm_singular so (pm_flexion l) && pm_singular so (pm_content l))%bool then [l]
  else flat_map (fun f => map (fun c => {| pm_flexion := f; pm_content := c |}) (pm_ss so (pm_content l)))
                (pm_ss so (pm_flexion l)).
(** 5-15: the tests of check_lexeme on its parts; line 7 always passes here. *)
Definition check_lexeme (l : lexeme) : res unit := do _ <- check_pm (pm_flexion l); check_pm (pm_content l).
