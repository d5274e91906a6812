(** What the properties of dictionaries say, without the code which computes them. *)
From Coq Require Import List String Ascii Bool NArith Arith.
From Verif Require Import Base Script ScriptParser ScriptSpec Tables TablesSpec Dictionary.
Import ListNotations.

(** The texts given to the dictionary are the texts of scripts. *)
Definition tidy (so : list script -> list script) (paradigms : list string) : Prop :=
  forall p s, In p paradigms -> parse so p = Ok s -> str s = p.

(** [o] is among the objects of the relation [rel] of [s]. *)
Definition related (d : dictionary) (rel : string) (s o : script) : Prop :=
  exists l, object d s rel = Ok l /\ exists x, In x l /\ str x = str o.

(** The script is in the dictionary. *)
Definition member (d : dictionary) (s : script) : Prop := exists x, In x (d_scripts d) /\ str x = str s.

(** A row of the structure says this of the script. *)
Definition said (so : list script -> list script) (rows : list (string * string * string)) (s : script) (key value : string) : Prop :=
  exists p v, In (p, key, value) rows /\ parse so p = Ok v /\ str v = str s.
Definition true_value (v : string) : Prop := exists w, v = String "t"%char w \/ v = String "T"%char w.

(** Every word of [u] is a word of [s]. *)
Definition included (u s : script) : Prop := layer u = layer s /\ forall w, means u w -> means s w.

(** From the table [t] the parents lead to the table of the root, all the way in [ts]. *)
Inductive climbs (root : script) (ts : list table) : table -> Prop :=
| at_root t : In t ts -> tparent t = None -> tscript t = root -> climbs root ts t
| step t p : In t ts -> tparent t = Some p -> included (tscript t) (tscript p) -> climbs root ts p -> climbs root ts t.

(** The terms of a script seen as a sum, without the empty script. *)
Definition terms_of (s : script) : list script := filter (fun x => match x with Null _ => false | _ => true end) (match s with Add cs => cs | _ => [s] end).
(** The first scripts of the dictionary met when descending in [s]: its terms, and for those which are
    not in the dictionary what is met in their substance, attribute and mode. *)
Inductive met (d : dictionary) : script -> script -> Prop :=
| met_here s t : In t (terms_of s) -> member d t -> met d s t
| met_below s a b c x f : In (Mul a b c) (terms_of s) -> ~ member d (Mul a b c) -> In x [a; b; c] -> met d x f -> met d s f.

(** Two tables at different places of a list *)
Definition two_of {A} (a b : A) (l : list A) : Prop :=
  exists l1 l2 l3, l = (l1 ++ a :: l2 ++ b :: l3)%list \/ l = (l1 ++ b :: l2 ++ a :: l3)%list.
(** The siblings: two multiplications with as many singular sequences, not empty and whose substance
    and attribute are exchanged; with the same substance and attribute and another mode; of layer at
    least 2 and whose substances, and attributes, are opposed; each with its substance as attribute. *)
Definition opposed (s t : script) : Prop :=
  cardinal s = cardinal t /\ is_empty s = false /\ is_empty t = false /\
  exists a b c a' b' c', s = Mul a b c /\ t = Mul a' b' c' /\ str a = str b' /\ str b = str a'.
Definition associated (s t : script) : Prop :=
  cardinal s = cardinal t /\
  exists a b c a' b' c', s = Mul a b c /\ t = Mul a' b' c' /\ str a = str a' /\ str b = str b' /\ str c <> str c'.
Definition crossed (s t : script) : Prop :=
  cardinal s = cardinal t /\ 2 <= layer s /\
  exists a b c a' b' c', s = Mul a b c /\ t = Mul a' b' c' /\ opposed a a' /\ opposed b b'.
Definition twin (s t : script) : Prop :=
  cardinal s = cardinal t /\ (exists a b c, s = Mul a b c /\ str a = str b) /\ exists a b c, t = Mul a b c /\ str a = str b.

(** The structure says that the script is a root, or is ignored. *)
Definition marks (so : list script -> list script) (rows : list (string * string * string)) (key : string) (s : script) : Prop :=
  exists value, said so rows s key value /\ true_value value.
(** The structure inhibits the relation for this root. *)
Definition inhibits (so : list script -> list script) (paradigms : list string) (rows : list (string * string * string)) (r : script) (rel : string) : Prop :=
  exists p v, In p paradigms /\ In (p, "inhibition"%string, rel) rows /\ parse so p = Ok v /\ str v = str r.
(** The converse of each relation *)
Definition inverse (rel : string) : string :=
  (if rel =? "contains" then "contained" else if rel =? "contained" then "contains"
   else if rel =? "father_substance" then "child_substance" else if rel =? "child_substance" then "father_substance"
   else if rel =? "father_attribute" then "child_attribute" else if rel =? "child_attribute" then "father_attribute"
   else if rel =? "father_mode" then "child_mode" else if rel =? "child_mode" then "father_mode" else rel)%string.

(** ** Tables inside tables *)
(** The cell of row [i] and column [j] of an array of one tab shows the singular sequence [x]; it is
    taken by the script [s]. *)
Definition shows (a : array) (i j : nat) (x : script) : Prop := exists y, cell_at a [i; j; 0] = Some (Some y) /\ str y = str x.
Definition taken (a : array) (s : script) (i j : nat) : Prop := exists l x, ss s = Ok l /\ In x l /\ shows a i j x.
(** No singular sequence is shown twice. *)
Definition once (a : array) : Prop := forall i j i' j' x, shows a i j x -> shows a i' j' x -> i = i' /\ j = j'.
(** In an array of [n] rows and [m] columns: the places are exactly one row, exactly one column; there
    is a place in every row, in every column. *)
Definition a_row (n m : nat) (P : nat -> nat -> Prop) : Prop := exists i, i < n /\ forall i' j, i' < n -> j < m -> (P i' j <-> i' = i).
Definition a_col (n m : nat) (P : nat -> nat -> Prop) : Prop := exists j, j < m /\ forall i j', i < n -> j' < m -> (P i j' <-> j' = j).
Definition all_rows (n : nat) (P : nat -> nat -> Prop) : Prop := forall i, i < n -> exists j, P i j.
Definition all_columns (m : nat) (P : nat -> nat -> Prop) : Prop := forall j, j < m -> exists i, P i j.
(** Among [n] rows (or columns) placed on a circle those of [R] are at least two, and they form one arc
    or arcs which begin at regular distances: [l] are the last ones of the arcs which are left out. *)
Definition two_at_least (R : nat -> Prop) : Prop := exists i i', R i /\ R i' /\ i <> i'.
Definition evenly (n : nat) (R : nat -> Prop) : Prop :=
  exists l, NoDup l /\ (forall j, In j l <-> j < n /\ ~ R j /\ R ((j + 1) mod n)) /\
    (List.length l <= 1 \/ forall j, In j l -> In ((j + n / List.length l) mod n) l).
(** The places are all those of some rows and some columns, so arranged. *)
Definition block (n m : nat) (P : nat -> nat -> Prop) : Prop :=
  let R := fun i => exists j, P i j in let C := fun j => exists i, P i j in
  (forall i j, R i -> C j -> P i j) /\ two_at_least R /\ two_at_least C /\ evenly n R /\ evenly m C.

(** There is no hole between the places. *)
Definition contiguous (P : nat -> Prop) : Prop := forall i j k, P i -> P k -> i < j < k -> P j.
(** The script has exactly the singular sequences of some of these scripts. *)
Definition union_of (ts : list script) (s : script) : Prop :=
  exists f, f <> [] /\ incl f ts /\ (forall u, In u f -> layer u = layer s) /\ forall w, means s w <-> exists u, In u f /\ means u w.

(** ** What a dictionary is built from *)
(** The texts which the rows of the structure declare with this key and a true value *)
Definition yes (v : string) : bool := match v with String c _ => Ascii.eqb c "t" || Ascii.eqb c "T" | EmptyString => false end.
Definition flagged (rows : list (string * string * string)) (key : string) : list string :=
  map (fun row => fst (fst row)) (filter (fun row => String.eqb (snd (fst row)) key && yes (snd row)) rows).
(** The paradigms are texts of scripts and no value of the structure is empty. The roots are plural
    paradigms, disjoint, each stated once. What is ignored is plural, is not a root, is covered by the
    roots and is stated once. No term of a sum of a plural paradigm repeats a singular sequence of
    another one, and no dimension of its tables is too long. At most two paradigms are nested under a root. *)
Record well_stated (so : list script -> list script) (paradigms : list string) (rows : list (string * string * string)) : Prop := {
  ws_texts : forall p, In p paradigms -> exists s, parse so p = Ok s /\ str s = p;
  ws_values : forall p key, ~ In (p, key, EmptyString) rows;
  ws_roots : NoDup (flagged rows "is_root");
  ws_root : forall p, In p (flagged rows "is_root") -> In p paradigms /\ forall s, parse so p = Ok s -> cardinal s <> 1%N;
  ws_disjoint : forall p q s t, In p (flagged rows "is_root") -> In q (flagged rows "is_root") -> p <> q ->
    parse so p = Ok s -> parse so q = Ok t -> disjoint s t;
  ws_ignored : NoDup (flagged rows "is_ignored");
  ws_ignore : forall p, In p (flagged rows "is_ignored") -> In p paradigms /\ ~ In p (flagged rows "is_root") /\
    forall s, parse so p = Ok s -> cardinal s <> 1%N /\ forall w, means s w -> exists q r, In q (flagged rows "is_root") /\ parse so q = Ok r /\ means r w;
  ws_tables : forall p s, In p paradigms -> parse so p = Ok s -> cardinal s <> 1%N -> sums_disjoint s /\ ~ too_wide s;
  ws_nested : forall p q r s t u, NoDup [p; q; r] -> (forall x, In x [p; q; r] -> In x paradigms /\ ~ In x (flagged rows "is_root")) ->
    parse so p = Ok s -> parse so q = Ok t -> parse so r = Ok u -> cardinal s <> 1%N -> included s t -> included t u -> False }.
