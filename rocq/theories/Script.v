(** Model of ieml/dictionary/script/script.py : the script objects, their attributes,
    comparison, constructors, singular sequences. Definitions only. *)
From Coq Require Import List String Ascii Bool NArith Arith.
From Verif Require Import Base.
Import ListNotations.
Local Open Scope string_scope.

(** ieml/constants.py 74-81: PRIMITIVES without 'E', which is always a NullScript
    (script.py 367-368 and 71). *)
Inductive prim := PU | PA | PS | PB | PT.

(** The Python objects: [Null l] is NullScript(layer=l) (script.py 550-578), [Prim p]
    a MultiplicativeScript of layer 0 (no children), [Mul a b c] a MultiplicativeScript
    with its three children, [Add cs] an AdditiveScript with its children list.
    Object identity, literals and caches are not part of this type. *)
Inductive script :=
| Null (l : nat)
| Prim (p : prim)
| Mul (a b c : script)
| Add (cs : list script).

(** ieml/constants.py 59 *)
Definition MAX_LAYER : nat := 6.
(** ieml/constants.py 57 *)
Definition MAX_SINGULAR_SEQUENCES : N := 360%N.
(** ieml/constants.py 58 *)
Definition MAX_SIZE_HEADER : N := 12%N.
(** ieml/constants.py 64-72; the empty string stands for the IndexError that the
    constructors raise for a layer above 6. *)
Definition LAYER_MARK (n : nat) : string :=
  nth n [":"; "."; "-"; "'"; ","; "_"; ";"] "".

(** ieml/constants.py 83-91 *)
Definition prim_value (p : prim) : N :=
  match p with PU => 2 | PA => 4 | PS => 8 | PB => 16 | PT => 32 end%N.
Definition E_value : N := 1%N.

Definition prim_char (p : prim) : string :=
  match p with PU => "U" | PA => "A" | PS => "S" | PB => "B" | PT => "T" end.

(** ieml/constants.py 93-99 *)
Definition remarkable_mul (a b : prim) : string :=
  match a, b with
  | PU, PU => "wo" | PU, PA => "wa" | PU, PS => "y" | PU, PB => "o" | PU, PT => "e"
  | PA, PU => "wu" | PA, PA => "we" | PA, PS => "u" | PA, PB => "a" | PA, PT => "i"
  | PS, PU => "j" | PS, PA => "g" | PS, PS => "s" | PS, PB => "b" | PS, PT => "t"
  | PB, PU => "h" | PB, PA => "c" | PB, PS => "k" | PB, PB => "m" | PB, PT => "n"
  | PT, PU => "p" | PT, PA => "x" | PT, PS => "d" | PT, PB => "f" | PT, PT => "l"
  end.

(** script.py 396-397 (lookup of the rendered children in the table of remarkable
    multiplications). The keys "U:U:"... are rendered by exactly these children. *)
Definition mul_character (a b c : script) : option string :=
  match a, b, c with
  | Prim p, Prim q, Null 0 => Some (remarkable_mul p q)
  | _, _, _ => None
  end.

Definition prim_eqb (p q : prim) : bool :=
  match p, q with
  | PU, PU | PA, PA | PS, PS | PB, PB | PT, PT => true
  | _, _ => false
  end.

(** The letters of a list of layer 0 children, 'E' being [None] (script.py 270:
    first character of the string of each child; the children of a sum are never sums). *)
Definition letter (s : script) : option (option prim) :=
  match s with
  | Null 0 => Some None
  | Prim p => Some (Some p)
  | _ => None
  end.

Definition letter_eqb (x y : option prim) : bool :=
  match x, y with
  | None, None => true
  | Some p, Some q => prim_eqb p q
  | _, _ => false
  end.

(** ieml/constants.py 101-106, in dictionary order *)
Definition REMARKABLE_ADDITION : list (string * list (option prim)) :=
  [("O", [Some PU; Some PA]);
   ("M", [Some PS; Some PB; Some PT]);
   ("F", [Some PU; Some PA; Some PS; Some PB; Some PT]);
   ("I", [None; Some PU; Some PA; Some PS; Some PB; Some PT])].

(** script.py 271-274: set equality. *)
Definition same_letters (cs : list script) (v : list (option prim)) : bool :=
  forallb (fun c => match letter c with
                    | Some x => memb letter_eqb x v
                    | None => false
                    end) cs
  && forallb (fun x => existsb (fun c => match letter c with
                                         | Some y => letter_eqb x y
                                         | None => false
                                         end) cs) v.

(** script.py 269-274. *)
Definition add_character (cs : list script) : option string :=
  option_map fst (find (fun kv => same_letters cs (snd kv)) REMARKABLE_ADDITION).

(** script.py 281, 286, 406, 411, 552: attribute [layer]. *)
Fixpoint layer (s : script) : nat :=
  match s with
  | Null l => l
  | Prim _ => 0
  | Mul a _ _ => S (layer a)
  | Add [] => 0
  | Add (c :: _) => layer c
  end.

(** script.py 282, 287, 409, 412, 554: attribute [empty]. *)
Fixpoint is_empty (s : script) : bool :=
  match s with
  | Null _ => true
  | Prim _ => false
  | Mul a b c => is_empty a && is_empty b && is_empty c
  | Add cs => forallb is_empty cs
  end.

(** script.py 283, 288, 407, 413, 553: attribute [paradigm]. *)
Fixpoint paradigm (s : script) : bool :=
  match s with
  | Null _ => false
  | Prim _ => false
  | Mul a b c => paradigm a || paradigm b || paradigm c
  | Add cs => Nat.ltb 1 (List.length cs) || existsb paradigm cs
  end.

(** script.py 284, 289, 408, 415-417, 555: attribute [cardinal], also [len()]. *)
Fixpoint cardinal (s : script) : N :=
  match s with
  | Null _ => 1%N
  | Prim _ => 1%N
  | Mul a b c => (cardinal a * cardinal b * cardinal c)%N
  | Add cs => sumN (map cardinal cs)
  end.

(** script.py 306-316, 461-465, 559: attribute [canonical]. *)
Fixpoint canonical (s : script) : list N :=
  match s with
  | Null l => repeat E_value (3 ^ l)
  | Prim p => [prim_value p]
  | Mul a b c => (canonical a ++ canonical b ++ canonical c)%list
  | Add cs =>
    if Nat.eqb (layer (Add cs)) 0
    then [fold_left N.lor
            (map (fun c => match c with Prim p => prim_value p | _ => E_value end) cs) 0%N]
    else List.concat (map canonical cs)
  end.

(** ieml/constants.py 33-41 and script.py 295, 418-423, 560: attribute [script_class]:
    auxiliary 0, verb 1, noun 2. *)
Fixpoint script_class (s : script) : nat :=
  match s with
  | Null _ => 0
  | Prim p => match p with PU | PA => 1 | _ => 2 end
  | Mul a _ _ => script_class a
  | Add cs => maxl (map script_class cs)
  end.

(** script.py 568-573. *)
Definition null_str (l : nat) : string :=
  "E" ++ sconcat (map LAYER_MARK (seq 0 (S l))).

(** script.py 444-456 on three children given as (string, empty). *)
Definition render3 (a b c : string * bool) : string :=
  if snd c then
    if snd b then fst a else fst a ++ fst b
  else fst a ++ fst b ++ fst c.

(** script.py 301-304, 458-459, 568-573: [str()]. *)
Fixpoint str (s : script) : string :=
  match s with
  | Null l => null_str l
  | Prim p => prim_char p ++ LAYER_MARK 0
  | Mul a b c =>
    match mul_character a b c with
    | Some ch => ch ++ LAYER_MARK 1
    | None => render3 (str a, is_empty a) (str b, is_empty b) (str c, is_empty c)
              ++ LAYER_MARK (S (layer a))
    end
  | Add cs =>
    match (if Nat.eqb (layer (Add cs)) 0 then add_character cs else None) with
    | Some ch => ch ++ LAYER_MARK 0
    | None => join "+" (map str cs)
    end
  end.

(** script.py 81-85: [==] compares the strings. *)
Definition script_eqb (a b : script) : bool := String.eqb (str a) (str b).

(** script.py 143-149: the value of a layer 0 script. *)
Definition char_value (s : script) : N :=
  match s with
  | Null _ => E_value
  | Prim p => prim_value p
  | Mul _ _ _ => 0%N
  | Add cs => sumN (map (fun c => match c with Prim p => prim_value p | _ => E_value end) cs)
  end.

(** script.py 91-151: [<]. *)
Fixpoint lt (s o : script) {struct s} : bool :=
  if script_eqb s o then false
  else if negb (Nat.eqb (layer s) (layer o)) then Nat.ltb (layer s) (layer o)
  else match s, o with
  | Null _, _ => true
  | _, Null _ => false
  | _, _ =>
    if negb (N.eqb (cardinal s) (cardinal o)) then N.ltb (cardinal s) (cardinal o)
    else if negb (bytes_eqb (canonical s) (canonical o))
    then bytes_lt (canonical s) (canonical o)
    else if negb (Nat.eqb (layer s) 0) then
      (* script.py 118-132: walk on the children *)
      let fix walk (cs os : list script) {struct cs} : bool :=
          match cs, os with
          | [], _ => true
          | _ :: _, [] => false
          | c :: cs', o' :: os' =>
            if script_eqb o' c then walk cs' os' else lt c o'
          end in
      match s, o with
      | Mul a b c, Mul a' b' c' =>
        if script_eqb a' a then
          if script_eqb b' b then
            if script_eqb c' c then true else lt c c'
          else lt b b'
        else lt a a'
      | Add cs, Add os => walk cs os
      | Mul _ _ _, _ => true
      | Prim _, _ => true
      | _, _ => false
      end
    else N.ltb (char_value s) (char_value o)
  end.

Definition isort : list script -> list script := sort lt.

(** script.py 581: NULL_SCRIPTS is [NullScript(0..5)]. NullScript(layer) itself raises
    IndexError above layer 6 (568-573). *)
Definition mk_null (l : nat) : res script :=
  if Nat.leb l MAX_LAYER then Ok (Null l) else Err IndexError.

(** script.py 377-381: a sum with one child is replaced by its child. *)
Definition unwrap (c : script) : script :=
  match c with
  | Add [x] => x
  | _ => c
  end.

(** script.py 384-386: an empty child is replaced by a NullScript. *)
Definition nullify (c : script) : script :=
  if is_empty c then Null (layer c) else c.

(** script.py 352-356: the children up to the first None. *)
Fixpoint until_none {A} (l : list (option A)) : list A :=
  match l with
  | Some x :: r => x :: until_none r
  | _ => []
  end.

(** script.py 347-442: MultiplicativeScript(children=...). The lookup of the character
    (396-397) is part of [str]; it does not influence the other attributes, whose values
    for a remarkable multiplication are the ones the general formula gives. *)
Definition mk_mul_l (cs : list script) : res script :=
  match map (fun c => nullify (unwrap c)) cs with
  | [] => Err IndexError
  | _ :: _ :: _ :: _ :: _ => Err InvalidScript
  | a :: r =>
    let l := layer (hd a cs) in
    let b := nth 0 r (Null l) in
    let c := nth 1 r (Null l) in
    if negb (Nat.eqb (layer a) (layer b) && Nat.eqb (layer b) (layer c))
    then Err InvalidScript
    else if N.ltb MAX_SINGULAR_SEQUENCES (cardinal (Mul a b c))
    then Err TooManySingularSequences
    else if Nat.ltb MAX_LAYER (layer (Mul a b c)) then Err IndexError
    else Ok (Mul a b c)
  end.

Definition mk_mul (cs : list (option script)) : res script := mk_mul_l (until_none cs).

(** script.py 359-373: MultiplicativeScript(character=...). 'E' is refused. *)
Definition mk_mul_char (ch : string) : res script :=
  match find (fun p => String.eqb (prim_char p) ch) [PU; PA; PS; PB; PT] with
  | Some p => Ok (Prim p)
  | None =>
    if String.eqb ch "E" then Err InvalidScript
    else match find (fun pq => String.eqb (remarkable_mul (fst pq) (snd pq)) ch)
                    (list_prod [PU; PA; PS; PB; PT] [PU; PA; PS; PB; PT]) with
         | Some (p, q) => Ok (Mul (Prim p) (Prim q) (Null 0))
         | None => Err InvalidScriptCharacter
         end
  end.

Definition is_add (s : script) : bool :=
  match s with Add _ => true | _ => false end.
Definition add_children (s : script) : list script :=
  match s with Add cs => cs | _ => [] end.

(** script.py 252-266: flattening and removal of duplicates, before the set is turned
    into a list. The code also extends the list given by the caller; that side effect
    on the argument is not modelled. *)
Definition flatten (cs : list script) : list script :=
  let to_remove := filter is_add cs in
  let to_add := flat_map add_children cs in
  dedup script_eqb (filter (fun c => negb (memb script_eqb c to_remove)) (cs ++ to_add)%list).

(** script.py 235-299: AdditiveScript(children=...). [so] is the order in which Python
    iterates over the set of children. *)
Definition mk_add (so : list script -> list script) (cs : list script) : res script :=
  match cs with
  | [] => Err InvalidScript
  | c0 :: _ =>
    if negb (forallb (fun c => Nat.eqb (layer c) (layer c0)) cs)
    then Err IncompatiblesScriptsLayers
    else
      let children := so (flatten cs) in
      match children with
      | [] => Err IndexError
      | _ =>
        if N.ltb MAX_SINGULAR_SEQUENCES (sumN (map cardinal children))
        then Err TooManySingularSequences
        else Ok (Add (isort children))
      end
  end.

(** script.py 235-249, 584-617: AdditiveScript(character=...), whose children come from
    a Python set, then [so] again reorders them. *)
Definition letter_script (x : option prim) : script :=
  match x with None => Null 0 | Some p => Prim p end.

Definition mk_add_char (so : list script -> list script) (ch : string) : res script :=
  match find (fun kv => String.eqb (fst kv) ch) REMARKABLE_ADDITION with
  | Some (_, v) => mk_add so (map letter_script v)
  | None => Err InvalidScriptCharacter
  end.

(** script.py 196-200, 318-326, 467-487, 575: attribute [singular_sequences]. *)
Fixpoint ss (s : script) : res (list script) :=
  match s with
  | Null _ | Prim _ => Ok [s]
  | Add cs =>
    if paradigm s then
      let fix all (l : list script) : res (list script) :=
          match l with
          | [] => Ok []
          | c :: r => do x <- ss c; do y <- all r; Ok (x ++ y)%list
          end in
      do l <- all cs; Ok (isort l)
    else Ok [s]
  | Mul a b c =>
    if paradigm s then
      do la <- (if is_empty a then Ok [a] else ss a);
      do lb <- (if is_empty b then Ok [b] else ss b);
      do lc <- (if is_empty c then Ok [c] else ss c);
      do l <- mapM (fun t => let '(x, y, z) := t in mk_mul_l [x; y; z])
                   (product3 la lb lc);
      Ok (isort l)
    else Ok [s]
  end.

(** script.py 156-163: [item in self]. *)
Definition script_in (item self : script) : res bool :=
  if negb (Nat.eqb (layer item) (layer self)) then Ok false
  else do i <- ss item; do s <- ss self;
       Ok (forallb (fun x => memb script_eqb x s) i).
