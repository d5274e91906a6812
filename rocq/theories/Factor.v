(** Model of ieml/dictionary/script/tools.py: the factorisation of scripts. Definitions only.
    [so] is the order in which Python iterates over a set of scripts. The dictionaries keep the
    order of insertion. *)
From Coq Require Import List String Bool NArith Arith.
From Verif Require Import Base Script ScriptParser.
Import ListNotations.

(** 10: what [factor] returns is a list of scripts and of tuples of three such lists. *)
Inductive fact :=
| FScript (s : script)
| FTuple (a b c : list fact).

(** 20, 26: iterating on a script, which gives its children (commons.py 58-60) or three empty
    scripts (script.py 564-568). A sum with one term and a script of layer 0 have fewer than
    three children: the code fails on [primitives[1]] (26) or on [s[1]] (32). *)
Definition children3 (s : script) : res (script * script * script) :=
  match s with
  | Mul a b c => Ok (a, b, c)
  | Null (S l) => Ok (Null l, Null l, Null l)
  | _ => Err IndexError
  end.
Definition part0 (t : script * script * script) : script := let '(a, _, _) := t in a.
Definition part1 (t : script * script * script) : script := let '(_, b, _) := t in b.
Definition part2 (t : script * script * script) : script := let '(_, _, c) := t in c.

Definition coord := (nat * nat * nat)%type.
Definition c0 (t : coord) : nat := let '(x, _, _) := t in x.
Definition c1 (t : coord) : nat := let '(_, y, _) := t in y.
Definition c2 (t : coord) : nat := let '(_, _, z) := t in z.
(** Python's [==] and [<] on tuples of integers *)
Definition coord_eqb (s t : coord) : bool :=
  Nat.eqb (c0 s) (c0 t) && Nat.eqb (c1 s) (c1 t) && Nat.eqb (c2 s) (c2 t).
Definition coord_lt (s t : coord) : bool :=
  if Nat.eqb (c0 s) (c0 t) then
    if Nat.eqb (c1 s) (c1 t) then Nat.ltb (c2 s) (c2 t) else Nat.ltb (c1 s) (c1 t)
  else Nat.ltb (c0 s) (c0 t).

Section Factor.
  Variable so : list script -> list script.

  (** 20: [sorted(set(seme))] *)
  Definition axis (l : list script) : list script := isort (so (dedup script_eqb l)).
  (** 23, 26: [primitives[i].inv[seme]]; the scripts of an axis are distinct. *)
  Fixpoint index_in (s : script) (l : list script) : res nat :=
    match l with
    | [] => Err KeyError
    | x :: l => if script_eqb x s then Ok 0 else do n <- index_in s l; Ok (S n)
    end.
  Definition place (axes : list script * list script * list script) (t : script * script * script) : res coord :=
    let '(p0, p1, p2) := axes in
    do x <- index_in (part0 t) p0; do y <- index_in (part1 t) p1; do z <- index_in (part2 t) p2; Ok (x, y, z).
  (** 26: the dictionary [scripts]; a later script at the same place replaces the value only. *)
  Fixpoint put {A} (k : coord) (v : A) (d : list (coord * A)) : list (coord * A) :=
    match d with
    | [] => [(k, v)]
    | (k', v') :: d => if coord_eqb k k' then (k', v) :: d else (k', v') :: put k v d
    end.
  Definition get {A} (k : coord) (d : list (coord * A)) : res A :=
    match find (fun e => coord_eqb k (fst e)) d with Some (_, v) => Ok v | None => Err KeyError end.
  Definition places (l : list (coord * script)) : list (coord * script) :=
    fold_left (fun d e => put (fst e) (snd e) d) l [].

  (** 41-44: [topology] is true at the keys of [scripts]. *)
  Definition cube (keys : list coord) (seq e : coord) : bool :=
    memb coord_eqb (c0 e, c1 seq, c2 seq) keys && memb coord_eqb (c0 seq, c1 e, c2 seq) keys &&
    memb coord_eqb (c0 seq, c1 seq, c2 e) keys.
  (** 36-50; [_computed] is the set of the keys of [relations]. *)
  Definition relate (keys : list coord) (rel : list (coord * list coord)) (seq : coord) : list (coord * list coord) :=
    let cubes := filter (cube keys seq) (map fst rel) in
    (map (fun e => if memb coord_eqb (fst e) cubes then (fst e, snd e ++ [seq])%list else e) rel ++ [(seq, cubes)])%list.
  (** 34-52 *)
  Definition relations (keys : list coord) : list (coord * list coord) :=
    map (fun e => (fst e, sort coord_lt (snd e))) (fold_left (relate keys) keys []).

  (** 54-64 *)
  Definition neighbours (s t : coord) : list coord :=
    [(c0 s, c1 s, c2 s); (c0 s, c1 s, c2 t); (c0 s, c1 t, c2 s); (c0 s, c1 t, c2 t);
     (c0 t, c1 s, c2 s); (c0 t, c1 s, c2 t); (c0 t, c1 t, c2 s); (c0 t, c1 t, c2 t)].
  (** [len(relations[e])]; the arguments are always keys. *)
  Definition degree (rel : list (coord * list coord)) (e : coord) : nat :=
    match get e rel with Ok l => List.length l | Err _ => 0 end.
  (** 73-74 *)
  Fixpoint restrict (rel : list (coord * list coord)) (facto candidate : list coord) : res (list coord) :=
    match facto with
    | [] => Ok candidate
    | i :: facto => do v <- get i rel; restrict rel facto (filter (fun c => memb coord_eqb c v) candidate)
    end.
  (** 66-82: the first element that the generator [_factors] yields, the only one asked for (88). *)
  Fixpoint first_factors (fuel : nat) (rel : list (coord * list coord)) (candidate factorisation : list coord) : res (list coord) :=
    match sort (fun a b => Nat.ltb (degree rel b) (degree rel a)) candidate with
    | [] => Ok factorisation
    | r :: _ =>
      match fuel with
      | 0 => Err OutOfFuel
      | S fuel =>
        let facto := sort coord_lt (dedup coord_eqb (flat_map (fun t => neighbours t r) factorisation)) in
        do candidate <- restrict rel facto candidate;
        match candidate with
        | [] => Ok facto
        | _ => first_factors fuel rel (sort coord_lt candidate) facto
        end
      end
    end.
  (** 84-88; [scripts] is not empty. *)
  Definition choose (rel : list (coord * list coord)) : res (list coord) :=
    match rev (sort (fun a b => Nat.ltb (degree rel a) (degree rel b)) (map fst rel)) with
    | [] => Err IndexError
    | e :: _ => do l <- get e rel; first_factors (List.length l) rel l [e]
    end.

  (** 91: the set given to the factorisation of one coordinate *)
  Definition side (c : coord -> nat) (p : list script) (facto : list coord) : list script :=
    so (dedup script_eqb (map (fun f => nth (c f) p (Null 0)) facto)).

  (** 10-95. [sub]: the factorisation of the children. *)
  Section With.
    Variable sub : list script -> res (list fact).
    Fixpoint factor_with (fuel : nat) (sequences : list script) : res (list fact) :=
      match sequences with
      | [] => Err StopIteration
      | s :: r =>
        if Nat.eqb (layer s) 0 then Ok (map FScript sequences)
        else match r with
        | [] => Ok (map FScript sequences)
        | _ =>
          match fuel with
          | 0 => Err OutOfFuel
          | S fuel =>
            do parts <- mapM children3 sequences;
            let axes := (axis (map part0 parts), axis (map part1 parts), axis (map part2 parts)) in
            do cs <- mapM (place axes) parts;
            let scripts := places (combine cs sequences) in
            do facto <- choose (relations (map fst scripts));
            do done <- mapM (fun f => get f scripts) facto;
            let remaining := isort (so (filter (fun s => negb (memb script_eqb s done)) (dedup script_eqb sequences))) in
            do a <- sub (side c0 (fst (fst axes)) facto);
            do b <- sub (side c1 (snd (fst axes)) facto);
            do c <- sub (side c2 (snd axes) facto);
            match remaining with
            | [] => Ok [FTuple a b c]
            | _ => do l <- factor_with fuel remaining; Ok (FTuple a b c :: l)
            end
          end
        end
      end.
  End With.
  (** The children of a script are of a lower layer: [depth] bounds the layer. *)
  Fixpoint factor_at (depth : nat) (sequences : list script) : res (list fact) :=
    match depth with
    | 0 => factor_with (fun _ => Err OutOfFuel) (List.length sequences) sequences
    | S depth => factor_with (factor_at depth) (List.length sequences) sequences
    end.
  Definition factor (sequences : list script) : res (list fact) := factor_at MAX_LAYER sequences.

  (** 98-114 *)
  Fixpoint pack1 (f : fact) : res script :=
    let fix all (l : list fact) : res (list script) :=
        match l with
        | [] => Ok []
        | f :: l => do x <- pack1 f; do y <- all l; Ok (x :: y)
        end in
    let sum l := match l with [x] => Ok x | _ => mk_add so l end in
    match f with
    | FScript s => Ok s
    | FTuple a b c =>
      do a <- all a; do a <- sum a;
      do b <- all b; do b <- sum b;
      do c <- all c; do c <- sum c;
      mk_mul_l [a; b; c]
    end.
  Definition pack_factorisation (l : list fact) : res script :=
    do l <- mapM pack1 l; match l with [x] => Ok x | _ => mk_add so l end.

  (** 132-152. The argument is a script or a list of scripts. *)
  Definition factorize (promoted : bool) (arg : script + list script) : res script :=
    do seqs <- match arg with
               | inl s => ss s
               | inr l =>
                 do seqs <- mapM ss l;
                 let seqs := List.concat seqs in
                 if promoted then
                   match seqs with
                   | [] => Err ValueError
                   | _ => mapM (fun s => promote s (maxl (map layer seqs))) seqs
                   end
                 else Ok seqs
               end;
    do l <- factor seqs; pack_factorisation l.
End Factor.

(** operator.py 23-34: [script(text, promote, factorize=True)] *)
Definition script_factorized (so : list script -> list script) (promoted : bool) (t : string) : res script :=
  do s <- parse so t; factorize so promoted (inl s).
