(** Model of the tables of a script: cells, tables_script and headers (script.py 168-193,
    328-342, 489-547). Definitions only. *)
From Coq Require Import List String Bool NArith Arith.
From Verif Require Import Base Script.
Import ListNotations.

(** A numpy array of three dimensions: rows, columns, tabs. [None] is the 0 of [np.zeros], left
    where no singular sequence was written. *)
Definition cell := option script.
Definition array := list (list (list cell)).
(** The headers of one table: for each dimension a list of scripts. *)
Definition header := list (list script).
Record tabs := { t_cells : list array; t_scripts : list script; t_headers : list header }.

(** [s.children[n]] *)
Definition nth_child (n : nat) (s : script) : option script :=
  match s with
  | Mul a b c => nth_error [a; b; c] n
  | Add cs => nth_error cs n
  | _ => None
  end.
Definition text_is (key : script) (x : option script) : bool :=
  match x with Some x => script_eqb x key | None => false end.
(** 512: the dictionary from the singular sequences of a child to their indexes; the last index
    when a sequence is repeated. *)
Definition index_of (key : script) (l : list script) : res nat :=
  match find (fun e => script_eqb (snd e) key) (rev (combine (seq 0 (List.length l)) l)) with
  | Some (i, _) => Ok i
  | None => Err KeyError
  end.
(** 491 *)
Definition plural (c : script) : bool := negb (N.eqb (cardinal c) 1).
Definition plurals (a b c : script) : list (nat * script) := filter (fun e => plural (snd e)) [(0, a); (1, b); (2, c)].
(** 503-506, 529-531: the multiplication with another n-th child *)
Definition with_nth (a b c : script) (n : nat) (x : script) : res script :=
  match n with
  | 0 => mk_mul_l [x; b; c]
  | 1 => mk_mul_l [a; x; c]
  | _ => mk_mul_l [a; b; x]
  end.
(** 498-501: [map_seq]. The key 0 of a hole is not in it. *)
Definition resolve (n : nat) (own : list script) (x : cell) : res cell :=
  match x with
  | None => Err KeyError
  | Some x =>
    match find (fun s => text_is x (nth_child n s)) (rev own) with
    | Some s => Ok (Some s)
    | None => Err KeyError
    end
  end.
(** 514-519: the indexes of a singular sequence, one for each plural child. *)
Definition position (axes : list (nat * list script)) (s : script) : res (list nat) :=
  mapM (fun ax => match nth_child (fst ax) s with Some x => index_of x (snd ax) | None => Err KeyError end) axes.
(** 507-520: an absent dimension has length 1, where the index None writes the only place. *)
Definition same_position (p q : list nat) : bool :=
  forallb (fun k => Nat.eqb (nth k p 0) (nth k q 0)) [0; 1; 2].
Definition fill (sizes : list N) (own : list (script * list nat)) : array :=
  map (fun i => map (fun j => map (fun k =>
      option_map fst (find (fun e => same_position (snd e) [i; j; k]) (rev own)))
    (seq 0 (N.to_nat (nth 2 sizes 1%N)))) (seq 0 (N.to_nat (nth 1 sizes 1%N)))) (seq 0 (N.to_nat (nth 0 sizes 1%N))).

(** 508-545 *)
Definition grid (a b c : script) : res tabs :=
  let pl := plurals a b c in
  if existsb (fun e => N.ltb MAX_SIZE_HEADER (cardinal (snd e))) pl then Err ValueError
  else
    do axes <- mapM (fun e => do l <- ss (snd e); Ok (fst e, l)) pl;
    do own <- ss (Mul a b c);
    do ps <- mapM (position axes) own;
    let t := fill (map (fun e => cardinal (snd e)) pl) (combine own ps) in
    match axes with
    | [_; _; _] =>
      do la <- ss a; do lb <- ss b; do lc <- ss c;
      do ts <- mapM (fun z => mk_mul_l [a; b; z]) lc;
      do hs <- mapM (fun z =>
        do r <- mapM (fun x => mk_mul_l [x; b; z]) la;
        do q <- mapM (fun y => mk_mul_l [a; y; z]) lb;
        Ok [r; q]) lc;
      Ok {| t_cells := [t]; t_scripts := ts; t_headers := hs |}
    | _ =>
      do h <- mapM (fun ax => mapM (with_nth a b c (fst ax)) (snd ax)) axes;
      Ok {| t_cells := [t]; t_scripts := [Mul a b c]; t_headers := [h] |}
    end.
(** 494-507 *)
Definition from_child (a b c : script) (n : nat) (t : tabs) : res tabs :=
  do own <- ss (Mul a b c);
  do cs <- mapM (mapM (mapM (mapM (resolve n own)))) (t_cells t);
  do ts <- mapM (with_nth a b c n) (t_scripts t);
  do hs <- mapM (mapM (mapM (with_nth a b c n))) (t_headers t);
  Ok {| t_cells := cs; t_scripts := ts; t_headers := hs |}.

(** 168-175, 328-342, 489-547 *)
Fixpoint tables (s : script) : res tabs :=
  if N.eqb (cardinal s) 1 then Ok {| t_cells := [[[[Some s]]]]; t_scripts := [s]; t_headers := [] |}
  else
    match s with
    | Mul a b c =>
      match plurals a b c with
      | [(n, _)] => do t <- match n with 0 => tables a | 1 => tables b | _ => tables c end; from_child a b c n t
      | _ => grid a b c
      end
    | Add cs =>
      if existsb (fun c => negb (paradigm c)) cs
      then do l <- ss s; Ok {| t_cells := [map (fun x => [[Some x]]) l]; t_scripts := [s]; t_headers := [[[s]]] |}
      else
        (fix all (l : list script) : res tabs :=
           match l with
           | [] => Ok {| t_cells := []; t_scripts := []; t_headers := [] |}
           | c :: r =>
             do t <- tables c; do u <- all r;
             Ok {| t_cells := t_cells t ++ t_cells u; t_scripts := t_scripts t ++ t_scripts u; t_headers := t_headers t ++ t_headers u |}
           end) cs
    | _ => Err AttributeError
    end.
