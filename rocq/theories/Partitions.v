(** Model of enumerate_partitions (ieml/usl/table.py 194-219). Definitions only. *)
From Coq Require Import List String Bool NArith Arith.
From Verif Require Import Base Script ScriptParser Commons Usl Sfun UslParser Path Instance UslTable.
Import ListNotations.
Local Open Scope string_scope.

(** table.py 195-196: dictionaries of dictionaries, keyed by paths without child, in the order of
    insertion. *)
Inductive ptree := PT (kids : list (path * ptree)).
Definition kids (t : ptree) : list (path * ptree) := match t with PT l => l end.
(** 203: [curr[k]], with the entry created when no key has the same text (path.py 148-149, 163-164);
    the rest of the walk is [f]. *)
Fixpoint touch (k : path) (f : ptree -> ptree) (l : list (path * ptree)) : list (path * ptree) :=
  match l with
  | [] => [(k, f (PT []))]
  | (k', t) :: l => if path_eqb k' k then (k', f t) :: l else (k', t) :: touch k f l
  end.
(** 200-204 *)
Fixpoint graft (p : path) (t : ptree) : ptree :=
  let rest := match p with
              | PUsl (Some c) | PPoly _ _ _ (Some c) | PFlex _ (Some c) | PLex _ (Some c) | PRole _ _ (Some c) => graft c
              | _ => fun t => t
              end in
  PT (touch (alone p) rest (kids t)).
(** 206-214 *)
Definition expand_node (p : path) (sub : list (list path)) (acc : list (list path)) : res (list (list path)) :=
  do l <- mapM (fun r => mapM (fun items => do l <- mapM (fun q => concat p q false) items; Ok (r ++ l)%list) sub) acc;
  Ok (map (fun r => (r ++ [p])%list) acc ++ List.concat l)%list.
Fixpoint iter_tree (t : ptree) : res (list (list path)) :=
  (fix go (l : list (path * ptree)) (acc : list (list path)) : res (list (list path)) :=
    match l with
    | [] => Ok acc
    | (p, t) :: l => do sub <- iter_tree t; do acc <- expand_node p sub acc; go l acc
    end) (kids t) [[]].
(** 216-217 *)
Fixpoint count_leaves (t : ptree) : nat :=
  (fix go (l : list (path * ptree)) : nat :=
    match l with
    | [] => 0
    | (_, t) :: l => (match kids t with [] => 1 | _ => count_leaves t end) + go l
    end) (kids t).

Section Partitions.
  Variable so : list script -> list script.
  (** 198-199: the listed paths whose element has not exactly one singular sequence. *)
  Definition varying (u : usl) : res (list path) :=
    do l <- iter_path u;
    do b <- mapM (fun e => do x <- element (fst e) u; do n <- size so x; Ok (fst e, negb (Nat.eqb n 1))) l;
    Ok (map fst (filter snd b)).
  (** 194-219 *)
  Definition enumerate_partitions (u : usl) : res (nat * list (list path)) :=
    do l <- varying u;
    let t := fold_left (fun t p => graft p t) l (PT []) in
    do r <- iter_tree t;
    Ok (count_leaves t, r).
End Partitions.
