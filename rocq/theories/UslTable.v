(** Model of ieml/usl/table.py: the two-dimensional tables of a USL, and of the methods of paths
    it uses (ieml/usl/decoration/path.py). Definitions only. *)
From Coq Require Import List String Bool NArith Arith.
From Verif Require Import Base Script ScriptParser Commons Usl Sfun UslParser Path Instance.
Import ListNotations.
Local Open Scope string_scope.

(** ** Paths *)
(** path.py 56-57, 225-229, 375-377, 467-469, 590-593: the path of a constant, [u] the morpheme
    when the path names none. *)
Fixpoint as_constant (p : path) (u : option script) : res path :=
  let kid (c : option path) : res (option path) :=
      match c with None => Ok None | Some c => do x <- as_constant c u; Ok (Some x) end in
  match p with
  | PUsl c => do c <- kid c; Ok (PUsl c)
  | PPoly _ m _ c => do c <- kid c; Ok (PPoly Constant (match m with Some _ => m | None => u end) None c)
  | PFlex m c => do c <- kid c; Ok (PFlex m c)
  | PLex i c => do c <- kid c; mk_plex i c
  | PRole r f c => do c <- kid c; mk_prole r f c
  end.
(** path.py 59-60, 235-239, 379-380, 471-473, 594-597 *)
Fixpoint without_morpheme (p : path) : res path :=
  let kid (c : option path) : res (option path) :=
      match c with None => Ok None | Some c => do x <- without_morpheme c; Ok (Some x) end in
  match p with
  | PUsl c => do c <- kid c; Ok (PUsl c)
  | PPoly g _ k c => do c <- kid c; Ok (PPoly g None k c)
  | PFlex _ _ => Err ValueError
  | PLex Flexion _ => mk_plex Flexion None
  | PLex Content c => do c <- kid c; mk_plex Content c
  | PRole r f c => do c <- kid c; mk_prole r f c
  end.
(** path.py 176-185, 214-216, 371-373, 475-477, 599-601 *)
Fixpoint is_constant_path (p : path) : bool :=
  let own := match p with PUsl _ => false | PPoly g _ _ _ => gidx_eqb g Constant | _ => true end in
  match p with
  | PUsl (Some c) | PPoly _ _ _ (Some c) | PFlex _ (Some c) | PLex _ (Some c) | PRole _ _ (Some c) => (own && is_constant_path c)%bool
  | _ => own
  end.

Section UslTable.
  (** The order of the sets of scripts, of paths, and the order of words (word.py 80-82), which is
      not modelled: any relation. *)
  Variable so : list script -> list script.
  Variable po : list path -> list path.
  Variable word_lt : word -> word -> bool.

  (** usl.py 69-76, script.py 220-222. The elements at the paths of morphemes are scripts. *)
  Definition items (u : usl) : res (list (path * script)) :=
    match u with
    | UScript s => Ok [(PUsl None, s)]
    | _ =>
      do l <- iter_by_script u;
      mapM (fun e => match snd e with UScript s => Ok (fst e, s) | _ => Err TypeError end) l
    end.
  (** the element at a path; None has no attribute *)
  Definition element (p : path) (u : usl) : res usl :=
    do x <- deref p (Some u); match x with Some x => Ok x | None => Err AttributeError end.
  (** [singular_sequences] and [cardinal] of an element *)
  Definition sequences (u : usl) : res (list usl) :=
    match u with UScript s => do l <- ss s; Ok (map UScript l) | _ => usl_ss so u end.
  Definition size (u : usl) : res nat :=
    match u with UScript s => Ok (N.to_nat (cardinal s)) | _ => do l <- sequences u; Ok (List.length l) end.

  (** usl.py 33-42 between USLs *)
  Definition level (u : usl) : nat := match u with UScript _ => 0 | UPm _ => 1 | ULexeme _ => 2 | UWord _ => 3 end.
  Definition usl_lt (a b : usl) : bool :=
    match a, b with
    | UPm p, UPm q => pm_lt p q
    | ULexeme l, ULexeme m => lexeme_lt l m
    | UWord w, UWord x => word_lt w x
    | _, _ => Nat.ltb (level a) (level b)
    end.
  (** [sorted(l, key=f)] *)
  Definition sort_by {A} (f : A -> res usl) (l : list A) : res (list A) :=
    do ks <- mapM f l;
    Ok (map snd (sort (fun a b => usl_lt (fst a) (fst b)) (combine ks l))).

  (** dictionaries of morphemes: the last entry *)
  Definition last_of (m : script) (l : list (script * path)) : res path :=
    match find (fun e => script_eqb (fst e) m) (rev l) with Some e => Ok (snd e) | None => Err KeyError end.
  Definition constants_of (l : list (path * script)) : res (list (path * script)) :=
    mapM (fun e => do p <- as_constant (fst e) (Some (snd e)); Ok (p, snd e)) l.

  Variable u : usl.
  Variable columns_path : path.
  Variable rows_path : option path.

  (** table.py 163-176 *)
  Definition constant_paths : res (list (path * script)) :=
    do l <- items u;
    do keep <- mapM (fun e =>
      match rows_path with
      | Some r =>
        do a <- has_prefix (fst e) (Some r);
        if a then Ok false else do b <- has_prefix (fst e) (Some columns_path); Ok (negb b)
      | None =>
        do b <- has_prefix (fst e) (Some columns_path); Ok (negb b && is_constant_path (fst e))%bool
      end) l;
    Ok (map fst (filter snd (combine l keep))).

  (** 47-60 *)
  Definition column_paths_variation : res (list (list (path * script))) :=
    do x <- element columns_path u;
    do its <- items x;
    do named <- mapM (fun e => do p <- without_morpheme (fst e); Ok (snd e, p)) its;
    do seqs <- sequences x;
    do l <- mapM (fun s =>
      do its <- items s;
      mapM (fun e => do q <- last_of (snd e) named; do p <- concat columns_path q false; Ok (p, snd e)) its) seqs;
    sort_by (fun l => do l <- constants_of l; do c <- constant_paths; usl_of_list so (l ++ c)%list) l.
  (** 62-65 *)
  Definition column_paths_constant : res (list (list (path * script))) :=
    do l <- column_paths_variation; mapM constants_of l.

  (** 82-99: the dimensions, as (path, whether it varies); the sets are made by [dims_of]. *)
  Definition dimensions : res (list (path * bool)) :=
    match rows_path with
    | Some r =>
      do x <- element r u;
      do its <- items x;
      mapM (fun e =>
        do p <- without_morpheme (fst e);
        do p <- concat r p false;
        do y <- element p u;
        do n <- size y;
        Ok (p, negb (Nat.eqb n 1))) its
    | None =>
      do its <- items u;
      do l <- mapM (fun e =>
        do p <- without_morpheme (fst e);
        do b <- has_prefix p (Some columns_path);
        if b then Ok []
        else
          do y <- element p u;
          do n <- size y;
          if Nat.eqb n 1 then Ok [] else do p <- without_morpheme p; Ok [(p, true)]) its;
      Ok (List.concat l)
    end.
  Definition dims_of (b : bool) (l : list (path * bool)) : list path :=
    po (dedup path_eqb (map fst (filter (fun e => Bool.eqb (snd e) b) l))).
  (** 117-124: a dictionary of lists with the order of insertion *)
  Fixpoint extend (h : path) (v : list (path * script)) (l : list (path * list (path * script))) : list (path * list (path * script)) :=
    match l with
    | [] => [(h, v)]
    | (k, w) :: l => if path_eqb k h then (k, (w ++ v)%list) :: l else (k, w) :: extend h v l
    end.
  Fixpoint by_pm (acc : list (path * list (path * script))) (dims : list path) : res (list (path * list (path * script))) :=
    match dims with
    | [] => Ok acc
    | d :: dims =>
      do s <- split_tail d;
      let '(h, t) := s in
      match t with
      | PPoly _ _ _ _ | PLex Flexion _ =>
        do y <- element d u;
        do its <- items y;
        by_pm (extend h (map (fun e => (t, snd e)) its) acc) dims
      | _ => by_pm acc dims
      end
    end.
  (** 130-142 *)
  Definition variations_of (e : path * list (path * script)) : res (list (list (path * usl))) :=
    let '(h, v) := e in
    do x <- usl_of_list so v;
    do seqs <- sequences x;
    mapM (fun s =>
      do its <- items s;
      mapM (fun e => do q <- last_of (snd e) (map (fun e => (snd e, fst e)) v); do p <- concat h q false; Ok (p, UScript (snd e))) its) seqs.
  (** 76-161. The lists of 101-109 are not used; they are left out. *)
  Definition row_paths_variation : res (list (list (path * script))) :=
    do dims <- dimensions;
    do cs <- mapM (fun p => do y <- element p u; do l <- sequences y; Ok (map (pair p) l)) (dims_of false dims);
    do bins <- by_pm [] (dims_of true dims);
    do vs <- mapM variations_of bins;
    do l <- mapM (fun vars =>
      do l <- mapM (fun e =>
        do its <- items (snd e);
        mapM (fun i => do p <- concat (fst e) (fst i) false; do p <- as_constant p (Some (snd i)); Ok (p, snd i)) its)
        (List.concat cs ++ List.concat vars)%list;
      Ok (List.concat l)) (product vs);
    sort_by (fun l =>
      do l <- mapM (fun e => do p <- as_constant (fst e) None; Ok (p, snd e)) l;
      do c <- constant_paths; usl_of_list so (l ++ c)%list) l.
  (** 67-74 *)
  Definition row_paths_constant : res (list (list (path * script))) :=
    do l <- row_paths_variation; mapM constants_of l.

  (** 22-35 *)
  Definition table_columns : res (list usl) :=
    do v <- row_paths_variation;
    do cols <- column_paths_constant;
    do c <- constant_paths;
    mapM (fun l => usl_of_list so (c ++ l ++ List.concat v)%list) cols.
  (** 37-45 *)
  Definition table_rows : res (list usl) :=
    do v <- column_paths_variation;
    do rows <- row_paths_constant;
    do c <- constant_paths;
    mapM (fun l => usl_of_list so (c ++ l ++ List.concat v)%list) rows.
  (** 178-191 *)
  Definition table_cells : res (list (list usl)) :=
    do rows <- row_paths_constant;
    mapM (fun r =>
      do cols <- column_paths_constant;
      mapM (fun l => do c <- constant_paths; usl_of_list so (c ++ l ++ r)%list) cols) rows.
End UslTable.
