(** Model of the dictionary: loading, tables of the root paradigms, relations
    (dictionary/dictionary.py, dictionary/table/table.py, dictionary/table/table_structure.py,
    dictionary/relation/relations.py). Definitions only. *)
From Coq Require Import List String Ascii Bool NArith Arith.
From Verif Require Import Base Script ScriptParser Tables.
Import ListNotations.
Local Open Scope string_scope.

(** ** Tables *)
(** table.py 6-23, 26-35, 154-157, 193-213, 245-247: the class of a table and its attributes. The
    tables are compared by identity in the code; two tables of a dictionary with the same
    attributes are not told apart here. *)
Inductive kind := KCell | K1D | K2D | K3D | KSet.
Inductive table := Tab (k : kind) (s : script) (parent : option table) (regular : bool).
Definition tkind (t : table) : kind := let 'Tab k _ _ _ := t in k.
Definition tscript (t : table) : script := let 'Tab _ s _ _ := t in s.
Definition tparent (t : table) : option table := let 'Tab _ _ p _ := t in p.
Definition tregular (t : table) : bool := let 'Tab _ _ _ r := t in r.
(** [isinstance(t, TableSet)]: Table3D is a subclass (245). *)
Definition is_set (t : table) : bool := match tkind t with K3D | KSet => true | _ => false end.

(** table.py 12-23, 198-200 *)
Fixpoint rank (t : table) : nat :=
  let 'Tab k _ p r := t in
  match k with
  | KCell => 6
  | _ =>
    match p with
    | None => 0
    | Some p => if is_set p then Nat.max (rank p) 1 else if r then Nat.max (rank p) 1 + 2 else Nat.max (rank p) 1 + 1
    end
  end.

(** The lengths of the dimensions of an array *)
Definition rows_of (a : array) : nat := List.length a.
Definition cols_of (a : array) : nat := List.length (hd [] a).
Definition tabs_of (a : array) : nat := List.length (hd [] (hd [] a)).
Definition nb_dims (a : array) : nat := List.length (filter (fun n => negb (Nat.eqb n 1)) [rows_of a; cols_of a; tabs_of a]).
Definition first_cells (t : tabs) : array := hd [] (t_cells t).

(** table.py 258-274 *)
Definition table_class (s : script) : res kind :=
  if N.eqb (cardinal s) 1 then Ok KCell
  else
    do t <- tables s;
    match t_scripts t with
    | [_] =>
      match nb_dims (first_cells t) with
      | 1 => Ok K1D
      | 2 => Ok K2D
      | _ => Err ValueError
      end
    | _ => match t_cells t with [_] => Ok K3D | _ => Ok KSet end
    end.
(** table_structure.py 52, 81-83 with the checks of the constructors (table.py 30-33, 207-209): a
    set of tables has several tables by [table_class]. *)
Definition mk_table (s : script) (parent : option table) (regular : bool) : res table :=
  do k <- table_class s;
  match k with
  | K2D =>
    do t <- tables s;
    match t_scripts t with
    | s' :: _ =>
      if negb (script_eqb s' s) || negb (Nat.eqb (tabs_of (first_cells t)) 1) || Nat.eqb (cols_of (first_cells t)) 1
      then Err ValueError else Ok (Tab k s parent regular)
    | [] => Err IndexError
    end
  | _ => Ok (Tab k s parent regular)
  end.

(** table.py 70-76, 174-180: the last place of a cell; the places are listed row by row. *)
Definition numbered {A} (l : list A) : list (nat * A) := combine (seq 0 (List.length l)) l.
Definition place2 (a : array) (x : script) : res (nat * nat) :=
  match find (fun e => match snd e with Some y => script_eqb y x | None => false end)
          (rev (flat_map (fun r => map (fun c => ((fst r, fst c), hd None (snd c))) (numbered (snd r))) (numbered a))) with
  | Some (p, _) => Ok p
  | None => Err KeyError
  end.
Definition place1 (a : array) (x : script) : res nat := do p <- place2 (map (fun r => [hd [] r]) a) x; Ok (fst p).

(** [sorted(set(l))] of integers *)
Definition nset (l : list nat) : list nat := sort Nat.ltb (dedup Nat.eqb l).
(** table.py 84-110, one dimension: [n] is the length of the dimension *)
Definition tiles (n : nat) (l : list nat) : bool :=
  let missing := filter (fun j => negb (memb Nat.eqb j l)) (seq 0 n) in
  let transitions := filter (fun j => negb (memb Nat.eqb (Nat.modulo (j + 1) n) missing)) missing in
  let step := Nat.div n (List.length transitions) in
  negb (Nat.ltb 1 (List.length transitions) &&
        existsb (fun j => negb (memb Nat.eqb (Nat.modulo (j + step) n) transitions)) transitions) &&
  negb (Nat.ltb (List.length l) 2).
Definition is_connexe_tilling (n m : nat) (coords : list (nat * nat)) : bool :=
  let r := nset (map fst coords) in
  let c := nset (map snd coords) in
  tiles n r && tiles m c && Nat.eqb (List.length coords) (List.length r * List.length c).
(** table.py 112-131 *)
Definition is_dim_subset (n m : nat) (coords : list (nat * nat)) : bool * nat :=
  let r := List.length (nset (map fst coords)) in
  let c := List.length (nset (map snd coords)) in
  if Nat.eqb r n then (true, c) else if Nat.eqb c m then (true, r) else (false, 0).

(** table.py 78-151, 182-190, 227-242: whether the table accepts the script, and if it is then
    regular *)
Definition accept_script (t : table) (s : script) : res (bool * bool) :=
  match tkind t with
  | K2D =>
    do b <- script_in s (tscript t);
    if negb b then Ok (false, false)
    else if negb (Nat.eqb (rank t) 0) && Nat.even (rank t) then Ok (false, false)
    else
      do x <- tables (tscript t);
      let a := first_cells x in
      do l <- ss s;
      do coords <- mapM (place2 a) l;
      let '(d, count) := is_dim_subset (rows_of a) (cols_of a) coords in
      if d && Nat.eqb count 1 then Ok (true, true)
      else if is_connexe_tilling (rows_of a) (cols_of a) coords || d then Ok (true, false)
      else Ok (false, false)
  | K1D | KCell =>
    do b <- script_in s (tscript t);
    if negb b then Ok (false, false)
    else
      do x <- tables (tscript t);
      do l <- ss s;
      do coords <- mapM (place1 (first_cells x)) l;
      let coords := sort Nat.ltb coords in
      if Nat.eqb (List.length coords) (last coords 0 - hd 0 coords + 1) then Ok (true, true) else Ok (false, false)
  | K3D | KSet =>
    if match tparent t with Some p => is_set p | None => false end then Ok (false, false)
    else
      do x <- tables (tscript t);
      do keep <- mapM (fun u => script_in u s) (t_scripts x);
      do parts <- mapM (fun u => ss (fst u)) (filter snd (combine (t_scripts x) keep));
      do l <- ss s;
      if negb (Nat.eqb (List.length parts) 0) &&
         forallb (fun y => memb script_eqb y l) (List.concat parts) && forallb (fun y => memb script_eqb y (List.concat parts)) l
      then Ok (true, false) else Ok (false, false)
  end.

(** ** The forest of tables (table_structure.py) *)
Section Dictionary.
  (** The order of the sets of scripts. *)
  Variable so : list script -> list script.

  (** 65-69 *)
  Definition candidates (defined : list table) (s : script) : res (list (table * bool)) :=
    do l <- mapM (fun t => do a <- accept_script t s; Ok (t, a)) defined;
    Ok (map (fun e => (fst e, snd (snd e))) (filter (fun e => fst (snd e)) l)).
  (** 79: [min] with the script of the table as key *)
  Definition smallest (l : list (table * bool)) : option (table * bool) :=
    fold_left (fun m e => match m with
                          | None => Some e
                          | Some m => if lt (tscript (fst e)) (tscript (fst m)) then Some e else Some m
                          end) l None.
  (** 59-87. [defined] are the tables already made. *)
  Fixpoint define_tables (defined : list table) (l : list script) : res (list table) :=
    match l with
    | [] => Ok defined
    | s :: l =>
      do c <- candidates defined s;
      match smallest c with
      | None => define_tables defined l
      | Some (parent, regular) => do t <- mk_table s (Some parent) regular; define_tables (defined ++ [t]) l
      end
    end.
  (** 60: a stable sort by decreasing length *)
  Definition by_length (l : list script) : list script := sort (fun a b => N.ltb (cardinal b) (cardinal a)) l.
  (** 49-89. The code returns two sets of tables; the order of this list is one of them. *)
  Definition define_root (root : script) (paradigms : list script) : res (list table) :=
    do t <- mk_table root None false;
    do cells <- ss root;
    do l <- define_tables [t] (by_length (so (filter (fun s => negb (script_eqb s root)) (dedup script_eqb paradigms))));
    Ok (l ++ map (fun x => Tab KCell x (Some t) false) cells)%list.

  (** 94-107: [root_ss[x]]: the last root which has [x]. *)
  Definition owner (roots : list (script * list script)) (x : script) : option script :=
    option_map fst (find (fun e => memb script_eqb x (snd e)) (rev roots)).
  (** 100-107; when the root is not found, adding a string to a script raises InvalidScript (105,
      script.py 75-77). *)
  Fixpoint assign (roots : list (script * list script)) (scripts : list script) : res (list (script * script)) :=
    match scripts with
    | [] => Ok []
    | s :: l =>
      if N.eqb (cardinal s) 1 then assign roots l
      else
        do x <- ss s;
        match x with
        | [] => Err IndexError
        | x :: _ =>
          match owner roots x with
          | None => Err InvalidScript
          | Some r => do m <- assign roots l; Ok ((r, s) :: m)
          end
        end
    end.
  (** 91-118: the tables of each root *)
  Definition build_tables (roots scripts : list script) : res (list (script * list table)) :=
    do ls <- mapM (fun r => do l <- ss r; Ok (r, l)) roots;
    do m <- assign ls scripts;
    mapM (fun r => do l <- define_root r (map snd (filter (fun e => script_eqb (fst e) r) m)); Ok (r, l)) roots.
  (** 114-117: [tables[s]], the last table with this script *)
  Definition table_of (forest : list (script * list table)) (s : script) : option table :=
    find (fun t => script_eqb (tscript t) s) (rev (flat_map snd forest)).

  (** ** Loading (dictionary.py) *)
  (** Python dictionaries with the order of insertion. *)
  Fixpoint set_key {A} (k : string) (v : A) (d : list (string * A)) : list (string * A) :=
    match d with
    | [] => [(k, v)]
    | (k', v') :: d => if String.eqb k k' then (k', v) :: d else (k', v') :: set_key k v d
    end.
  Definition get_key {A} (k : string) (d : list (string * A)) : option A :=
    option_map snd (find (fun e => String.eqb (fst e) k) d).
  Definition del_key {A} (k : string) (d : list (string * A)) : list (string * A) :=
    filter (fun e => negb (String.eqb (fst e) k)) d.

  (** 14-35: one row of the structure is (ieml, key, value); the inhibitions are keyed by the texts
      of the scripts, which are what is compared. *)
  Record loading := { l_scripts : list (string * script); l_roots : list script;
                      l_inhibitions : list (string * list string); l_ignored : list script }.
  Definition truthy (v : string) : res bool :=
    match v with
    | EmptyString => Err IndexError
    | String c _ => Ok (Ascii.eqb c "t" || Ascii.eqb c "T")
    end.
  Definition read_row (st : loading) (row : string * string * string) : res loading :=
    let '(p, key, value) := row in
    match get_key p (l_scripts st) with
    | None => Ok st
    | Some s =>
      do l <- ss s;
      let scripts := fold_left (fun d x => set_key (str x) x d) l (l_scripts st) in
      if String.eqb key "inhibition" then
        let old := match get_key (str s) (l_inhibitions st) with Some l => l | None => [] end in
        Ok {| l_scripts := scripts; l_roots := l_roots st;
              l_inhibitions := set_key (str s) (old ++ [value])%list (l_inhibitions st); l_ignored := l_ignored st |}
      else if String.eqb key "is_root" then
        do b <- truthy value;
        Ok {| l_scripts := scripts; l_roots := if b then (l_roots st ++ [s])%list else l_roots st;
              l_inhibitions := l_inhibitions st; l_ignored := l_ignored st |}
      else if String.eqb key "is_ignored" then
        do b <- truthy value;
        Ok {| l_scripts := scripts; l_roots := l_roots st;
              l_inhibitions := l_inhibitions st; l_ignored := if b then (l_ignored st ++ [s])%list else l_ignored st |}
      else Ok {| l_scripts := scripts; l_roots := l_roots st; l_inhibitions := l_inhibitions st; l_ignored := l_ignored st |}
    end.
  Fixpoint read_rows (st : loading) (rows : list (string * string * string)) : res loading :=
    match rows with
    | [] => Ok st
    | r :: rows => do st <- read_row st r; read_rows st rows
    end.
  Definition load (paradigms : list string) (rows : list (string * string * string)) : res loading :=
    do l <- mapM (fun p => do s <- parse so p; Ok (p, s)) paradigms;
    read_rows {| l_scripts := fold_left (fun d e => set_key (fst e) (snd e) d) l []; l_roots := []; l_inhibitions := []; l_ignored := [] |} rows.

  (** 37-41: the union of the singular sequences of the roots *)
  Fixpoint cover (acc : list script) (roots : list script) : res (list script) :=
    match roots with
    | [] => Ok acc
    | r :: roots => do l <- ss r; if existsb (fun x => memb script_eqb x acc) l then Err ValueError else cover (acc ++ l)%list roots
    end.
  (** 43-45 *)
  Fixpoint outside (covered : list script) (scripts : list script) : res (list script) :=
    match scripts with
    | [] => Ok []
    | s :: r => do l <- ss s; do o <- outside covered r; if forallb (fun x => memb script_eqb x covered) l then Ok o else Ok (s :: o)
    end.
  (** 49-50: [list.remove] takes the first one away *)
  Fixpoint remove_first (s : script) (l : list script) : list script :=
    match l with
    | [] => []
    | x :: l => if script_eqb x s then l else x :: remove_first s l
    end.
  (** 47-52 *)
  Fixpoint ignore (st : loading) (l : list script) : res loading :=
    match l with
    | [] => Ok st
    | s :: l =>
      match get_key (str s) (l_scripts st) with
      | None => Err KeyError
      | Some _ =>
        ignore {| l_scripts := del_key (str s) (l_scripts st); l_roots := remove_first s (l_roots st);
                  l_inhibitions := del_key (str s) (l_inhibitions st); l_ignored := l_ignored st |} l
      end
    end.

  (** ** Relations (relations.py). A matrix is the list of the places that are set. *)
  Definition matrix := list (nat * nat).
  Definition transposed (m : matrix) : matrix := map (fun e => (snd e, fst e)) m.
  Definition pairs (i : nat) (l : list nat) : matrix := map (pair i) l.

  Section Relations.
    (** [dictionary.scripts], [dictionary.tables.roots] and [dictionary._inhibitions] *)
    Variable scripts : list script.
    Variable forest : list (script * list table).
    Variable inhibitions : list (string * list string).

    (** dictionary.py 61: [dictionary.index[s]] *)
    Definition idx (s : script) : res nat := index_of s scripts.
    Definition idxs (l : list script) : res (list nat) := mapM idx l.

    (** 147-164 *)
    Definition contains_in (ts : list table) : res matrix :=
      let ps := map tscript (filter (fun t => paradigm (tscript t)) ts) in
      do l <- mapM (fun p =>
          do i <- idx p; do x <- ss p; do a <- idxs x;
          do keep <- mapM (fun k => script_in k p) ps;
          do b <- idxs (map fst (filter snd (combine ps keep)));
          Ok (pairs i (a ++ b))%list) ps;
      Ok (List.concat l).
    Definition compute_contains : res matrix :=
      do l <- mapM (fun e => contains_in (snd e)) forest;
      Ok (map (fun i => (i, i)) (seq 0 (List.length scripts)) ++ List.concat l)%list.

    (** 172-184; [sub_s.layer > 0] *)
    Definition known (s : script) : bool := memb script_eqb s scripts.
    Fixpoint recurse_script (s : script) : res (list nat) :=
      let one (x : script) : res (list nat) :=
          match x with
          | Null _ => Ok []
          | Mul a b c =>
            if known x then do i <- idx x; Ok [i]
            else do p <- recurse_script a; do q <- recurse_script b; do r <- recurse_script c; Ok (p ++ q ++ r)%list
          | _ => if known x then do i <- idx x; Ok [i] else Ok []
          end in
      match s with
      | Add cs => (fix all (l : list script) : res (list nat) :=
                     match l with
                     | [] => Ok []
                     | Null _ :: l => all l
                     | Mul a b c :: l =>
                       do x <- (if known (Mul a b c) then do i <- idx (Mul a b c); Ok [i]
                                else do p <- recurse_script a; do q <- recurse_script b; do r <- recurse_script c; Ok (p ++ q ++ r)%list);
                       do y <- all l; Ok (x ++ y)%list
                     | x :: l =>
                       do v <- (if known x then do i <- idx x; Ok [i] else Ok []);
                       do y <- all l; Ok (v ++ y)%list
                     end) cs
      | _ => one s
      end.
    (** 190-201: the fathers of a script through its [n]-th child. The inhibitions are never looked up
        with success: the keys of the dictionary are scripts, not names of relations (196). *)
    Definition terms (s : script) : list script := match s with Add cs => cs | _ => [s] end.
    Definition fathers (n : nat) (s : script) : res matrix :=
      do i <- idx s;
      do l <- mapM (fun x => match x with
                             | Mul a b c => recurse_script (nth n [a; b; c] (Null 0))
                             | _ => Ok []
                             end) (terms s);
      Ok (pairs i (List.concat l)).
    Definition compute_father (n : nat) : res matrix := do l <- mapM (fathers n) scripts; Ok (List.concat l).

    (** 213-228 on multiplications. The children of a primitive or an empty script are not
        subscriptable; the roots of layer 0 are skipped (238). *)
    Definition child (n : nat) (s : script) : res script :=
      match s with
      | Mul a b c => Ok (nth n [a; b; c] (Null 0))
      | Add cs => match nth_error cs n with Some x => Ok x | None => Err IndexError end
      | _ => Err IndexError
      end.
    Definition and_then (a : bool) (b : res bool) : res bool := if a then b else Ok false.
    Definition same (a b : res script) : res bool := do x <- a; do y <- b; Ok (script_eqb x y).
    Definition opposed_sibling (s0 s1 : script) : res bool :=
      and_then (negb (is_empty s0) && negb (is_empty s1) && N.eqb (cardinal s0) (cardinal s1))
        (do b <- same (child 0 s0) (child 1 s1); and_then b (same (child 1 s0) (child 0 s1))).
    Definition associated_sibling (s0 s1 : script) : res bool :=
      and_then (N.eqb (cardinal s0) (cardinal s1))
        (do a <- same (child 0 s0) (child 0 s1);
         and_then a (do b <- same (child 1 s0) (child 1 s1);
                     and_then b (do c <- same (child 2 s0) (child 2 s1); Ok (negb c)))).
    Definition crossed_sibling (s0 s1 : script) : res bool :=
      and_then (Nat.leb 2 (layer s0) && N.eqb (cardinal s0) (cardinal s1))
        (do a0 <- child 0 s0; do a1 <- child 0 s1; do a <- opposed_sibling a0 a1;
         and_then a (do b0 <- child 1 s0; do b1 <- child 1 s1; opposed_sibling b0 b1)).
    (** [isinstance(s, MultiplicativeScript)]: the primitives too *)
    Definition is_mul (s : script) : bool := match s with Mul _ _ _ | Prim _ => true | _ => false end.
    (** [combinations(l, 2)] *)
    Fixpoint couples {A} (l : list A) : list (A * A) :=
      match l with [] => [] | x :: l => (map (pair x) l ++ couples l)%list end.
    Definition both (i j : nat) : matrix := [(i, j); (j, i)].
    (** 242-265 for one of the three kinds of siblings *)
    Definition siblings_in (rel : script -> script -> res bool) (ts : list table) : res matrix :=
      do l <- mapM (fun e =>
          do i <- idx (fst e); do j <- idx (snd e); do b <- rel (fst e) (snd e);
          Ok (if b then both i j else [])) (couples (filter is_mul (map tscript ts)));
      Ok (List.concat l).
    (** 244-247, 267-275: the twins of the same cardinal *)
    Definition permutations2 {A} (l : list A) : list (A * A) := flat_map (fun e => [e; (snd e, fst e)]) (couples l).
    Definition twins_in (ts : list table) : res matrix :=
      let ms := filter is_mul (map tscript ts) in
      do tw <- mapM (fun s => same (child 0 s) (child 1 s)) ms;
      do l <- mapM (fun e => if N.eqb (cardinal (fst e)) (cardinal (snd e))
                             then do i <- idx (fst e); do j <- idx (snd e); Ok [(i, j)] else Ok [])
                (permutations2 (map fst (filter snd (combine ms tw))));
      Ok (List.concat l).
    Definition inhibited (root : script) (rel : string) : bool :=
      match get_key (str root) inhibitions with Some l => existsb (String.eqb rel) l | None => false end.
    Definition siblings (rel : string) (f : list table -> res matrix) : res matrix :=
      do l <- mapM (fun e => if inhibited (fst e) rel || Nat.eqb (layer (fst e)) 0 then Ok [] else f (snd e)) forest;
      Ok (List.concat l).

    (** 111-145 *)
    Definition row_of (m : matrix) (i : nat) : list nat :=
      filter (fun j => existsb (fun e => Nat.eqb (fst e) i && Nat.eqb (snd e) j) m) (seq 0 (List.length scripts)).
    Definition rank_at (i : nat) : res nat :=
      match nth_error scripts i with
      | None => Err IndexError
      | Some s => match table_of forest s with Some t => Ok (rank t) | None => Err KeyError end
      end.
    (** 120-130: [(rank, (i, j))] for two tables of a root contained in one of this rank *)
    Definition ranks_between (contained : matrix) (ts : list table) : res (list (nat * (nat * nat))) :=
      do l <- mapM (fun e =>
          do i <- idx (tscript (fst e)); do j <- idx (tscript (snd e));
          do rs <- mapM rank_at (filter (fun k => memb Nat.eqb k (row_of contained j)) (row_of contained i));
          if existsb (fun r => Nat.leb 6 r) rs then Err IndexError
          else Ok (flat_map (fun r => [(r, (i, j)); (r, (j, i))]) (nset rs))) (couples ts);
      Ok (List.concat l).
    (** 132-142. [stale]: the variable [ranks], which keeps its value when KeyError is raised. *)
    Fixpoint ranks_of (contained : matrix) (stale : option (list nat)) (l : list script) : res (list (nat * (nat * nat))) :=
      match l with
      | [] => Ok []
      | t :: l =>
        do i <- idx t;
        do ranks <- match mapM rank_at (row_of contained i) with
                    | Ok rs => Ok (filter (fun r => negb (Nat.eqb r 6)) (nset rs))
                    | Err KeyError => match stale with Some rs => Ok rs | None => Err UnboundLocalError end
                    | Err e => Err e
                    end;
        if existsb (fun r => Nat.leb 6 r) ranks then Err IndexError
        else do m <- ranks_of contained (Some ranks) l; Ok (map (fun r => (r, (i, i))) ranks ++ m)%list
      end.
    Definition compute_table_rank (contained : matrix) : res (list (nat * (nat * nat))) :=
      do l <- mapM (fun e => ranks_between contained (snd e)) forest;
      do m <- ranks_of contained None scripts;
      Ok (List.concat l ++ m)%list.
    Definition of_rank (n : nat) (l : list (nat * (nat * nat))) : matrix := map snd (filter (fun e => Nat.eqb (fst e) n) l).

    (** 60-109, constants.py 159-186. The transpositions and conversions of sparse matrices keep the
        places that are set. *)
    Definition compute_relations : res (list (string * matrix)) :=
      do contains <- compute_contains;
      let contained := transposed contains in
      do fs <- compute_father 0;
      do fa <- compute_father 1;
      do fm <- compute_father 2;
      do opposed <- siblings "opposed" (siblings_in opposed_sibling);
      do associated <- siblings "associated" (siblings_in associated_sibling);
      do crossed <- siblings "crossed" (siblings_in crossed_sibling);
      do twin <- siblings "twin" twins_in;
      do ranks <- compute_table_rank contained;
      Ok [("contains", contains); ("contained", contained);
          ("father_substance", fs); ("child_substance", transposed fs);
          ("father_attribute", fa); ("child_attribute", transposed fa);
          ("father_mode", fm); ("child_mode", transposed fm);
          ("opposed", opposed); ("associated", associated); ("crossed", crossed); ("twin", twin);
          ("table_0", of_rank 0 ranks); ("table_1", of_rank 1 ranks); ("table_2", of_rank 2 ranks);
          ("table_3", of_rank 3 ranks); ("table_4", of_rank 4 ranks); ("table_5", of_rank 5 ranks);
          ("identity", map (fun i => (i, i)) (seq 0 (List.length scripts)))].
  End Relations.

  (** dictionary.py 54-67. A dictionary without scripts is outside the model: scipy may refuse its
      matrices. [d_root_scripts]: the scripts marked in [roots_idx]. *)
  Record dictionary := { d_scripts : list script; d_root_scripts : list script; d_forest : list (script * list table);
                         d_inhibitions : list (string * list string); d_relations : list (string * matrix) }.
  Definition make_dictionary (paradigms : list string) (rows : list (string * string * string)) : res dictionary :=
    do st <- load paradigms rows;
    do covered <- cover [] (l_roots st);
    do out <- outside covered (map snd (l_scripts st));
    do st <- ignore st (l_ignored st ++ out)%list;
    let all := isort (map snd (l_scripts st)) in
    do forest <- build_tables (l_roots st) all;
    let scripts := filter (fun s => N.eqb (cardinal s) 1 || match table_of forest s with Some _ => true | None => false end) all in
    do _ <- mapM (idx scripts) (l_roots st);
    do rel <- compute_relations scripts forest (l_inhibitions st);
    Ok {| d_scripts := scripts; d_root_scripts := l_roots st; d_forest := forest; d_inhibitions := l_inhibitions st; d_relations := rel |}.
End Dictionary.

(** ** The interface *)
(** dictionary.py 86-92 with a script *)
Definition lookup (d : dictionary) (s : script) : res script :=
  do i <- idx (d_scripts d) s; match nth_error (d_scripts d) i with Some x => Ok x | None => Err IndexError end.
Definition in_dictionary (d : dictionary) (s : script) : bool := memb script_eqb s (d_scripts d).
(** relations.py 25-26 *)
Definition object (d : dictionary) (s : script) (rel : string) : res (list script) :=
  match get_key rel (d_relations d) with
  | None => Err KeyError
  | Some m =>
    do i <- idx (d_scripts d) s;
    Ok (flat_map (fun j => match nth_error (d_scripts d) j with Some x => [x] | None => [] end) (row_of (d_scripts d) m i))
  end.
(** relations.py 31-32, constants.py 159-179 *)
Definition RELATIONS : list string :=
  ["contains"; "contained"; "father_substance"; "child_substance"; "father_attribute"; "child_attribute"; "father_mode"; "child_mode";
   "opposed"; "associated"; "crossed"; "twin"; "table_0"; "table_1"; "table_2"; "table_3"; "table_4"; "table_5"; "identity"].
Definition relation (d : dictionary) (s o : script) : res (list string) :=
  do l <- mapM (fun r => do x <- object d s r; Ok (if memb script_eqb o x then [r] else [])) RELATIONS; Ok (List.concat l).
(** table_structure.py 24-30: the root of a script, None when it has no table *)
Definition root_of (d : dictionary) (s : script) : option script :=
  match table_of (d_forest d) s with
  | None => None
  | Some _ => option_map fst (find (fun e => existsb (fun t => script_eqb (tscript t) s) (snd e)) (rev (d_forest d)))
  end.
