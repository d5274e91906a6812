(** Model of ieml/usl/syntagmatic_function.py and ieml/usl/word.py. Definitions only. *)
From Coq Require Import List String Ascii Bool NArith Arith.
From Verif Require Import Base Script Commons Usl.
Import ListNotations.
Local Open Scope string_scope.

(** The scripts of addresses are compared with [==], hashed and printed only, always through
    their strings; they are represented by these strings (Properties9 checks that they are
    those of the scripts of ieml/usl/constants.py). *)
(** usl/constants.py 13-17 *)
Definition ONE_ACTANT_PROCESS := "E:S:.".
Definition TWO_ACTANTS_PROCESS := "E:T:.".
Definition THREE_ACTANTS_PROCESS := "E:B:.".
Definition VALENCES := [ONE_ACTANT_PROCESS; TWO_ACTANTS_PROCESS; THREE_ACTANTS_PROCESS].
(** usl/constants.py 83-96 *)
Definition INITIATOR := "E:.n.-".
Definition INTERACTANT := "E:.d.-".
Definition RECIPIENT := "E:.k.-".
Definition TIME := "E:.t.-".
Definition LOCATION := "E:.l.-".
Definition MANNER := "E:.f.-".
Definition CAUSE := "E:.s.-".
Definition INTENTION := "E:.m.-".
Definition ACTANTS := [INITIATOR; INTERACTANT; RECIPIENT; TIME; LOCATION; INTENTION; MANNER; CAUSE].
(** usl/constants.py 100-113 *)
Definition JUNCTION_INDEX :=
  ["j.-U:.-'d.o.-l.o.-',"; "j.-A:.-'d.o.-l.o.-',"; "g.-U:.-'d.o.-l.o.-',"; "g.-A:.-'d.o.-l.o.-',";
   "h.-U:.-'d.o.-l.o.-',"; "h.-A:.-'d.o.-l.o.-',"; "c.-U:.-'d.o.-l.o.-',"; "c.-A:.-'d.o.-l.o.-',";
   "p.-U:.-'d.o.-l.o.-',"; "p.-A:.-'d.o.-l.o.-',"; "x.-U:.-'d.o.-l.o.-',"; "x.-A:.-'d.o.-l.o.-',"].
(** usl/constants.py 116-222 *)
Definition JUNCTION_SCRIPTS :=
  ["E:S:.-k.u.-'"; "E:T:.-k.u.-'"; "E:B:.-k.u.-'";
   "E:.-s.a.-k.u.-'"; "E:.-b.a.-k.u.-'"; "E:.-t.a.-k.u.-'"; "E:.-k.a.-k.u.-'"; "E:.-m.a.-k.u.-'"; "E:.-n.a.-k.u.-'";
   "E:.-d.a.-k.u.-'"; "E:.-f.a.-k.u.-'"; "E:.-l.a.-k.u.-'";
   "E:.-y.-k.u.-'"; "E:.-o.-k.u.-'"; "E:.-e.-k.u.-'"; "E:.-u.-k.u.-'"; "E:.-a.-k.u.-'"; "E:.-i.-k.u.-'";
   "E:.-wo.-k.u.-'"; "E:.-wa.-k.u.-'"; "E:.-we.-k.u.-'"; "E:.-wu.-k.u.-'";
   "E:.-s.u.-k.u.-'"; "E:.-b.u.-k.u.-'"; "E:.-t.u.-k.u.-'"; "E:.-k.u.-k.u.-'"; "E:.-m.u.-k.u.-'"; "E:.-n.u.-k.u.-'";
   "E:.-d.u.-k.u.-'"; "E:.-f.u.-k.u.-'"; "E:.-l.u.-k.u.-'"].
(** usl/constants.py 225-230, 230 being [address_order] below *)
Definition INDEPENDANT_QUALITY := "E:U:.".
Definition DEPENDANT_QUALITY := "E:A:.".
Definition ADDRESS_SCRIPTS := (VALENCES ++ ACTANTS ++ [DEPENDANT_QUALITY; INDEPENDANT_QUALITY] ++ JUNCTION_SCRIPTS ++ JUNCTION_INDEX)%list.

Definition ins (x : string) (l : list string) : bool := existsb (String.eqb x) l.
(** [l.index(x)] *)
Fixpoint index_of (x : string) (l : list string) : option nat :=
  match l with
  | [] => None
  | y :: r => if String.eqb x y then Some 0 else option_map S (index_of x r)
  end.
Definition address_order (s : string) : nat :=
  match index_of s ADDRESS_SCRIPTS with Some i => i | None => List.length ADDRESS_SCRIPTS end.

(** syntagmatic_function.py 17-26: the constant of a role. *)
Definition role := list string.
Definition mk_role (l : list string) : res role := if forallb (fun s => ins s ADDRESS_SCRIPTS) l then Ok l else Err ValueError.
(** 31-37, between roles, whose scripts are all in ADDRESS_SCRIPTS. *)
Definition role_lt (a b : role) : bool := seq_lt Nat.eqb Nat.ltb (map address_order a) (map address_order b).
(** 22, 28-29 *)
Definition role_str (r : role) : string := join " " r.
(** 39-40 *)
Definition role_eqb (a b : role) : bool := String.eqb (role_str a) (role_str b).

(** The classes passed as contexts. *)
Inductive context := CProcess | CDependant | CIndependant.
(** 127-136 *)
Definition context_prefix (c : context) : role :=
  match c with CProcess => [] | CDependant => [DEPENDANT_QUALITY] | CIndependant => [INDEPENDANT_QUALITY] end.

Section Functions.
  Variable X : Type.

  (** The objects of the classes 245-486, by their own arguments. [None] is the actor of the
      nodes without lexeme. *)
  Inductive sfun :=
  | Jun (link : string) (children : list sfun)
  | Indep (actor : option X)
  | Dep (actor : option X) (dependant independant : option sfun)
  | Proc (actor : option X) (valence : string) (actants : list (string * sfun)).

  Definition under (pre : role) (l : list (role * sfun)) : list (role * sfun) := map (fun e => ((pre ++ fst e)%list, snd e)) l.
  (** The dictionary [actors] (53-55, 254-260, 306, 341-347, 431-434) in its order. Its keys
      are distinct (SfunWordProofs), so no assignment replaces another one. *)
  Fixpoint actors (f : sfun) : list (role * sfun) :=
    match f with
    | Jun link children =>
      ([], f) ::
      (fix go (i : nat) (cs : list sfun) : list (role * sfun) :=
        match cs with
        | [] => []
        | c :: r => (under [link; nth i JUNCTION_INDEX ""] (actors c) ++ go (S i) r)%list
        end) 0 children
    | Indep _ => [([], f)]
    | Dep _ d i =>
      (([], f) ::
       match i with Some g => under [INDEPENDANT_QUALITY] (actors g) | None => [] end ++
       match d with Some g => under [DEPENDANT_QUALITY] (actors g) | None => [] end)%list
    | Proc _ v acts =>
      ([v], f) ::
      (fix go (l : list (string * sfun)) : list (role * sfun) :=
        match l with
        | [] => []
        | (r, g) :: l => (under [r] (actors g) ++ go l)%list
        end) acts
    end.

  (** Attribute [actor]. *)
  Definition actor_of (f : sfun) : option X :=
    match f with Jun _ _ => None | Indep x => x | Dep x _ _ => x | Proc x _ _ => x end.
  Definition is_jun (f : sfun) : bool := match f with Jun _ _ => true | _ => false end.

  Definition entry := (role * option X)%type.

  (** 177-184 *)
  Definition as_list (c : context) (f : sfun) : list entry :=
    map (fun e => ((context_prefix c ++ fst e)%list, actor_of (snd e))) (filter (fun e => negb (is_jun (snd e))) (actors f)).

  (** 263-293: link and groups of a junction; [address[0]] and [address[1]] may raise
      IndexError, [JUNCTION_INDEX.index] ValueError, [groups[i] = ] IndexError. *)
  Definition head_of (e : entry) : res string := match fst e with a :: _ => Ok a | [] => Err IndexError end.
  Definition indexed (e : entry) : res (nat * entry) :=
    match fst e with
    | _ :: a :: r => match index_of a JUNCTION_INDEX with Some i => Ok (i, (r, snd e)) | None => Err ValueError end
    | _ => Err IndexError
    end.
  Definition junction_parts (l : list entry) : res (string * list (list entry)) :=
    do heads <- mapM head_of l;
    match filter (fun a => ins a JUNCTION_SCRIPTS) (dedup String.eqb heads) with
    | [link] =>
      do ixs <- mapM indexed l;
      let keys := dedup Nat.eqb (map fst ixs) in
      let n := List.length keys in
      do _ <- mapM (fun i => if Nat.ltb n i then Err ValueError else if Nat.eqb i n then Err IndexError else Ok tt) keys;
      Ok (link, map (fun i => map snd (filter (fun p => Nat.eqb (fst p) i) ixs)) (seq 0 n))
    | _ => Err ValueError
    end.
  (** 246-260, 295: JUNCTION_INDEX[i] raises IndexError after the last index. *)
  Definition mk_jun (link : string) (children : list sfun) : res sfun :=
    if Nat.ltb (List.length JUNCTION_INDEX) (List.length children) then Err IndexError else Ok (Jun link children).

  (** 308-328; the fuel is discussed at [from_list]. *)
  Fixpoint indep_from (fuel : nat) (l : list entry) : res sfun :=
    match fuel with
    | 0 => Err OutOfFuel
    | S f =>
      match l with
      | [([], x)] => Ok (Indep x)
      | _ => do p <- junction_parts l; do cs <- mapM (indep_from f) (snd p); mk_jun (fst p) cs
      end
    end.

  (** 350-375 *)
  Record dep_state := { d_actor : option X; d_dep : list entry; d_indep : list entry; d_jun : bool }.
  Definition dep_step (st : dep_state) (e : entry) : res dep_state :=
    match fst e with
    | [] =>
      match d_actor st with
      | Some _ => Err ValueError
      | None => Ok {| d_actor := snd e; d_dep := d_dep st; d_indep := d_indep st; d_jun := d_jun st |}
      end
    | a :: r =>
      if ins a JUNCTION_SCRIPTS then Ok {| d_actor := d_actor st; d_dep := d_dep st; d_indep := d_indep st; d_jun := true |}
      else if d_jun st then Err ValueError
      else if String.eqb a INDEPENDANT_QUALITY then
        Ok {| d_actor := d_actor st; d_dep := d_dep st; d_indep := d_indep st ++ [(r, snd e)]; d_jun := false |}
      else if String.eqb a DEPENDANT_QUALITY then
        Ok {| d_actor := d_actor st; d_dep := d_dep st ++ [(r, snd e)]; d_indep := d_indep st; d_jun := false |}
      else Err ValueError
    end%list.
  Fixpoint dep_scan (st : dep_state) (l : list entry) : res dep_state :=
    match l with [] => Ok st | e :: l => do st <- dep_step st e; dep_scan st l end.
  Definition dep_init := {| d_actor := None; d_dep := []; d_indep := []; d_jun := false |}.
  (** 377-388 *)
  Definition opt_from (from : list entry -> res sfun) (l : list entry) : res (option sfun) :=
    match l with [] => Ok None | _ => do f <- from l; Ok (Some f) end.
  Fixpoint dep_from (fuel : nat) (l : list entry) : res sfun :=
    match fuel with
    | 0 => Err OutOfFuel
    | S f =>
      do st <- dep_scan dep_init l;
      if d_jun st then do p <- junction_parts l; do cs <- mapM (dep_from f) (snd p); mk_jun (fst p) cs
      else do d <- opt_from (dep_from f) (d_dep st);
           do i <- opt_from (indep_from f) (d_indep st);
           Ok (Dep (d_actor st) d i)
    end.

  (** 436-458. [next(iter(address))] of an empty address is not reached from [from_list],
      which has evaluated [address[0]]. *)
  Record proc_state := { p_actor : option X; p_valence : option string; p_actants : list (string * list entry) }.
  Fixpoint add_actant (r : string) (e : entry) (l : list (string * list entry)) : list (string * list entry) :=
    match l with
    | [] => [(r, [e])]
    | (r', es) :: l => if String.eqb r r' then (r', (es ++ [e])%list) :: l else (r', es) :: add_actant r e l
    end.
  Definition proc_step (st : proc_state) (e : entry) : res proc_state :=
    match fst e with
    | [] => Err IndexError
    | a :: r =>
      if ins a VALENCES then
        match r, p_actor st with
        | [], None => Ok {| p_actor := snd e; p_valence := Some a; p_actants := p_actants st |}
        | _, _ => Err ValueError
        end
      else if ins a ACTANTS then
        match List.length (filter (fun s => ins s ACTANTS) (fst e)) with
        | 1 => Ok {| p_actor := p_actor st; p_valence := p_valence st; p_actants := add_actant a (r, snd e) (p_actants st) |}
        | _ => Err ValueError
        end
      else Err ValueError
    end.
  Fixpoint proc_scan (st : proc_state) (l : list entry) : res proc_state :=
    match l with [] => Ok st | e :: l => do st <- proc_step st e; proc_scan st l end.
  Definition proc_init := {| p_actor := None; p_valence := None; p_actants := [] |}.
  (** 460-467, 409-434; without valence SyntagmaticRole((None,)) raises ValueError. *)
  Definition proc_from (fuel : nat) (l : list entry) : res sfun :=
    do st <- proc_scan proc_init l;
    do acts <- mapM (fun p => do f <- dep_from fuel (snd p); Ok (fst p, f)) (p_actants st);
    match p_valence st with
    | Some v => Ok (Proc (p_actor st) v acts)
    | None => Err ValueError
    end.

  (** 186-216. Each level of recursion removes a script at least from the addresses: the
      fuel, one more than their greatest length, suffices (SfunProofs). *)
  Definition fuel_for (l : list entry) : nat := S (maxl (map (fun e => List.length (fst e)) l)).
  Definition children_of (l : list entry) : list entry := map (fun e => (tl (fst e), snd e)) l.
  Definition from_list (l : list entry) : res (context * sfun) :=
    match l with
    | [] => Err ValueError
    | _ =>
      do roles <- mapM head_of l;
      match List.length (filter (fun a => ins a VALENCES) roles) with
      | 1 => do f <- proc_from (fuel_for l) l; Ok (CProcess, f)
      | S (S _) => Err ValueError
      | 0 =>
        match dedup String.eqb roles with
        | [r] =>
          if String.eqb r DEPENDANT_QUALITY then do f <- dep_from (fuel_for l) (children_of l); Ok (CDependant, f)
          else if String.eqb r INDEPENDANT_QUALITY then do f <- indep_from (fuel_for l) (children_of l); Ok (CIndependant, f)
          else Err ValueError
        | _ => Err ValueError
        end
      end
    end.

  (** 57-60: [==] of functions compares the sorted pairs (role, actor). *)
  Definition pairs (f : sfun) : list entry :=
    sort (fun a b => role_lt (fst a) (fst b)) (map (fun e => (fst e, actor_of (snd e))) (actors f)).

  (** 161-175 *)
  Definition node_at (f : sfun) (r : role) : option sfun := option_map snd (find (fun e => role_eqb r (fst e)) (actors f)).
  Fixpoint expand (fuel : nat) (f : sfun) (r : role) : res (list role) :=
    match fuel with
    | 0 => Err OutOfFuel
    | S k =>
      match node_at f r with
      | None => Err UnboundLocalError
      | Some (Jun link children) =>
        do l <- mapM (fun i => expand k f (r ++ [link; nth i JUNCTION_INDEX ""])%list) (seq 0 (List.length children));
        Ok (List.concat l)
      | Some _ => Ok [r]
      end
    end.
  Definition role_expansion (f : sfun) (r : role) (prefix : role) : res (list role) :=
    do l <- expand (S (maxl (map (fun e => List.length (fst e)) (actors f)))) f (skipn (List.length prefix) r);
    Ok (sort role_lt l).
End Functions.
Arguments Jun {X}. Arguments Indep {X}. Arguments Dep {X}. Arguments Proc {X}.
Arguments actors {X}. Arguments actor_of {X}. Arguments is_jun {X}. Arguments as_list {X}. Arguments from_list {X}.
Arguments dep_from {X}. Arguments indep_from {X}. Arguments proc_from {X}. Arguments junction_parts {X}. Arguments mk_jun {X}.
Arguments under {X}. Arguments pairs {X}. Arguments role_expansion {X}. Arguments expand {X}. Arguments node_at {X}.
Arguments head_of {X}. Arguments indexed {X}. Arguments dep_step {X}. Arguments dep_scan {X}. Arguments dep_init {X}. Arguments opt_from {X}.
Arguments proc_step {X}. Arguments proc_scan {X}. Arguments proc_init {X}. Arguments add_actant {X}. Arguments fuel_for {X}. Arguments children_of {X}.

(** ** Words, ieml/usl/word.py *)
Definition actor_str (x : option lexeme) : string := match x with Some l => lexeme_str l | None => "None" end.
(** syntagmatic_function.py 138-159 *)
Definition render (f : sfun lexeme) (r : role) (c : context) : res string :=
  let prefix := context_prefix c in
  do main <- role_expansion f r prefix;
  let address_sorted := sort (fun a b => role_lt (fst a) (fst b)) (actors f) in
  let parts := map (fun e =>
      (if existsb (role_eqb (fst e)) main then "! " else "") ++
      (match prefix with p :: _ => p ++ " " | [] => "" end) ++
      role_str (fst e) ++ " " ++ actor_str (actor_of (snd e)))
    (filter (fun e => negb (is_jun (snd e))) address_sorted) in
  Ok ("[" ++ join " > " parts ++ "]").

(** usl/constants.py 449-457: 0 the type of processes, 1 of actants, 2 of qualities. *)
Inductive word_class := ProcessWord | ActantWord | QualityWord.
Definition class_from_address (r : role) : res word_class :=
  if existsb (fun s => ins s VALENCES) r then Ok ProcessWord
  else if existsb (String.eqb INDEPENDANT_QUALITY) r then Ok QualityWord
  else if existsb (fun s => ins s (ACTANTS ++ [DEPENDANT_QUALITY])) r then Ok ActantWord
  else Err ValueError.

(** word.py 44-58 *)
Record word := { w_fun : sfun lexeme; w_role : role; w_context : context; w_str : string; w_class : word_class }.
Definition mk_word (f : sfun lexeme) (r : role) (c : context) : res word :=
  do s <- render f r c;
  do k <- class_from_address r;
  Ok {| w_fun := f; w_role := r; w_context := c; w_str := s; w_class := k |}.

(** syntagmatic_function.py 233-242; [None.singular_sequences] raises AttributeError. *)
Definition sfun_ss (so : list script -> list script) (c : context) (f : sfun lexeme) : res (list (sfun lexeme)) :=
  let l := as_list c f in
  do xs <- mapM (fun e => match snd e with Some x => Ok (lexeme_ss so x) | None => Err AttributeError end) l;
  mapM (fun ys => do r <- from_list (combine (map fst l) (map Some ys)); Ok (snd r)) (product xs).
(** word.py 60-65 *)
Definition word_ss (so : list script -> list script) (w : word) : res (list word) :=
  do fs <- sfun_ss so (w_context w) (w_fun w);
  match fs with
  | [_] => Ok [w]
  | _ => mapM (fun f => mk_word f (w_role w) (w_context w)) fs
  end.
(** usl/parser/parser.py 175-194: the word of a list of addressed lexemes and of a role. *)
Definition word_of (l : list (role * option lexeme)) (r : role) : res word :=
  match r with
  | [] => Err ValueError
  | _ => do p <- from_list l; do r <- mk_role r; mk_word (snd p) r (fst p)
  end.
