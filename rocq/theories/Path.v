(** Model of ieml/usl/decoration/path.py, of ieml/usl/decoration/parser/{lexer,parser}.py and
    of the methods iter_structure_path. Definitions only. As in UslParser, which of a syntax
    error and of an error raised by an action of the parser comes first is not modelled. *)
From Coq Require Import List String Ascii Bool NArith Arith.
From Verif Require Import Base Script ScriptParser Commons Usl Sfun UslParser.
Import ListNotations.
Local Open Scope string_scope.

(** path.py 198-202, 446-448 *)
Inductive gidx := Constant | Group0 | Group1 | Group2.
Inductive lidx := Content | Flexion.
(** The objects of the classes UslPath, PolymorphemePath, FlexionPath, LexemePath, RolePath
    (28-36, 205-212, 361-369, 451-465, 572-588). *)
Inductive path :=
| PUsl (child : option path)
| PPoly (g : gidx) (m : option script) (k : option nat) (child : option path)
| PFlex (m : script) (child : option path)
| PLex (i : lidx) (child : option path)
| PRole (r : role) (focus : bool) (child : option path).

Definition child_of (p : path) : option path :=
  match p with PUsl c | PPoly _ _ _ c | PFlex _ c | PLex _ c | PRole _ _ c => c end.
Inductive pclass := ClUsl | ClPoly | ClFlex | ClLex | ClRole.
Definition class_of (p : path) : pclass :=
  match p with PUsl _ => ClUsl | PPoly _ _ _ _ => ClPoly | PFlex _ _ => ClFlex | PLex _ _ => ClLex | PRole _ _ _ => ClRole end.
Definition pclass_eqb (a b : pclass) : bool :=
  match a, b with
  | ClUsl, ClUsl | ClPoly, ClPoly | ClFlex, ClFlex | ClLex, ClLex | ClRole, ClRole => true
  | _, _ => false
  end.
Definition gidx_eqb (a b : gidx) : bool :=
  match a, b with Constant, Constant | Group0, Group0 | Group1, Group1 | Group2, Group2 => true | _, _ => false end.
Definition lidx_eqb (a b : lidx) : bool := match a, b with Content, Content | Flexion, Flexion => true | _, _ => false end.
Definition opt_eqb {A} (eqb : A -> A -> bool) (a b : option A) : bool :=
  match a, b with Some x, Some y => eqb x y | None, None => true | _, _ => false end.

(** The constructors of LexemePath (454-465) and of RolePath (575-588) refuse some children. *)
Definition mk_plex (i : lidx) (c : option path) : res path :=
  match i, option_map class_of c with
  | _, (None | Some ClUsl) | Content, Some ClPoly | Flexion, Some ClFlex => Ok (PLex i c)
  | _, _ => Err AssertionError
  end.
Definition mk_prole (r : role) (focus : bool) (c : option path) : res path :=
  match option_map class_of c with
  | None | Some ClUsl | Some ClLex => Ok (PRole r focus c)
  | _ => Err KeyError
  end.

(** 130-134, 261-274, 399-400, 491-495, 615-616 *)
Definition group_name (g : gidx) : string :=
  match g with Constant => "constant" | Group0 => "group_0" | Group1 => "group_1" | Group2 => "group_2" end.
Definition step_str (p : path) : string :=
  match p with
  | PUsl _ => ""
  | PPoly g m k _ =>
    group_name g ++
    match g, k with Constant, _ | _, None => "" | _, Some k => " " ++ int_str k end ++
    match m with Some m => ">" ++ str m | None => "" end
  | PFlex m _ => str m
  | PLex Content _ => "content"
  | PLex Flexion _ => "flexion"
  | PRole r f _ => "role>" ++ (if f then "! " else "") ++ role_str r
  end.
Fixpoint path_str (p : path) : string :=
  ">" ++ step_str p ++
  match p with
  | PUsl (Some c) | PPoly _ _ _ (Some c) | PFlex _ (Some c) | PLex _ (Some c) | PRole _ _ (Some c) => path_str c
  | _ => ""
  end.
(** 148-149 *)
Definition path_eqb (p q : path) : bool := String.eqb (path_str p) (path_str q).

(** 157-158, 218-220, 384-385, 479-480, 603-604, between paths of the same class *)
Definition do_eq (p q : path) : bool :=
  match p, q with
  | PPoly g m k _, PPoly g' m' k' _ => (gidx_eqb g g' && opt_eqb script_eqb m m' && opt_eqb Nat.eqb k k')%bool
  | PFlex m _, PFlex m' _ => script_eqb m m'
  | PLex i _, PLex i' _ => lidx_eqb i i'
  | PRole r f _, PRole r' f' _ => (role_eqb r r' && Bool.eqb f f')%bool
  | _, _ => true
  end.
(** 53-54, 222-223: paths of the other classes have no attribute group_idx. *)
Definition own_has_prefix (p q : path) : res bool :=
  match p, q with
  | PPoly g _ k _, PPoly g' _ k' _ => Ok (gidx_eqb g g' && opt_eqb Nat.eqb k k')%bool
  | PPoly _ _ _ _, _ => Err AttributeError
  | _, _ => Ok false
  end.
(** 41-51 *)
Fixpoint has_prefix (p : path) (prefix : option path) : res bool :=
  match prefix with
  | None => Ok true
  | Some q =>
    if (negb (pclass_eqb (class_of p) (class_of q)) || negb (do_eq p q))%bool then own_has_prefix p q
    else
      match p with
      | PUsl (Some c) | PPoly _ _ _ (Some c) | PFlex _ (Some c) | PLex _ (Some c) | PRole _ _ (Some c) => has_prefix c (child_of q)
      | _ => Ok (match child_of q with None => true | Some _ => false end)
      end
  end.

(** 166-167, 314-316, 413-414, 519-533, 643-646, with use_child *)
Definition with_child (p : path) (c : option path) : res path :=
  match p with
  | PUsl _ => Ok (PUsl c)
  | PPoly g m k _ => Ok (PPoly g m k c)
  | PFlex m _ => Ok (PFlex m c)
  | PLex Content _ =>
    match c with
    | None | Some (PPoly _ _ _ _) => mk_plex Content c
    | Some _ => Err ValueError
    end
  | PLex Flexion _ =>
    match c with
    | Some (PPoly _ (Some m) _ _) => mk_plex Flexion (Some (PFlex m None))
    | Some (PPoly _ None _ _) => mk_plex Flexion None
    | None | Some (PFlex _ _) => mk_plex Flexion c
    | Some _ => Err ValueError
    end
  | PRole r f _ => mk_prole r f c
  end.
(** 169-170, which never fails *)
Definition alone (p : path) : path :=
  match p with
  | PUsl _ => PUsl None
  | PPoly g m k _ => PPoly g m k None
  | PFlex m _ => PFlex m None
  | PLex i _ => PLex i None
  | PRole r f _ => PRole r f None
  end.
(** 62-81; the clone of 79 is equal to the path. *)
Fixpoint concat (p q : path) (force : bool) : res path :=
  match p, q with
  | PUsl _, _ => Ok q
  | _, PUsl _ => Ok p
  | _, _ =>
    if pclass_eqb (class_of p) (class_of q) then
      do b <- has_prefix q (Some p);
      Ok (if (negb b && negb force)%bool then p else q)
    else
      match p with
      | PUsl None | PPoly _ _ _ None | PFlex _ None | PLex _ None | PRole _ _ None => with_child p (Some q)
      | PUsl (Some c) | PPoly _ _ _ (Some c) | PFlex _ (Some c) | PLex _ (Some c) | PRole _ _ (Some c) =>
        do c <- concat c q force; with_child p (Some c)
      end
  end.
(** 83-96; the result of Python may be None. A path is an instance of its own class and of
    UslPath. *)
Definition isinstance (p : path) (c : pclass) : bool := (pclass_eqb c ClUsl || pclass_eqb (class_of p) c)%bool.
Fixpoint remove_prefix (p : path) (prefix : option path) : res (option path) :=
  do b <- has_prefix p prefix;
  if negb b then Ok None
  else
    match prefix with
    | None => Ok (Some p)
    | Some q =>
      if (negb (isinstance p (class_of q)) || negb (do_eq p q))%bool then Ok None
      else
        match p with
        | PUsl (Some c) | PPoly _ _ _ (Some c) | PFlex _ (Some c) | PLex _ (Some c) | PRole _ _ (Some c) => remove_prefix c (child_of q)
        | _ => Ok None
        end
    end.
(** 98-103 *)
Fixpoint tail (p : path) : path :=
  match p with
  | PUsl (Some c) | PPoly _ _ _ (Some c) | PFlex _ (Some c) | PLex _ (Some c) | PRole _ _ (Some c) => tail c
  | _ => p
  end.
(** 187-194 *)
Fixpoint split_tail (p : path) : res (path * path) :=
  match p with
  | PUsl (Some c) | PPoly _ _ _ (Some c) | PFlex _ (Some c) | PLex _ (Some c) | PRole _ _ (Some c) =>
    match child_of c with
    | None => Ok (alone p, c)
    | Some _ => do r <- split_tail c; do h <- with_child p (Some (fst r)); Ok (h, snd r)
    end
  | _ => Ok (PUsl None, p)
  end.

(** ** Dereference *)
(** 105-121. The elements reached are USLs, scripts, or None for the lexeme of a node that
    has none. DeferenceError is a KeyError. Instanced USLs are in Instance.v. *)
Definition groups_at (u : pm) (g : gidx) : option group :=
  match g with Constant => None | Group0 => nth_error (groups u) 0 | Group1 => nth_error (groups u) 1 | Group2 => nth_error (groups u) 2 end.
Definition in_scripts (m : script) (l : list script) : bool := existsb (script_eqb m) l.
(** 241-259 *)
Definition deref_poly (g : gidx) (m : option script) (u : pm) : res usl :=
  match g, groups_at u g, m with
  | Constant, _, Some m => if (is_empty m || in_scripts m (constant u))%bool then Ok (UScript m) else Err KeyError
  | Constant, _, None => Ok (UPm (mk_pm (constant u) []))
  | _, None, _ => Err KeyError
  | _, Some gr, Some m => if (is_empty m || in_scripts m (fst gr))%bool then Ok (UScript m) else Err KeyError
  | _, Some gr, None => Ok (UPm (mk_pm [] [gr]))
  end.
(** 390-397: the keys are strings, [in] compares the strings. *)
Definition deref_flex (m : script) (u : pm) : res usl :=
  let all := (constant u ++ flat_map (fun g => filter_empty (fst g)) (groups u))%list in
  if ins (str m) (map str all) then Ok (UScript m) else Err KeyError.
(** usl/constants.py 98 *)
Definition ADDRESS_ROLE_IN_PROCESS := (VALENCES ++ ACTANTS)%list.
(** syntagmatic_function.py 83-99 with both options; [actors[role]] is [node_at]. *)
Definition sfun_get (f : sfun lexeme) (r : role) : res (option lexeme) :=
  match r with
  | [] => Err IndexError
  | a :: r' =>
    let r1 := if ins a ADDRESS_ROLE_IN_PROCESS then r else r' in
    do r2 <- match r1 with
             | v :: r'' =>
               if ins v VALENCES then
                 match find (fun v => match node_at f [v] with Some _ => true | None => false end) VALENCES with
                 | Some v => Ok (v :: r'')
                 | None => Err KeyError
                 end
               else Ok r1
             | [] => Ok r1
             end;
    match node_at f r2 with Some n => Ok (actor_of n) | None => Err KeyError end
  end.
(** 38-39, 485-489, 609-613 *)
Definition deref_step (p : path) (u : option usl) : res (option usl) :=
  match p, u with
  | PUsl _, Some (UPm _ | ULexeme _ | UWord _) => Ok u
  | PPoly g m _ _, Some (UPm u) => do x <- deref_poly g m u; Ok (Some x)
  | PFlex m _, Some (UPm u) => do x <- deref_flex m u; Ok (Some x)
  | PLex Content _, Some (ULexeme l) => Ok (Some (UPm (pm_content l)))
  | PLex Flexion _, Some (ULexeme l) => Ok (Some (UPm (pm_flexion l)))
  | PRole r _ _, Some (UWord w) => do x <- sfun_get (w_fun w) r; Ok (option_map ULexeme x)
  | _, _ => Err KeyError
  end.
Fixpoint deref (p : path) (u : option usl) : res (option usl) :=
  do n <- deref_step p u;
  match p with
  | PUsl (Some c) | PPoly _ _ _ (Some c) | PFlex _ (Some c) | PLex _ (Some c) | PRole _ _ (Some c) => deref c n
  | _ => Ok n
  end.

(** ** The elements of a USL and their paths *)
(** polymorpheme.py 187-205: at most three groups are listed. *)
Definition iter_group (g : gidx) (gr : group) : list (path * usl) :=
  (PPoly g None (Some (snd gr)) None, UPm (mk_pm [] [gr])) ::
  map (fun s => (PPoly g (Some s) (Some (snd gr)) None, UScript s)) (fst gr).
Definition iter_pm (u : pm) : list (path * usl) :=
  ((PPoly Constant None None None, UPm (mk_pm (constant u) [])) ::
   map (fun s => (PPoly Constant (Some s) None None, UScript s)) (constant u) ++
   flat_map (fun g => match groups_at u g with Some gr => iter_group g gr | None => [] end) [Group0; Group1; Group2])%list.
(** lexeme.py 52-63 *)
Definition flexion_path (p : path) : path :=
  PLex Flexion (match p with PPoly _ (Some m) _ _ => Some (PFlex m None) | _ => None end).
Definition iter_lexeme (l : lexeme) : list (path * usl) :=
  ((PLex Flexion None, UPm (pm_flexion l)) :: map (fun e => (flexion_path (fst e), snd e)) (iter_pm (pm_flexion l)) ++
   (PLex Content None, UPm (pm_content l)) :: map (fun e => (PLex Content (Some (fst e)), snd e)) (iter_pm (pm_content l)))%list.
(** syntagmatic_function.py 111-119: [None.iter_structure_path] raises AttributeError. *)
Definition iter_entry (focus : role) (e : role * option lexeme) : res (list (path * usl)) :=
  let f := role_eqb (fst e) focus in
  match snd e with
  | None => Err AttributeError
  | Some l => Ok ((PRole (fst e) f None, ULexeme l) :: map (fun x => (PRole (fst e) f (Some (fst x)), snd x)) (iter_lexeme l))
  end.
(** word.py 70-74 *)
Definition iter_word (w : word) : res (list (path * usl)) :=
  do l <- mapM (iter_entry (w_role w)) (as_list (w_context w) (w_fun w));
  Ok ((PUsl None, UWord w) :: List.concat l).
Definition iter_path (u : usl) : res (list (path * usl)) :=
  match u with
  | UScript _ => Err AttributeError
  | UPm u => Ok (iter_pm u)
  | ULexeme l => Ok (iter_lexeme l)
  | UWord w => iter_word w
  end.
(** usl.py 70-76 *)
Definition names_morpheme (p : path) : bool :=
  match tail p with PPoly _ (Some _) _ _ | PFlex _ _ => true | _ => false end.
Definition iter_by_script (u : usl) : res (list (path * usl)) :=
  do l <- iter_path u; Ok (filter (fun e => names_morpheme (fst e)) l).

(** ** The parser of paths *)
(** usl/constants.py 237-313, in the order of the dictionary; a name and its script *)
Definition ROLE_NAMES_TO_SCRIPT : list (string * string) :=
  [("process_1", "E:S:."); ("process_2", "E:T:."); ("process_3", "E:B:.");
   ("initiator", "E:.n.-"); ("interactant", "E:.d.-"); ("recipient", "E:.k.-");
   ("time", "E:.t.-"); ("location", "E:.l.-"); ("manner", "E:.f.-"); ("intention", "E:.m.-"); ("cause", "E:.s.-");
   ("independant", "E:U:."); ("dependant", "E:A:.");
   ("and", "E:S:.-k.u.-'"); ("or (inclusive)", "E:B:.-k.u.-'"); ("or (exclusive)", "E:T:.-k.u.-'");
   ("is the same as the precedent", "E:.-s.a.-k.u.-'");
   ("is similar to the precedent", "E:.-b.a.-k.u.-'");
   ("is distinct from the precedent", "E:.-t.a.-k.u.-'");
   ("is worse than the precedent", "E:.-k.a.-k.u.-'");
   ("is as good as the precedent", "E:.-m.a.-k.u.-'");
   ("is better than the precedent", "E:.-n.a.-k.u.-'");
   ("is less than the precedent", "E:.-d.a.-k.u.-'");
   ("is as much as the precedent", "E:.-f.a.-k.u.-'");
   ("is more than the precedent", "E:.-l.a.-k.u.-'");
   ("is the worst of the precedent", "E:.-y.-k.u.-'");
   ("is the qualitative average of the precedent", "E:.-o.-k.u.-'");
   ("is the best of the precedent", "E:.-e.-k.u.-'");
   ("is the minimum of the precedent", "E:.-u.-k.u.-'");
   ("is the quantitative average of the precedent", "E:.-a.-k.u.-'");
   ("is the maximum of the precedent", "E:.-i.-k.u.-'");
   ("explains the precedent", "E:.-s.u.-k.u.-'");
   ("has nothing to do with the precedent", "E:.-b.u.-k.u.-'");
   ("contradicts the precedent", "E:.-t.u.-k.u.-'");
   ("unfortunately opposes the precedent", "E:.-k.u.-k.u.-'");
   ("balances the precedent (neutral)", "E:.-m.u.-k.u.-'");
   ("is fortunately opposed to the precedent", "E:.-n.u.-k.u.-'");
   ("has the opposite effect of the precedent", "E:.-d.u.-k.u.-'");
   ("reduces the effect of the previous one", "E:.-f.u.-k.u.-'");
   ("increases the effect of the previous one", "E:.-l.u.-k.u.-'");
   ("is the effect of the precedent (therefore)", "E:.-wo.-k.u.-'");
   ("is the cause of the precedent (because)", "E:.-wa.-k.u.-'");
   ("is an analogy of the precedent cause to effect relationship (a fortiori, a contrario, etc.)", "E:.-we.-k.u.-'");
   ("is an analogy of the precedent effect to cause relationship", "E:.-wu.-k.u.-'");
   ("*1", "j.-U:.-'d.o.-l.o.-',"); ("*2", "j.-A:.-'d.o.-l.o.-',"); ("*3", "g.-U:.-'d.o.-l.o.-',"); ("*4", "g.-A:.-'d.o.-l.o.-',");
   ("*5", "h.-U:.-'d.o.-l.o.-',"); ("*6", "h.-A:.-'d.o.-l.o.-',"); ("*7", "c.-U:.-'d.o.-l.o.-',"); ("*8", "c.-A:.-'d.o.-l.o.-',");
   ("*9", "p.-U:.-'d.o.-l.o.-',"); ("*10", "p.-A:.-'d.o.-l.o.-',"); ("*11", "x.-U:.-'d.o.-l.o.-',"); ("*12", "x.-A:.-'d.o.-l.o.-',");
   ("process", "E:B:.")].
Definition ROLE_NAMES := map fst ROLE_NAMES_TO_SCRIPT.

(** decoration/parser/lexer.py 15-25 *)
Inductive ptoken :=
| KSep | KRole | KName (s : string) | KLex (i : lidx) | KPos (s : string) | KMorpheme (s : string) | KMult (n : nat) | KBang.

(** lexer.py 28: the repetition of a letter and of its marks, each optional, in that order.
    [next]: the marks that may follow. Length of the match. *)
Definition MARKS : list ascii := [":"; "."; "-"; "'"; ","; "146"; "_"; ";"; "+"]%char.
Fixpoint after (c : ascii) (l : list ascii) : option (list ascii) :=
  match l with [] => None | x :: r => if Ascii.eqb c x then Some r else after c r end.
Fixpoint run (next : list ascii) (s : string) : nat :=
  match s with
  | "" => 0
  | String c r =>
    match after c next with
    | Some next => S (run next r)
    | None => if term_letter c then S (run MARKS r) else 0
    end
  end.
(** lexer.py 42 *)
Definition group_word (s : string) : bool :=
  (String.prefix "group_" s && match drop 6 s with String d _ => digit d | "" => false end)%bool.
(** lexer.py 46: the negative lookahead. *)
Definition reserved (s : string) : bool :=
  (existsb (fun k => String.prefix k s) ["flexion"; "content"; "constant"; "role"] || group_word s ||
   existsb (fun k => String.prefix k s) ROLE_NAMES)%bool.
(** lexer.py 34-46: the alternatives are tried by decreasing length of their regular
    expressions. *)
Definition ptoken_at (s : string) : option (ptoken * nat) :=
  match s with
  | "" => None
  | String c r =>
    if (term_letter c && negb (reserved s))%bool then Some (KMorpheme (take (run [] s) s), run [] s)
    else
      match find (fun k => String.prefix k s) ROLE_NAMES with
      | Some k => Some (KName k, String.length k)
      | None =>
        if group_word s then Some (KPos (take 7 s), 7)
        else if String.prefix "constant" s then Some (KPos "constant", 8)
        else if String.prefix "flexion" s then Some (KLex Flexion, 7)
        else if String.prefix "content" s then Some (KLex Content, 7)
        else if String.prefix "role" s then Some (KRole, 4)
        else if Ascii.eqb c ">" then Some (KSep, 1)
        else if digit c then Some (KMult (nat_of_ascii c - 48), 1)
        else if Ascii.eqb c "!" then Some (KBang, 1)
        else None
      end
  end.
(** lexer.py 47-52: blanks and illegal characters are passed; none of the blanks begins a token. *)
Fixpoint plex (skip : nat) (s : string) : list ptoken :=
  match s with
  | "" => []
  | String _ r =>
    match skip with
    | S k => plex k r
    | 0 => match ptoken_at s with Some (t, n) => t :: plex (n - 1) r | None => plex 0 r end
    end
  end.

(** Syntax trees. *)
Record raw_pos := { rp_pos : string; rp_mult : option nat; rp_morpheme : option string }.
Inductive raw_part := RwPos (p : raw_pos) | RwMorpheme (s : string).
Record raw_lex := { rl_index : lidx; rl_child : option raw_part }.
Inductive raw_path :=
| RwUsl
| RwRole (focus : bool) (r : list string) (child : option raw_lex)
| RwLex (l : raw_lex)
| RwPart (p : raw_part).
(** parser.py 106-114 *)
Definition q_part (w : list ptoken) : option (raw_part * list ptoken) :=
  match w with
  | KMorpheme s :: r => Some (RwMorpheme s, r)
  | KPos s :: KMult n :: KSep :: KMorpheme m :: r => Some (RwPos {| rp_pos := s; rp_mult := Some n; rp_morpheme := Some m |}, r)
  | KPos s :: KMult n :: r => Some (RwPos {| rp_pos := s; rp_mult := Some n; rp_morpheme := None |}, r)
  | KPos s :: KSep :: KMorpheme m :: r => Some (RwPos {| rp_pos := s; rp_mult := None; rp_morpheme := Some m |}, r)
  | KPos s :: r => Some (RwPos {| rp_pos := s; rp_mult := None; rp_morpheme := None |}, r)
  | _ => None
  end.
(** parser.py 89-92 *)
Definition q_lex (w : list ptoken) : option (raw_lex * list ptoken) :=
  match w with
  | KLex i :: KSep :: r =>
    match q_part r with Some (c, r') => Some ({| rl_index := i; rl_child := Some c |}, r') | None => None end
  | KLex i :: r => Some ({| rl_index := i; rl_child := None |}, r)
  | _ => None
  end.
(** parser.py 53-57: names and texts of scripts *)
Fixpoint q_names (w : list ptoken) : list string * list ptoken :=
  match w with
  | KMorpheme s :: r | KName s :: r => let (l, r') := q_names r in (s :: l, r')
  | _ => ([], w)
  end.
(** parser.py 75-79 *)
Definition q_role (w : list ptoken) : option (raw_path * list ptoken) :=
  match w with
  | KRole :: KSep :: r =>
    let (f, r) := match r with KBang :: r => (true, r) | _ => (false, r) end in
    match q_names r with
    | ([], _) => None
    | (l, KSep :: r') => match q_lex r' with Some (c, r'') => Some (RwRole f l (Some c), r'') | None => None end
    | (l, r') => Some (RwRole f l None, r')
    end
  | _ => None
  end.
(** parser.py 41-51 *)
Definition q_path (w : list ptoken) : option raw_path :=
  match w with
  | [KSep] => Some RwUsl
  | KSep :: (KRole :: _) as r => match q_role (tl w) with Some (p, []) => Some p | _ => None end
  | KSep :: (KLex _ :: _) as r => match q_lex (tl w) with Some (p, []) => Some (RwLex p) | _ => None end
  | KSep :: r => match q_part r with Some (p, []) => Some (RwPart p) | _ => None end
  | _ => None
  end.

Section ParsePath.
  Variable so : list script -> list script.
  Definition v_opt (s : option string) : res (option script) :=
    match s with Some s => do m <- parse so s; Ok (Some m) | None => Ok None end.
  (** parser.py 106-128: GroupIndex[...] raises KeyError; without multiplicity it is 1. *)
  Definition group_index (s : string) : res gidx :=
    match find (fun g => String.eqb s (group_name g)) [Constant; Group0; Group1; Group2] with
    | Some g => Ok g
    | None => Err KeyError
    end.
  Definition v_part (p : raw_part) : res path :=
    match p with
    | RwMorpheme s => do m <- parse so s; Ok (PFlex m None)
    | RwPos p =>
      do g <- group_index (rp_pos p);
      do m <- v_opt (rp_morpheme p);
      Ok (PPoly g m (Some (match rp_mult p with Some k => k | None => 1 end)) None)
    end.
  (** 93-104 *)
  Definition v_lex (l : raw_lex) : res path :=
    match rl_child l with
    | None => Ok (PLex (rl_index l) None)
    | Some c =>
      do c <- v_part c;
      match rl_index l, c with
      | Content, PPoly _ _ _ _ | Flexion, PFlex _ _ => mk_plex (rl_index l) (Some c)
      | _, _ => Err CannotParse
      end
    end.
  (** 58-73 *)
  Definition v_name (s : string) : res string :=
    match find (fun e => String.eqb s (fst e)) ROLE_NAMES_TO_SCRIPT with
    | Some e => Ok (snd e)
    | None => do m <- parse so s; Ok (str m)
    end.
  Definition v_path (p : raw_path) : res path :=
    match p with
    | RwUsl => Ok (PUsl None)
    | RwPart p => v_part p
    | RwLex l => v_lex l
    | RwRole f l c =>
      do r <- mapM v_name l;
      do r <- mk_role r;
      do c <- match c with Some c => do c <- v_lex c; Ok (Some c) | None => Ok None end;
      mk_prole r f c
    end.
  (** 28-39, 132-138 *)
  Definition path_parse (s : string) : res path :=
    match q_path (plex 0 s) with
    | None => Err CannotParse
    | Some p => match v_path p with Err ValueError => Err CannotParse | r => r end
    end.

  (** ** USLs from paths, path.py 689-732 *)
  (** Only scripts as values, those of iter_structure_path_by_script_ss. A value is the list
      of a set of scripts: its order is that of the first occurrences here, which the
      constructors of polymorphemes make immaterial by sorting. *)
  (** 700-701: a defaultdict with its keys 'type' and 'node' and its paths, in order. *)
  Inductive bin := Bin (type : option pclass) (node : option (list script)) (kids : list (path * bin)).
  Definition new_bin := Bin None None [].
  (** [f] applied to [bin[key]] *)
  Fixpoint update (key : path) (f : bin -> res bin) (l : list (path * bin)) : res (list (path * bin)) :=
    match l with
    | [] => do b <- f new_bin; Ok [(key, b)]
    | (k, b) :: l =>
      if path_eqb k key then do b <- f b; Ok ((k, b) :: l)
      else do l <- update key f l; Ok ((k, b) :: l)
    end.
  (** 703-715 *)
  Fixpoint group_by (p : path) (vs : list script) (b : bin) : res bin :=
    match b with
    | Bin ty node kids =>
      do ty <- match ty with
               | Some c => if isinstance p c then Ok c else Err ValueError
               | None => Ok (class_of p)
               end;
      do kids <- update (alone p) (fun b =>
        match p with
        | PUsl (Some c) | PPoly _ _ _ (Some c) | PFlex _ (Some c) | PLex _ (Some c) | PRole _ _ (Some c) => group_by c vs b
        | _ => match b with Bin t _ ks => Ok (Bin t (Some vs) ks) end
        end) kids;
      Ok (Bin (Some ty) node kids)
    end.

  Inductive node := NValues (l : list script) | NPm (p : pm) | NLexeme (l : lexeme) | NWord (w : word).
  (** 327-358. The path of a polymorpheme given by the parser has no child, so that its node
      is a list of values. *)
  Definition poly_values (e : path * node) : res (gidx * option nat * list script) :=
    match e with
    | (PPoly g _ k _, NValues l) => Ok (g, k, l)
    | (PPoly _ _ _ _, _) => Err TypeError
    | _ => Err ValueError
    end.
  Definition falsy (k : option nat) : bool := match k with None | Some 0 => true | _ => false end.
  Fixpoint group_mult (acc : option nat) (ks : list (option nat)) : res (option nat) :=
    match ks with
    | [] => Ok acc
    | k :: ks =>
      if falsy k then group_mult (Some 1) ks
      else if (match acc with Some _ => negb (opt_eqb Nat.eqb k acc) | None => false end) then Err ValueError
      else group_mult k ks
    end.
  Definition entries_of (g : gidx) (l : list (gidx * option nat * list script)) := filter (fun e => gidx_eqb (fst (fst e)) g) l.
  Definition build_group (l : list (gidx * option nat * list script)) (g : gidx) : res (list group) :=
    do k <- group_mult None (map (fun e => snd (fst e)) (entries_of g l));
    match flat_map snd (entries_of g l), k with
    | [], _ => Ok []
    | ms, Some k => Ok [(ms, k)]
    | _, None => Err AssertionError
    end.
  Definition build_pm (l : list (path * node)) : res pm :=
    do es <- mapM poly_values l;
    do gs <- mapM (build_group es) [Group0; Group1; Group2];
    Ok (mk_pm (flat_map snd (entries_of Constant es)) (List.concat gs)).

  (** usl/constants.py 54-77; the singular sequences of each of these scripts *)
  Definition FLEXION_SCRIPTS : list string :=
    ["E:M:.-d.u.-'"; "E:.-n.E:U:.+F:.-'"; "E:O:O:."; "E:M:O:."; "E:.+E:U:S:+T:.-M:M:.o.-'"; "E:.b.O:M:.-"; "E:.b.O:O:.-";
     "E:S:.j.-'M:O:.-O:.-',"; "E:.-',b.-S:.U:.-'y.-'O:.-',_"; "E:.O:O:.-"; "E:I:.-t.u.-'"; "E:F:.-t.o.-'";
     "E:.-'O:O:.-M:.-'t.o.-',"; "E:.-O:O:.-t.o.-'"; "E:.-F:.M:M:.-l.-'"; "E:.O:O:.O:.-t.o.-'"; "E:M:.-O:.-t.o.-'";
     "E:M:.d.+M:O:.-"; "E:F:M:."; "E:.O:.M:O:.-"].
  Definition flexion_root (s : string) : list script := match (do x <- parse (fun l => l) s; ss x) with Ok l => l | Err _ => [] end.
  Definition FLEXION_ROOTS : list (list script) := map flexion_root FLEXION_SCRIPTS.
  (** 417-443. The roots are taken in the order of FLEXION_SCRIPTS rather than in that of the
      first morphemes found in them, which the constructor makes immaterial. *)
  Definition flexion_sets (ms : list script) : list (list script) :=
    map (fun r => dedup script_eqb (filter (fun m => in_scripts m r) ms)) FLEXION_ROOTS.
  Definition flexion_of (ms : list script) : pm :=
    let sets := flexion_sets ms in
    mk_pm (flat_map (fun v => match v with [m] => [m] | _ => [] end) sets)
          (flat_map (fun v => match v with [] | [_] => [] | _ => [(v, 1)] end) sets).
  Definition flex_values (e : path * node) : res (list script) :=
    match e with
    | (PFlex _ _, NValues l) => Ok l
    | (PFlex _ _, _) => Err TypeError
    | _ => Err ValueError
    end.
  Definition build_flex (l : list (path * node)) : res pm :=
    do ms <- mapM flex_values l; Ok (flexion_of (List.concat ms)).
  (** 535-569: the paths are distinct keys without child, at most one for each index. *)
  Fixpoint build_lex (acc : option pm * option pm) (l : list (path * node)) : res lexeme :=
    match l with
    | [] =>
      let get o := match o with Some p => p | None => mk_pm [] [] end in
      Ok {| pm_flexion := get (snd acc); pm_content := get (fst acc) |}
    | (PLex Content _, v) :: l =>
      match fst acc, v with
      | Some _, _ => Err ValueError
      | None, NValues ms => build_lex (Some (mk_pm ms []), snd acc) l
      | None, NPm p => build_lex (Some p, snd acc) l
      | None, _ => Err TypeError
      end
    | (PLex Flexion _, v) :: l =>
      match snd acc, v with
      | Some _, _ => Err ValueError
      | None, NValues ms => build_lex (fst acc, Some (flexion_of ms)) l
      | None, NPm p => build_lex (fst acc, Some p) l
      | None, _ => Err TypeError
      end
    | _ => Err ValueError
    end.
  (** 648-685. 657 compares a path with a role: two paths with focus are always refused. A
      list of scripts in place of a lexeme, which the code puts in the word, is not modelled
      (TypeError). *)
  Fixpoint focus_of (acc : option role) (l : list (path * node)) : res (option role) :=
    match l with
    | [] => Ok acc
    | (PRole r f _, _) :: l =>
      if f then match acc with Some _ => Err ValueError | None => focus_of (Some r) l end else focus_of acc l
    | _ => Err ValueError
    end.
  Definition role_key (focus : role) (e : path * node) : res (role * bool * lexeme) :=
    match e with
    | (PRole r f _, NLexeme x) => Ok ((r, (f || role_eqb focus r)%bool), x)
    | (PRole _ _ _, _) => Err TypeError
    | _ => Err ValueError
    end.
  Definition same_key (a b : role * bool) : bool := (role_eqb (fst a) (fst b) && Bool.eqb (snd a) (snd b))%bool.
  Definition build_word (l : list (path * node)) : res word :=
    do f <- focus_of None l;
    match f with
    | None => Err ValueError
    | Some f =>
      do es <- mapM (role_key f) l;
      if negb (Nat.eqb (List.length (dedup same_key (map fst es))) (List.length es)) then Err ValueError
      else do p <- from_list (map (fun e => (fst (fst e), Some (snd e))) es); mk_word (snd p) f (fst p)
    end.
  (** 172-174, 717-727 *)
  Definition build (ty : pclass) (l : list (path * node)) : res node :=
    match ty with
    | ClUsl => Err NotImplementedError
    | ClPoly => do p <- build_pm l; Ok (NPm p)
    | ClFlex => do p <- build_flex l; Ok (NPm p)
    | ClLex => do x <- build_lex (None, None) l; Ok (NLexeme x)
    | ClRole => do w <- build_word l; Ok (NWord w)
    end.
  Fixpoint build_nodes (b : bin) : res node :=
    match b with
    | Bin _ (Some vs) _ => Ok (NValues vs)
    | Bin ty None kids =>
      do l <- (fix go (l : list (path * bin)) : res (list (path * node)) :=
                 match l with
                 | [] => Ok []
                 | (p, b) :: l => do n <- build_nodes b; do r <- go l; Ok ((p, n) :: r)
                 end) kids;
      match ty with Some ty => build ty l | None => Err AssertionError end
    end.
  (** 696-698: a dictionary of sets. The text of a script is read as one morpheme, so its
      value is a script (otherwise TypeError here). *)
  Definition value_of (v : script) : res script :=
    do u <- usl_parse so (str v); match u with (UScript m, []) => Ok m | _ => Err TypeError end.
  Fixpoint add_value (p : path) (v : script) (l : list (path * list script)) : list (path * list script) :=
    match l with
    | [] => [(p, [v])]
    | (q, vs) :: l => if path_eqb q p then (q, if in_scripts v vs then vs else (vs ++ [v])%list) :: l else (q, vs) :: add_value p v l
    end.
  Definition path_to_value (l : list (path * script)) : list (path * list script) :=
    fold_left (fun acc e => add_value (fst e) (snd e) acc) l [].
  Fixpoint group_all (l : list (path * list script)) (b : bin) : res bin :=
    match l with [] => Ok b | (p, vs) :: l => do b <- group_by p vs b; group_all l b end.
  (** 689-732 *)
  Definition from_path_values (l : list (path * script)) : res usl :=
    do ps <- mapM (fun e => path_parse (path_str (fst e))) l;
    do vs <- mapM (fun e => value_of (snd e)) l;
    do b <- group_all (path_to_value (combine ps vs)) new_bin;
    do n <- build_nodes b;
    match n with
    | NValues _ => Err AssertionError
    | NPm p => Ok (UPm p)
    | NLexeme x => Ok (ULexeme x)
    | NWord w => Ok (UWord w)
    end.
  (** usl.py 134-149 for a list of paths and scripts *)
  Definition usl_of_list (l : list (path * script)) : res usl :=
    match l with [] => Ok (UPm (mk_pm [] [])) | _ => from_path_values l end.
End ParsePath.
