(** Model of ieml/usl/parser/{lexer,parser}.py. Definitions only. The grammar is LALR(1)
    but for one reduce/reduce conflict: a lone morpheme at the end of the text is reduced by
    the first rule, proposition : morpheme. It is modelled by a deterministic parser into
    syntax trees, followed by the semantic actions. As for scripts, PLY runs the actions
    while it parses: which of a syntax error and of an error raised by an action is reported
    first is not modelled. The option factorize_script and the test that morphemes are in a
    dictionary, both off by default, are not modelled. *)
From Coq Require Import List String Ascii Bool NArith Arith.
From Verif Require Import Base Script ScriptParser Commons Usl Sfun.
Import ListNotations.
Local Open Scope string_scope.

(** usl/parser/lexer.py 10-35. PATH and VALUE keep their texts. *)
Inductive utoken :=
| UMorpheme (s : string)
| UOld
| ULpar | URpar | UChevron | ULbr | URbr
| UGroup (n : nat)
| UBang
| ULiteral
| UPath (s : string)
| UValue (s : string).

(** constants.py 117: the two classes of TERM_REGEX; U+2019 is character 146. *)
Definition term_letter (c : ascii) : bool :=
  match c with
  | "E"%char | "U"%char | "A"%char | "S"%char | "B"%char | "T"%char | "O"%char | "M"%char | "F"%char | "I"%char
  | "a"%char | "c"%char | "b"%char | "e"%char | "d"%char | "g"%char | "f"%char | "i"%char | "h"%char | "k"%char | "j"%char
  | "m"%char | "l"%char | "o"%char | "n"%char | "p"%char | "s"%char | "u"%char | "t"%char | "w"%char | "y"%char | "x"%char => true
  | _ => false
  end.
Definition term_char (c : ascii) : bool :=
  match c with
  | "."%char | "-"%char | ";"%char | ":"%char | ","%char | "'"%char | "146"%char | "_"%char | "+"%char => true
  | _ => term_letter c
  end.
Definition digit (c : ascii) : bool := (Nat.leb 48 (nat_of_ascii c) && Nat.leb (nat_of_ascii c) 57)%bool.

(** Number of leading characters in a class. *)
Fixpoint span (p : ascii -> bool) (s : string) : nat :=
  match s with String c r => if p c then S (span p r) else 0 | "" => 0 end.
Definition take (n : nat) (s : string) : string := substring 0 n s.
Fixpoint drop (n : nat) (s : string) : string :=
  match n, s with S k, String _ r => drop k r | _, _ => s end.

(** The strings matched by [E:\.b\.E:.:\.-] (the lookahead of TERM_REGEX) with the
    character in place of the dot. *)
Definition old_class (s : string) : option ascii :=
  if String.prefix "E:.b.E:" s then
    match drop 7 s with
    | String c r => if (negb (Ascii.eqb c "010") && String.prefix ":.-" r)%bool then Some c else None
    | "" => None
    end
  else None.
(** TERM_REGEX: the length of the match. *)
Definition match_term (s : string) : option nat :=
  match old_class s, s with
  | Some _, _ => None
  | None, String c r => if (term_letter c && Nat.ltb 0 (span term_char r))%bool then Some (S (span term_char r)) else None
  | None, "" => None
  end.

(** lexer.py 55: [\#(\\\#|[^\#])+\#], and 61: ["(\\"|[^"])*"], after the opening mark [q]: the
    length of the rest of the match. The repetition is greedy and tries [\q] first. *)
Fixpoint quoted (q : ascii) (s : string) : option nat :=
  match s with
  | "" => None
  | String c r =>
    if Ascii.eqb c q then Some 1
    else if Ascii.eqb c "\" then
      match r with
      | String d r' => if Ascii.eqb d q then match quoted q r' with Some n => Some (S (S n)) | None => Some 2 end
                       else option_map S (quoted q r)
      | "" => None
      end
    else option_map S (quoted q r)
  end.
Definition match_literal (s : string) : option nat :=
  match quoted "#" s with Some (S (S n)) => Some (S (S n)) | _ => None end.

(** lexer.py 58-59, after [\[>]: ROLE_REGEX (usl/constants.py 315) is the alternative of the
    strings of the address scripts, which have no blank and no chevron, in any order. *)
Definition space (c : ascii) : bool :=
  match c with " "%char | "009"%char | "010"%char | "011"%char | "012"%char | "013"%char => true | _ => false end.
Fixpoint role_words (cur s : string) : option nat :=
  match s with
  | "" => None
  | String c r =>
    if Ascii.eqb c ">" then if ins cur ADDRESS_SCRIPTS then Some 1 else None
    else if space c then if ins cur ADDRESS_SCRIPTS then option_map S (role_words "" r) else None
    else option_map S (role_words (cur ++ String c "") r)
  end.
Definition match_role (s : string) : nat :=
  if String.prefix "role>" s then match role_words "" (drop 5 s) with Some n => 5 + n | None => 0 end else 0.
Definition match_position (s : string) : nat := if (String.prefix "flexion>" s || String.prefix "content>" s)%bool then 8 else 0.
Definition match_group (s : string) : nat :=
  if String.prefix "constant>" s then 9
  else if String.prefix "group_" s then
    match drop 6 s with String d (String c _) => if (digit d && Ascii.eqb c ">")%bool then 8 else 0 | _ => 0 end
  else 0.
Definition match_end (s : string) : nat :=
  match match_term (drop (match_group s) s) with
  | Some n => match_group s + n
  | None => match match_term s with Some n => n | None => 0 end
  end.
Definition match_path (s : string) : nat :=
  let a := match_role s in
  let b := match_position (drop a s) in
  a + b + match_end (drop (a + b) s).

(** [int(text)] of a text of digits *)
Fixpoint int_of (acc : nat) (s : string) : nat :=
  match s with String c r => int_of (10 * acc + (nat_of_ascii c - 48)) r | "" => acc end.

(** lexer.py 39-70: the token at the beginning of a text and its length; the alternatives
    are tried by decreasing length of their regular expressions. [br]: the text follows an
    opening bracket. *)
Definition token_at (br : bool) (s : string) : option (utoken * nat) :=
  match s with
  | "" => None
  | String c r =>
    if (br && Ascii.eqb c ">")%bool then Some (UPath (take (S (match_path r)) s), S (match_path r))
    else
      match match_term s with
      | Some n => Some (UMorpheme (take n s), n)
      | None =>
        match old_class s with
        | Some d => if (Ascii.eqb d "S" || Ascii.eqb d "B" || Ascii.eqb d "T")%bool then Some (UOld, 11) else None
        | None =>
          match c with
          | "#"%char => option_map (fun n => (ULiteral, S n)) (match_literal r)
          | """"%char => option_map (fun n => (UValue (take (S n) s), S n)) (quoted """" r)
          | "m"%char => match span digit r with 0 => None | n => Some (UGroup (int_of 0 (take n r)), S n) end
          | "("%char => Some (ULpar, 1)
          | ")"%char => Some (URpar, 1)
          | ">"%char => Some (UChevron, 1)
          | "["%char => Some (ULbr, 1)
          | "]"%char => Some (URbr, 1)
          | "!"%char => Some (UBang, 1)
          | _ => None
          end
        end
      end
  end.
(** lexer.py 63, 66-68: the characters skipped silently; the illegal ones are logged and skipped. *)
Definition ignored (c : ascii) : bool :=
  match c with "{"%char | "}"%char | " "%char | "009"%char | "010"%char => true | _ => false end.
(** [skip]: characters of the last token still to be passed. *)
Fixpoint ulex (skip : nat) (br : bool) (s : string) : list utoken :=
  match s with
  | "" => []
  | String c r =>
    let br' := Ascii.eqb c "[" in
    match skip with
    | S k => ulex k br' r
    | 0 =>
      if ignored c then ulex 0 br' r
      else match token_at br s with
           | Some (t, n) => t :: ulex (n - 1) br' r
           | None => ulex 0 br' r
           end
    end
  end.

(** Syntax trees. *)
Record raw_pm := { raw_constant : list string; raw_groups : list (list string * nat) }.
(** The contents of the parentheses; [None] for an empty pair. *)
Definition raw_lexeme := list (option raw_pm).
Definition raw_entry := (bool * (list string * raw_lexeme))%type.

(** parser.py 91-98 *)
Fixpoint p_morphemes (w : list utoken) : list string * list utoken :=
  match w with
  | UMorpheme s :: r => let (ms, r') := p_morphemes r in (s :: ms, r')
  | _ => ([], w)
  end.
(** 100-110; [n]: more than the number of tokens *)
Fixpoint p_groups (n : nat) (w : list utoken) : option (list (list string * nat) * list utoken) :=
  match n, w with
  | S n, UGroup k :: ULpar :: r =>
    match p_morphemes r with
    | ((_ :: _) as ms, URpar :: r') =>
      match p_groups n r' with Some (gs, r'') => Some ((ms, k) :: gs, r'') | None => None end
    | _ => None
    end
  | _, UGroup _ :: _ => None
  | _, _ => Some ([], w)
  end.
(** 112-121 *)
Definition p_pm (w : list utoken) : option (raw_pm * list utoken) :=
  let (ms, r) := p_morphemes w in
  match p_groups (List.length w) r with
  | Some (gs, r') =>
    match ms, gs with
    | [], [] => None
    | _, _ => Some ({| raw_constant := ms; raw_groups := gs |}, r')
    end
  | None => None
  end.
(** 124-131: pairs of parentheses, of which seven combinations are lexemes *)
Definition p_paren (w : list utoken) : option (option raw_pm * list utoken) :=
  match w with
  | ULpar :: URpar :: r => Some (None, r)
  | ULpar :: r => match p_pm r with Some (p, URpar :: r') => Some (Some p, r') | _ => None end
  | _ => None
  end.
Fixpoint p_parens (n : nat) (w : list utoken) : option (raw_lexeme * list utoken) :=
  match n, w with
  | S n, ULpar :: _ =>
    match p_paren w with
    | Some (p, r) => match p_parens n r with Some (ps, r') => Some (p :: ps, r') | None => None end
    | None => None
    end
  | 0, ULpar :: _ => None
  | _, _ => Some ([], w)
  end.
Definition is_lexeme (ps : raw_lexeme) : bool :=
  match ps with
  | [Some _; Some _; Some _] | [None; Some _; Some _] | [None; None; Some _]
  | [Some _; Some _] | [None; Some _] | [Some _] | [None] => true
  | _ => false
  end.
Definition p_lexeme (w : list utoken) : option (raw_lexeme * list utoken) :=
  match p_parens (List.length w) w with
  | Some (ps, r) => if is_lexeme ps then Some (ps, r) else None
  | None => None
  end.
(** 149-155, with the mark of 157-173 *)
Definition p_entry (w : list utoken) : option (raw_entry * list utoken) :=
  let (b, w) := match w with UBang :: r => (true, r) | _ => (false, w) end in
  let (ms, r) := p_morphemes w in
  match p_lexeme r with Some (l, r') => Some ((b, (ms, l)), r') | None => None end.
(** 157-173 *)
Fixpoint p_entries (n : nat) (w : list utoken) : option (list raw_entry * list utoken) :=
  match n with
  | 0 => None
  | S n =>
    match p_entry w with
    | Some (e, UChevron :: r) => match p_entries n r with Some (es, r') => Some (e :: es, r') | None => None end
    | Some (e, r) => Some ([e], r)
    | None => None
    end
  end.
(** 175-177 *)
Definition p_word (w : list utoken) : option (list raw_entry * list utoken) :=
  match w with
  | ULbr :: r =>
    let r := match r with UOld :: r' => r' | _ => r end in
    match p_entries (List.length r) r with Some (es, URbr :: r') => Some (es, r') | _ => None end
  | _ => None
  end.
(** 199-212 *)
Fixpoint p_decorations (w : list utoken) : option (list (string * string)) :=
  match w with
  | [] => Some []
  | ULbr :: UPath p :: UValue v :: URbr :: r =>
    match p_decorations r with Some l => Some ((p, v) :: l) | None => None end
  | _ => None
  end.

(** 62-80: a lone morpheme is itself; every USL may be followed by decorations. *)
Inductive raw := RMorpheme (s : string) | RPm (p : raw_pm) | RLexeme (l : raw_lexeme) | RWord (es : list raw_entry).
Definition p_usl (w : list utoken) : option (raw * list utoken) :=
  match w with
  | [UMorpheme s] => Some (RMorpheme s, [])
  | ULbr :: _ => option_map (fun p => (RWord (fst p), snd p)) (p_word w)
  | ULpar :: _ => option_map (fun p => (RLexeme (fst p), snd p)) (p_lexeme w)
  | _ => option_map (fun p => (RPm (fst p), snd p)) (p_pm w)
  end.
Definition p_proposition (w : list utoken) : option (raw * list (string * string)) :=
  match p_usl w with
  | Some (u, r) => match p_decorations r with Some ds => Some (u, ds) | None => None end
  | None => None
  end.

(** The results: scripts, USLs, USLs with decorations (the text of the path and the value,
    see Instance.v). *)
Inductive usl := UScript (s : script) | UPm (p : pm) | ULexeme (l : lexeme) | UWord (w : word).
Definition usl_str (u : usl) : string :=
  match u with UScript s => str s | UPm p => pm_str p | ULexeme l => lexeme_str l | UWord w => w_str w end.

Section Eval.
  Variable so : list script -> list script.
  (** 81-98 *)
  Definition e_morphemes (ms : list string) : res (list script) := mapM (parse so) ms.
  (** 100-121 *)
  Definition e_pm (p : raw_pm) : res pm :=
    do cs <- e_morphemes (raw_constant p);
    do gs <- mapM (fun g => do ms <- e_morphemes (fst g); Ok (ms, snd g)) (raw_groups p);
    Ok (mk_pm cs gs).
  Definition e_opt (p : option raw_pm) : res pm := match p with Some p => e_pm p | None => Ok (mk_pm [] []) end.
  (** 133-147 *)
  Definition e_lexeme (ps : raw_lexeme) : res lexeme :=
    do l <- mapM e_opt ps;
    match ps, l with
    | [Some _; _; _], [a; b; c] =>
      Ok {| pm_flexion := mk_pm (constant a ++ constant c) (groups a ++ groups c); pm_content := b |}
    | _, [_; b; c] => Ok {| pm_flexion := c; pm_content := b |}
    | _, [a; b] => Ok {| pm_flexion := a; pm_content := b |}
    | _, [a] => Ok {| pm_flexion := a; pm_content := mk_pm [] [] |}
    | _, _ => Err CannotParse
    end.
  Definition e_entry (e : raw_entry) : res (bool * (role * lexeme)) :=
    do ms <- e_morphemes (fst (snd e));
    do l <- e_lexeme (snd (snd e));
    Ok (fst e, (map str ms, l)).
  (** 157-173: the role of the last mark *)
  Definition last_mark (es : list (bool * (role * lexeme))) : role :=
    fold_left (fun (acc : role) (e : bool * (role * lexeme)) => if fst e then fst (snd e) else acc) es [].
  (** 175-194 *)
  Definition e_word (es : list raw_entry) : res word :=
    do es <- mapM e_entry es;
    word_of (map (fun e => (fst (snd e), Some (snd (snd e)))) es) (last_mark es).
  Definition e_usl (u : raw) : res usl :=
    match u with
    | RMorpheme s => do x <- parse so s; Ok (UScript x)
    | RPm p => do x <- e_pm p; Ok (UPm x)
    | RLexeme l => do x <- e_lexeme l; Ok (ULexeme x)
    | RWord es => do x <- e_word es; Ok (UWord x)
    end.
  (** 42-58, before the decorations are applied *)
  Definition usl_parse (s : string) : res (usl * list (string * string)) :=
    if String.eqb s "" then Ok (UScript (Null 0), [])
    else
      match p_proposition (ulex 0 false s) with
      | None => Err CannotParse
      | Some (u, ds) =>
        match e_usl u with
        | Ok x => Ok (x, ds)
        | Err ValueError => Err CannotParse
        | Err e => Err e
        end
      end.
End Eval.
