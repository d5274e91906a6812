(** Specification used by Properties10: the grammar of USLs as written in the docstrings of
    ieml/usl/parser/parser.py, as relations between lists of tokens and structures. *)
From Coq Require Import List String Ascii Bool.
From Verif Require Import Base Script ScriptParser Usl Sfun UslParser.
Import ListNotations.
Local Open Scope string_scope.

(** 92-93 *)
Inductive d_sum : list utoken -> list string -> Prop :=
| sum_more w ms s : d_sum w ms -> d_sum (w ++ [UMorpheme s]) (ms ++ [s])
| sum_one s : d_sum [UMorpheme s] [s].
(** 101 *)
Inductive d_group : list utoken -> list string * nat -> Prop :=
| group_ n w ms : d_sum w ms -> d_group (UGroup n :: ULpar :: w ++ [URpar]) (ms, n).
(** 105-106 *)
Inductive d_groups : list utoken -> list (list string * nat) -> Prop :=
| groups_more w g v gs : d_group w g -> d_groups v gs -> d_groups (w ++ v) (g :: gs)
| groups_one w g : d_group w g -> d_groups w [g].
(** 113-115 *)
Inductive d_pm : list utoken -> raw_pm -> Prop :=
| pm_both w ms v gs : d_sum w ms -> d_groups v gs -> d_pm (w ++ v) {| raw_constant := ms; raw_groups := gs |}
| pm_sum w ms : d_sum w ms -> d_pm w {| raw_constant := ms; raw_groups := [] |}
| pm_groups w gs : d_groups w gs -> d_pm w {| raw_constant := []; raw_groups := gs |}.
(** 125-131 *)
Definition par (w : list utoken) : list utoken := (ULpar :: w ++ [URpar])%list.
Inductive d_lexeme : list utoken -> raw_lexeme -> Prop :=
| lex_3 a p b q c r : d_pm a p -> d_pm b q -> d_pm c r -> d_lexeme (par a ++ par b ++ par c) [Some p; Some q; Some r]
| lex_e2 b q c r : d_pm b q -> d_pm c r -> d_lexeme (par [] ++ par b ++ par c) [None; Some q; Some r]
| lex_ee1 c r : d_pm c r -> d_lexeme (par [] ++ par [] ++ par c) [None; None; Some r]
| lex_2 a p b q : d_pm a p -> d_pm b q -> d_lexeme (par a ++ par b) [Some p; Some q]
| lex_e1 b q : d_pm b q -> d_lexeme (par [] ++ par b) [None; Some q]
| lex_1 a p : d_pm a p -> d_lexeme (par a) [Some p]
| lex_e : d_lexeme (par []) [None].
(** 150-151 *)
Inductive d_positioned : list utoken -> list string * raw_lexeme -> Prop :=
| pos_sum w ms v l : d_sum w ms -> d_lexeme v l -> d_positioned (w ++ v) (ms, l)
| pos_none v l : d_lexeme v l -> d_positioned v ([], l).
(** 158-161 *)
Inductive d_list : list utoken -> list raw_entry -> Prop :=
| list_bang w es v e : d_list w es -> d_positioned v e -> d_list (w ++ UChevron :: UBang :: v) (es ++ [(true, e)])
| list_more w es v e : d_list w es -> d_positioned v e -> d_list (w ++ UChevron :: v) (es ++ [(false, e)])
| list_one_bang v e : d_positioned v e -> d_list (UBang :: v) [(true, e)]
| list_one v e : d_positioned v e -> d_list v [(false, e)].
(** 176-177 *)
Inductive d_word : list utoken -> list raw_entry -> Prop :=
| word_old w es : d_list w es -> d_word (ULbr :: UOld :: w ++ [URbr]) es
| word_ w es : d_list w es -> d_word (ULbr :: w ++ [URbr]) es.
(** 70-72 *)
Inductive d_usl : list utoken -> raw -> Prop :=
| usl_pm w p : d_pm w p -> d_usl w (RPm p)
| usl_lexeme w l : d_lexeme w l -> d_usl w (RLexeme l)
| usl_word w es : d_word w es -> d_usl w (RWord es).
(** 200-201, 210 *)
Inductive d_decorations : list utoken -> list (string * string) -> Prop :=
| deco_more w ds p v : d_decorations w ds -> d_decorations (w ++ [ULbr; UPath p; UValue v; URbr]) (ds ++ [(p, v)])
| deco_one p v : d_decorations [ULbr; UPath p; UValue v; URbr] [(p, v)].
(** 63-65, 77. The text of one morpheme is also the text of a polymorpheme: PLY takes the
    first rule. *)
Inductive d_proposition : list utoken -> raw -> list (string * string) -> Prop :=
| prop_morpheme s : d_proposition [UMorpheme s] (RMorpheme s) []
| prop_usl w u : d_usl w u -> (forall s, w <> [UMorpheme s]) -> d_proposition w u []
| prop_instanced w u v ds : d_usl w u -> d_decorations v ds -> d_proposition (w ++ v) u ds.

(** Morphemes whose text begins as [E:.b.E:?:.-], that the lexer does not take for a morpheme. *)
Definition class_mark (t : string) : Prop := exists c r, t = "E:.b.E:" ++ String c (":.-" ++ r).
(** What the parser can read back: no such morpheme and no group without morpheme. *)
Definition plain (p : pm) : Prop :=
  (forall s, In s (constant p) \/ (exists g, In g (groups p) /\ In s (fst g)) -> ~ class_mark (str s)) /\
  (forall g, In g (groups p) -> fst g <> []).
Definition plain_lexeme (l : lexeme) : Prop := plain (pm_flexion l) /\ plain (pm_content l).
(** More than one morpheme. *)
Definition several (p : pm) : Prop := groups p <> [] \/ 2 <= List.length (constant p).

(** What the structures denote (lines 81-194). *)
Section Meaning.
  Variable so : list script -> list script.
  Definition reads (t : string) (s : script) : Prop := parse so t = Ok s.
  Definition means_pm (p : raw_pm) (q : pm) : Prop :=
    exists cs gs, Forall2 reads (raw_constant p) cs /\
      Forall2 (fun g h => Forall2 reads (fst g) (fst h) /\ snd h = snd g) (raw_groups p) gs /\ q = mk_pm cs gs.
  Definition no_pm : pm := mk_pm [] [].
  Inductive means_lexeme : raw_lexeme -> lexeme -> Prop :=
  | ml_3 p q r a b c : means_pm p a -> means_pm q b -> means_pm r c ->
      means_lexeme [Some p; Some q; Some r] {| pm_flexion := mk_pm (constant a ++ constant c) (groups a ++ groups c); pm_content := b |}
  | ml_e2 q r b c : means_pm q b -> means_pm r c -> means_lexeme [None; Some q; Some r] {| pm_flexion := c; pm_content := b |}
  | ml_ee1 r c : means_pm r c -> means_lexeme [None; None; Some r] {| pm_flexion := c; pm_content := no_pm |}
  | ml_2 p q a b : means_pm p a -> means_pm q b -> means_lexeme [Some p; Some q] {| pm_flexion := a; pm_content := b |}
  | ml_e1 q b : means_pm q b -> means_lexeme [None; Some q] {| pm_flexion := no_pm; pm_content := b |}
  | ml_1 p a : means_pm p a -> means_lexeme [Some p] {| pm_flexion := a; pm_content := no_pm |}
  | ml_e : means_lexeme [None] {| pm_flexion := no_pm; pm_content := no_pm |}.
  Definition means_entry (e : raw_entry) (x : role * option lexeme) : Prop :=
    exists ms l, Forall2 reads (fst (snd e)) ms /\ means_lexeme (snd (snd e)) l /\ x = (map str ms, Some l).
  (** [r] is the address of the last entry marked [!]. *)
  Definition last_marked (es : list raw_entry) (xs : list (role * option lexeme)) (r : role) : Prop :=
    exists es1 e es2 xs1 x xs2, es = (es1 ++ e :: es2)%list /\ xs = (xs1 ++ x :: xs2)%list /\ List.length es1 = List.length xs1 /\
      fst e = true /\ Forall (fun e => fst e = false) es2 /\ fst x = r.
  Inductive means : raw -> usl -> Prop :=
  | me_morpheme t s : reads t s -> means (RMorpheme t) (UScript s)
  | me_pm p q : means_pm p q -> means (RPm p) (UPm q)
  | me_lexeme p l : means_lexeme p l -> means (RLexeme p) (ULexeme l)
  | me_word es xs r w : Forall2 means_entry es xs -> last_marked es xs r -> word_of xs r = Ok w -> means (RWord es) (UWord w).
End Meaning.
(** The morphemes of a structure. *)
Definition pm_texts (p : raw_pm) : list string := (raw_constant p ++ flat_map fst (raw_groups p))%list.
Definition lexeme_texts (l : raw_lexeme) : list string := flat_map (fun p => match p with Some q => pm_texts q | None => [] end) l.
Definition texts (u : raw) : list string :=
  match u with
  | RMorpheme s => [s]
  | RPm p => pm_texts p
  | RLexeme l => lexeme_texts l
  | RWord es => flat_map (fun e => (fst (snd e) ++ lexeme_texts (snd (snd e)))%list) es
  end.
