(** Properties of the parser of USLs: C23, C57, C58. *)
From Coq Require Import List String Ascii Bool NArith Arith Lia Permutation.
From Verif Require Import Base Script ScriptParser SortProofs ScriptWf ScriptSpec ScriptStrProofs ScriptErrProofs Commons Usl UslSpec OrderTheory UslProofs Properties1 Properties8
  Sfun SfunProofs SfunListProofs SfunWordProofs SfunSpec Properties9 UslParser UslParserProofs UslRoundProofs UslGrammar UslGrammarProofs.
Import ListNotations.
Local Open Scope string_scope.

(** * C23 *)
Lemma prefix_split p : forall s, String.prefix p s = true -> s = p ++ drop (String.length p) s.
Proof.
  induction p as [|a p IH]; intros [|b s] H; try discriminate; try reflexivity. cbn in H. destruct (ascii_dec a b) as [->|]; [|discriminate]. cbn. f_equal. now apply IH.
Qed.
Lemma old_class_mark t c : old_class t = Some c -> class_mark t.
Proof.
  unfold old_class. destruct (String.prefix "E:.b.E:" t) eqn:E; [|discriminate]. apply prefix_split in E. change (String.length "E:.b.E:") with 7 in E.
  destruct (drop 7 t) as [|d r]; [discriminate|]. destruct (String.prefix ":.-" r) eqn:E'; [|rewrite andb_false_r; discriminate]. apply prefix_split in E'. intros _. rewrite E' in E. eexists _, _. exact E.
Qed.
Lemma plain_clean p : built p -> plain p -> clean p.
Proof.
  intros B [P1 P2]. split; [|split; [now apply built_ok|split]].
  - destruct B as (cs & gs & H1 & H2 & ->). exists cs, gs. split; [now apply regular_all|]. split; [now apply good_groups_ok|auto].
  - apply Forall_forall. intros s Hs. destruct (old_class (str s)) eqn:E; auto. apply old_class_mark in E. exfalso. apply (P1 s); auto. apply in_app_iff in Hs. destruct Hs as [Hs|Hs].
    + left. apply filter_In in Hs. tauto.
    + right. apply in_flat_map in Hs. exact Hs.
  - apply Forall_forall. auto.
Qed.
Lemma plain_clean_lexeme l : built_lexeme l -> plain_lexeme l -> clean_lexeme l.
Proof. intros [B1 B2] [P1 P2]. split; now apply plain_clean. Qed.

(** Missing: the polymorphemes without morpheme, those with a group without morpheme, those
    with a morpheme that begins by a class mark; and the text of a polymorpheme of one
    morpheme is read as this morpheme. See below. *)
Theorem C23_polymorpheme_partial : forall so p, set_order so -> built p -> plain p -> pm_str p <> "" ->
  exists u, usl_parse so (pm_str p) = Ok (u, []) /\ usl_str u = pm_str p /\
    (several p -> exists p', u = UPm p' /\ pm_eqb p' p = true /\ map str (constant p') = map str (constant p) /\
       map (fun g => (map str (fst g), snd g)) (groups p') = map (fun g => (map str (fst g), snd g)) (groups p)).
Proof.
  intros so p SO B P N. pose proof (plain_clean p B P) as C. assert (E : pm_empty p = false). { destruct (pm_empty p) eqn:E; auto. elim N. apply pm_empty_str; [now apply built_ok|auto]. }
  destruct (parse_pm so SO p C E) as (u & H1 & H2 & H3). exists u. split; auto. split; auto. intros V. destruct H3 as [[[G (s & Es)] _]|(_ & p' & -> & Pp & K)].
  - exfalso. destruct V as [V|V]; [auto|]. destruct (built_ok p B) as [_ [X|[_ X]]]; [rewrite X in V; cbn in V; lia|]. unfold printed, filter_empty in Es.
    assert (Y : filter (fun m => negb (is_empty m)) (constant p) = constant p).
    { clear -X. induction X as [|m l Hm X IH]; [reflexivity|]. cbn. rewrite Hm. cbn. now f_equal. }
    rewrite Y in Es. rewrite Es in V. cbn in V. lia.
  - exists p'. split; auto. unfold pkey in K. injection K as K1 K2. split; [|split; [exact K1|exact K2]]. unfold pm_eqb. apply String.eqb_eq. exact H2.
Qed.
Print Assumptions C23_polymorpheme_partial.

(** Missing: the same polymorphemes in a lexeme, except the empty ones, that are read back. *)
Theorem C23_lexeme_partial : forall so l, set_order so -> built_lexeme l -> plain_lexeme l ->
  exists l', usl_parse so (lexeme_str l) = Ok (ULexeme l', []) /\ lexeme_eqb l' l = true /\
    pm_str (pm_flexion l') = pm_str (pm_flexion l) /\ pm_str (pm_content l') = pm_str (pm_content l).
Proof.
  intros so l SO B P. destruct (parse_lexeme so SO l (plain_clean_lexeme l B P)) as (l' & H1 & H2 & H3). exists l'. split; auto. split; [now apply String.eqb_eq|].
  apply built_lexeme_ok in B. apply (proj1 (lexeme_str_key l' l H2 B)) in H3. exact H3.
Qed.
Print Assumptions C23_lexeme_partial.

(** Missing: the words with a lexeme as above or without lexeme at an address, and those whose
    focus is not the address of a lexeme but of a junction. *)
Theorem C23_word_partial : forall so (l : addressed) r w, set_order so -> word_of l r = Ok w ->
  (forall e, In e (as_list (w_context w) (w_fun w)) -> exists x, snd e = Some x /\ built_lexeme x /\ plain_lexeme x) ->
  In r (map fst (as_list (w_context w) (w_fun w))) ->
  exists w', usl_parse so (w_str w) = Ok (UWord w', []) /\ w_str w' = w_str w /\ w_role w' = r /\ w_role w = r /\ w_context w' = w_context w /\ w_class w' = w_class w /\
    Permutation (map (fun e => (fst e, option_map lexeme_str (snd e))) (as_list (w_context w) (w_fun w'))) (map (fun e => (fst e, option_map lexeme_str (snd e))) (as_list (w_context w) (w_fun w))).
Proof.
  intros so l r w SO Hw Hl Hr. apply word_of_inv in Hw. destruct Hw as (c & f & Hf & Hw). destruct (mk_word_fields _ _ _ _ Hw) as (E1 & E2 & E3). apply from_list_inv in Hf. destruct Hf as [V _].
  rewrite E1, E3 in *. destruct (parse_word so SO f r c w V Hw) as (w' & H1 & H2 & H3 & H4 & H5 & H6); auto.
  { apply Forall_forall. intros e He. destruct (Hl e He) as (x & Ex & B & P). exists x. split; auto. now apply plain_clean_lexeme. }
  exists w'. rewrite H3, H4, E2, E3. split; auto. split; auto. split; auto. split; auto. split; auto. split; auto.
  assert (S : forall e, In e (as_list c (w_fun w')) -> snd e <> None).
  { intros e He Ne. apply (in_map kstr) in He. apply (Permutation_in _ H6) in He. apply in_map_iff in He. destruct He as (e' & Ee & He'). destruct (Hl e' He') as (x & Ex & _).
    unfold kstr in Ee. rewrite Ex, Ne in Ee. cbn in Ee. pose proof (f_equal snd Ee) as Z. cbn in Z. pose proof (f_equal (fun s => String.get 0 s) Z) as Z'. rewrite lexeme_str_alt in Z'. unfold paren in Z'. destruct (pm_empty _); [destruct (pm_empty _)|]; discriminate Z'. }
  set (k := fun e : role * string => (fst e, Some (snd e))).
  assert (K : forall m : addressed, (forall e, In e m -> snd e <> None) -> map (fun e => (fst e, option_map lexeme_str (snd e))) m = map k (map kstr m)).
  { intros m Hm. rewrite map_map. apply map_ext_in. intros [q [x|]] He; [reflexivity|]. elim (Hm _ He). reflexivity. }
  rewrite (K _ S), K; [now apply Permutation_map|]. intros e He. destruct (Hl e He) as (x & -> & _). discriminate.
Qed.
Print Assumptions C23_word_partial.

Lemma plain_by p : (forallb (fun s => negb (String.prefix "E:.b.E:" (str s))) (constant p ++ flat_map fst (groups p)) && forallb (fun g => negb (Nat.eqb (List.length (fst g)) 0)) (groups p))%bool = true -> plain p.
Proof.
  intros H. apply andb_true_iff in H. destruct H as [H1 H2]. rewrite forallb_forall in H1, H2. split.
  - intros s Hs (c & r & E). assert (I : In s (constant p ++ flat_map fst (groups p))) by (apply in_app_iff; destruct Hs as [?|?]; [auto|right; now apply in_flat_map]).
    specialize (H1 s I). rewrite E in H1. cbn in H1. destruct r; discriminate.
  - intros g Hg E. specialize (H2 g Hg). rewrite E in H2. discriminate.
Qed.
Lemma built_X x : In x [X1; X2; X3] -> built_lexeme x /\ plain_lexeme x.
Proof.
  assert (S : forall s, regular s -> built (mk_pm [s] [])) by (intros s Hs; exists [s], []; split; [good|split; [constructor|reflexivity]]).
  intros [<-|[<-|[<-|[]]]]; (split; [|split; apply plain_by; vm_compute; reflexivity]); (split; [apply S; auto|]); [apply S; auto..|apply P22_built].
Qed.
Definition P23 := mk_pm [A_; D_; B_] [([C_; A_], 2); ([B_], 1)].
Definition W23 : addressed := [([INITIATOR], Some X3); (["E:T:."], Some X1); ([INITIATOR; DEPENDANT_QUALITY], Some X2)].
Definition U23 : word := {| w_fun := Proc (Some X1) "E:T:." [(INITIATOR, Dep (Some X3) (Some (Dep (Some X2) None None)) None)]; w_role := [INITIATOR]; w_context := CProcess;
  w_str := "[E:T:. (wa.)(b.) > ! E:.n.- (wa.)(wa. m1(e. a.) m1(i. b.)) > E:.n.- E:A:. (wa.)(i.)]"; w_class := ActantWord |}.
Example C23_case : built P23 /\ plain P23 /\ several P23 /\ pm_str P23 = "wa. a. b. m2(wa. i.) m1(b.)" /\
  (built_lexeme X3 /\ plain_lexeme X3 /\ lexeme_str X3 = "(wa.)(wa. m1(e. a.) m1(i. b.))") /\
  word_of W23 [INITIATOR] = Ok U23 /\ (forall e, In e (as_list (w_context U23) (w_fun U23)) -> exists x, snd e = Some x /\ built_lexeme x /\ plain_lexeme x) /\
  In [INITIATOR] (map fst (as_list (w_context U23) (w_fun U23))) /\
  usl_parse ident "[E:.n.- E:A:. (wa.)(i.) > E:T:.   (wa.)(b.)>!E:.n.- (wa.)(wa. m1(e. a.)m1(i. b.))]" = Ok (UWord U23, []).
Proof.
  split. { eexists _, _. split; [|split; [|reflexivity]]; unfold good_groups; good; cbn; good. }
  split; [apply plain_by; vm_compute; reflexivity|]. split; [left; discriminate|]. split; [vm_compute; reflexivity|].
  split. { split; [apply built_X; cbn; auto|]. split; [apply built_X; cbn; auto|vm_compute; reflexivity]. }
  split; [vm_compute; reflexivity|]. split; [|split; [right; left; reflexivity|vm_compute; reflexivity]].
  intros e [<-|[<-|[<-|[]]]]; eexists; (split; [reflexivity|]); apply built_X; cbn; auto.
Qed.

(** A polymorpheme without morpheme is read as the script E:, and one of a single morpheme as
    this morpheme: not a USL. *)
Theorem C23_script_refuted :
  (built (mk_pm [] []) /\ usl_parse ident (pm_str (mk_pm [] [])) = Ok (UScript (Null 0), []) /\ str (Null 0) <> pm_str (mk_pm [] [])) /\
  (built (mk_pm [A_] []) /\ usl_parse ident (pm_str (mk_pm [A_] [])) = Ok (UScript A_, [])).
Proof.
  split; (split; [eexists _, _; split; [|split; [|reflexivity]]; unfold good_groups; good|]); [split; [reflexivity|discriminate]|vm_compute; reflexivity].
Qed.
Print Assumptions C23_script_refuted.
(** The text of a valid polymorpheme that is refused, and another that is read as another
    polymorpheme: the lexer takes their morphemes for marks of a class. *)
Definition M23 := text "E:.b.E:S:.-". Definition N23 := text "E:.b.E:U:.-".
Theorem C23_class_mark_refuted :
  (built (mk_pm [M23; D_] []) /\ check_pm (mk_pm [M23; D_] []) = Ok tt /\ usl_parse ident (pm_str (mk_pm [M23; D_] [])) = Err CannotParse) /\
  (built (mk_pm [N23; D_] []) /\ check_pm (mk_pm [N23; D_] []) = Ok tt /\ pm_str (mk_pm [N23; D_] []) = "a. E:.b.E:U:.-" /\
   exists p, usl_parse ident (pm_str (mk_pm [N23; D_] [])) = Ok (UPm p, []) /\ pm_str p = "a. b.E:U:.-").
Proof.
  assert (R : regular M23 /\ regular N23) by (split; text_reg). destruct R.
  split; (split; [eexists _, _; split; [|split; [|reflexivity]]; unfold good_groups; good|]).
  - split; vm_compute; reflexivity.
  - split; [vm_compute; reflexivity|]. split; [vm_compute; reflexivity|]. eexists. split; vm_compute; reflexivity.
Qed.
Print Assumptions C23_class_mark_refuted.
(** A group without morpheme is printed and is not read. *)
Theorem C23_empty_group_refuted : exists p, built p /\ pm_str p = "a. m1()" /\ usl_parse ident (pm_str p) = Err CannotParse.
Proof.
  exists (mk_pm [D_] [([E_], 1)]). split; [eexists _, _; split; [|split; [|reflexivity]]; unfold good_groups; good; cbn; good|]. split; vm_compute; reflexivity.
Qed.
Print Assumptions C23_empty_group_refuted.
(** A word that the parser gives and whose text it refuses, as the lexeme of one address is missing. *)
Theorem C23_missing_lexeme_refuted : exists w, usl_parse ident "[! E:A:. E:U:. (a.)]" = Ok (UWord w, []) /\
  w_str w = "[E:A:.  None > ! E:A:. E:U:. (a.)]" /\ usl_parse ident (w_str w) = Err CannotParse.
Proof. eexists. split; [vm_compute; reflexivity|]. split; vm_compute; reflexivity. Qed.
Print Assumptions C23_missing_lexeme_refuted.
(** A word whose focus is a junction is printed with one mark per term; the last one wins. *)
Theorem C23_junction_focus_refuted : exists w w', word_of W27 [INTERACTANT] = Ok w /\
  usl_parse ident (w_str w) = Ok (UWord w', []) /\ w_str w' <> w_str w /\ w_role w' = [INTERACTANT; AND_; I1] /\ w_role w = [INTERACTANT].
Proof.
  eexists _, _. split; [vm_compute; reflexivity|]. split; [vm_compute; reflexivity|]. split; [vm_compute; discriminate|]. split; vm_compute; reflexivity.
Qed.
Print Assumptions C23_junction_focus_refuted.

(** * C57 *)
(** All the errors of the parser, with their causes. *)
Theorem C57_errors : forall so t, set_order so ->
  match usl_parse so t with
  | Ok _ | Err CannotParse => True
  | Err TooManySingularSequences => exists s, In (UMorpheme s) (ulex 0 false t) /\ parse so s = Err TooManySingularSequences
  | Err IndexError | Err UnboundLocalError => exists r, ulex 0 false t = ULbr :: r
  | Err _ => False
  end.
Proof.
  intros so t SO. unfold usl_parse. destruct (String.eqb t ""); [exact Logic.I|]. destruct (p_proposition _) as [[u ds]|] eqn:P; [|exact Logic.I]. apply p_proposition_iff in P.
  destruct (e_usl so u) as [x|e] eqn:E; [exact Logic.I|]. destruct (e_usl_err so _ _ _ _ P E) as [(s & Hs & Es)|(es & xs & r & -> & Ew)].
  - pose proof (C13_errors so s SO) as X. rewrite Es in X. destruct X as [[-> _]|[-> _]]; [exact Logic.I|]. exists s. split; auto. eapply texts_tokens; eauto.
  - apply C29_word_errors in Ew. apply word_tokens in P. destruct Ew as [->|[->| ->]]; auto.
Qed.
Print Assumptions C57_errors.

(** Missing: the texts of words and those with a morpheme of too many singular sequences. *)
Theorem C57_cannot_parse_partial : forall so t, set_order so ->
  (forall r, ulex 0 false t <> ULbr :: r) ->
  (forall s, In (UMorpheme s) (ulex 0 false t) -> parse so s <> Err TooManySingularSequences) ->
  match usl_parse so t with Ok _ => True | Err e => e = CannotParse end.
Proof.
  intros so t SO N M. pose proof (C57_errors so t SO) as X. destruct (usl_parse so t) as [x|e]; [auto|].
  destruct e; auto; try contradiction; [destruct X as (s & Hs & Es); elim (M s Hs Es)|destruct X as (r & Hr); elim (N r Hr)..].
Qed.
Print Assumptions C57_cannot_parse_partial.
Example C57_case : (forall r, ulex 0 false "a. m1(wa. b.)(" <> ULbr :: r) /\ usl_parse ident "a. m1(wa. b.)(" = Err CannotParse /\
  (forall s, In (UMorpheme s) (ulex 0 false "a. m1(wa. b.)(") -> parse ident s <> Err TooManySingularSequences).
Proof.
  split; [vm_compute; discriminate|]. split; [vm_compute; reflexivity|]. intros s H. vm_compute in H.
  repeat match type of H with _ \/ _ => destruct H as [H|H] end; try discriminate H; try (injection H as <-; vm_compute; discriminate). destruct H.
Qed.
(** Texts for which the parser raises another error. *)
Theorem C57_cannot_parse_refuted :
  usl_parse ident "a. F:F:F:.F:F:F:.-" = Err TooManySingularSequences /\
  usl_parse ident "[! E:A:. (b.) > (a.)]" = Err IndexError /\
  usl_parse ident "[! E:A:. E:U:. j.-U:.-'d.o.-l.o.-', (b.) > E:A:. E:.-u.-k.u.-' j.-A:.-'d.o.-l.o.-', (a.)]" = Err UnboundLocalError.
Proof. split; [|split]; vm_compute; reflexivity. Qed.
Print Assumptions C57_cannot_parse_refuted.

(** * C58 *)
(** The parser accepts the texts that derive from the grammar and whose structure denotes a
    USL, and gives this USL. The empty text is the script E:. *)
Theorem C58_parser_follows_the_grammar : forall so t u ds, t <> "" ->
  (usl_parse so t = Ok (u, ds) <-> exists r, d_proposition (ulex 0 false t) r ds /\ means so r u).
Proof. intros. now apply usl_parse_iff. Qed.
Print Assumptions C58_parser_follows_the_grammar.
(** A text has at most one structure. *)
Theorem C58_one_structure : forall w r r' ds ds', d_proposition w r ds -> d_proposition w r' ds' -> r = r' /\ ds = ds'.
Proof. intros w r r' ds ds' H H'. apply p_proposition_iff in H, H'. rewrite H in H'. injection H'. auto. Qed.
Print Assumptions C58_one_structure.
(** Outside of words, every structure whose morphemes can be read denotes a USL. *)
Theorem C58_no_other_condition : forall so w r ds, d_proposition w r ds -> (forall es, r <> RWord es) ->
  (forall s, In s (texts r) -> exists m, parse so s = Ok m) -> exists u, means so r u.
Proof.
  intros so w r ds D N H. destruct (e_usl so r) as [u|e] eqn:E; [exists u; eapply d_proposition_iff; eauto|].
  destruct (e_usl_err so _ _ _ _ D E) as [(s & Hs & Es)|(es & xs & r' & -> & _)]; [destruct (H s Hs) as (m & Em); congruence|elim (N es eq_refl)].
Qed.
Print Assumptions C58_no_other_condition.
Example C58_case : exists r, d_proposition (ulex 0 false "(a. m1(wa. b.))(i.)[>content>i. ""x""]") r [(">content>i.", """x""")] /\
  r = RLexeme [Some {| raw_constant := ["a."]; raw_groups := [(["wa."; "b."], 1)] |}; Some {| raw_constant := ["i."]; raw_groups := [] |}] /\
  (forall es, r <> RWord es) /\ (forall s, In s (texts r) -> exists m, parse ident s = Ok m) /\
  exists w, means ident (RWord [(true, (["E:A:."], [Some {| raw_constant := ["a."]; raw_groups := [] |}]))]) (UWord w).
Proof.
  eexists. split; [apply p_proposition_iff; vm_compute; reflexivity|]. split; [reflexivity|]. split; [discriminate|]. split.
  - intros s [<-|[<-|[<-|[<-|[]]]]]; eexists; vm_compute; reflexivity.
  - eexists. eapply (proj1 (d_proposition_iff ident [ULbr; UBang; UMorpheme "E:A:."; ULpar; UMorpheme "a."; URpar; URbr] _ [] _ _)). vm_compute. reflexivity.
    Unshelve. apply p_proposition_iff. reflexivity.
Qed.
