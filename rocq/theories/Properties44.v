(** C23 and C43, continued: the texts of USLs which are read back, and the database with its own
    parser. *)
From Coq Require Import List String Ascii Bool NArith Arith Lia Permutation.
From Verif Require Import Base Script ScriptParser SortProofs ParadigmsProofs ScriptOrderProofs ScriptParseProofs DictTableProofs ScriptWf ScriptSpec ScriptStrProofs ScriptErrProofs ScriptSeqProofs ScriptCtorProofs Commons Usl UslSpec OrderTheory UslProofs Properties1 Properties8
  Sfun SfunProofs SfunListProofs SfunWordProofs SfunSpec Properties9 UslParser UslParserProofs UslRoundProofs UslGrammar UslGrammarProofs Properties10
  Database DatabaseSpec DatabaseRefine DatabaseProofs DatabasePath DatabasePathProofs Properties3 RestrictProofs Properties29 DiffSpec Properties42 Migrate Properties11.
Import ListNotations.
Local Open Scope string_scope.

Lemma Ok_inj {A} (x y : A) : Ok x = Ok y -> x = y.
Proof. congruence. Qed.

(** The USLs of C23 whose text is read: any script without class mark; polymorphemes with a
    morpheme, lexemes and words made of plain polymorphemes, words with the focus on a lexeme. *)
Definition text_readable (u : usl) : Prop :=
  match u with
  | UScript s => constructible s /\ ~ class_mark (str s)
  | UPm p => built p /\ UslGrammar.plain p /\ pm_str p <> ""
  | ULexeme l => built_lexeme l /\ plain_lexeme l
  | UWord w => (exists (l : addressed) r, word_of l r = Ok w /\ In r (map fst (as_list (w_context w) (w_fun w)))) /\
      forall e, In e (as_list (w_context w) (w_fun w)) -> exists x, snd e = Some x /\ built_lexeme x /\ plain_lexeme x
  end.

Lemma parse_script so s : set_order so -> constructible s -> ~ class_mark (str s) ->
  exists r, usl_parse so (str s) = Ok (UScript r, []) /\ str r = str s.
Proof.
  intros SO C N. pose proof (constructible_wf s C) as W. pose proof (str_word s W) as SW.
  assert (O : old_class (str s) = None) by (destruct (old_class (str s)) eqn:E; [apply old_class_mark in E; contradiction|reflexivity]).
  assert (T : ulex 0 false (str s) = [UMorpheme (str s)]).
  { apply (ulex_words _ _ _ _ (le_n _)); [|discriminate]. rewrite split_end by (apply script_word_wordy; exact SW). apply (tok_words [str s]). constructor; [split; auto|constructor]. }
  destruct (C03_parse_of_printed_script so s SO C) as (r & _ & _ & E & Q & _). exists r. split; [|exact Q].
  apply parse_text with (u := RMorpheme (str s)); [| |cbn; now rewrite E].
  - intros X. pose proof (script_word_wordy _ SW) as [Y _]. rewrite X in Y. now apply Y.
  - rewrite T. reflexivity.
Qed.

(** The text of such a USL is read as a USL with the same text. *)
Theorem C23_text_partial : forall so u, set_order so -> text_readable u ->
  exists u', usl_parse so (usl_str u) = Ok (u', []) /\ usl_str u' = usl_str u.
Proof.
  intros so [s|p|l|w] SO H; cbn [text_readable usl_str] in *.
  - destruct H as [C N]. destruct (parse_script so s SO C N) as (r & E & Q). exists (UScript r). auto.
  - destruct H as (B & P & N). destruct (C23_polymorpheme_partial so p SO B P N) as (u & E & Q & _). eauto.
  - destruct H as [B P]. destruct (C23_lexeme_partial so l SO B P) as (l' & E & Q & _). exists (ULexeme l'). split; [exact E|]. now apply String.eqb_eq.
  - destruct H as [(l & r & Hw & Hr) Hl]. destruct (C23_word_partial so l r w SO Hw Hl Hr) as (w' & E & Q & _). exists (UWord w'). auto.
Qed.
Print Assumptions C23_text_partial.

(** So the normal form of a text, [str(IEMLParser().parse(t))], is its own normal form. *)
Theorem C23_normal_form_partial : forall so decorated t u, set_order so -> usl_parse so t = Ok (u, []) -> text_readable u ->
  usl_text (usl_parse so) decorated t = Ok (usl_str u) /\ usl_text (usl_parse so) decorated (usl_str u) = Ok (usl_str u).
Proof.
  intros so decorated t u SO E H. destruct (C23_text_partial so u SO H) as (u' & E' & Q). unfold usl_text. rewrite E, E'. cbn [bind]. now rewrite Q.
Qed.
Print Assumptions C23_normal_form_partial.

(** ** The texts which are read *)
(** No morpheme of the text is a sum of one term or begins by a class mark. *)
Definition plain_morphemes (so : list script -> list script) (t : string) : Prop :=
  forall s m, In (UMorpheme s) (ulex 0 false t) -> parse so s = Ok m -> ~ one_term_sum m /\ ~ class_mark (str m).
Definition full_groups (p : pm) : Prop := forall g, In g (groups p) -> fst g <> [].
(** No group is empty, no lexeme is missing, and the focus of a word is on a lexeme. *)
Definition complete (u : usl) : Prop :=
  match u with
  | UScript s => ~ class_mark (str s)
  | UPm p => full_groups p /\ pm_str p <> ""
  | ULexeme l => full_groups (pm_flexion l) /\ full_groups (pm_content l)
  | UWord w => In (w_role w) (map fst (as_list (w_context w) (w_fun w))) /\
      forall e, In e (as_list (w_context w) (w_fun w)) -> exists x, snd e = Some x /\ full_groups (pm_flexion x) /\ full_groups (pm_content x)
  end.
Section Parsed.
  Variable so : list script -> list script.
  Hypothesis SO : set_order so.
  Definition goodm (m : script) : Prop := regular m /\ ~ class_mark (str m).
  Definition goodp (p : pm) : Prop := built p /\ Forall goodm (constant p) /\ Forall (fun g => Forall goodm (fst g)) (groups p).
  Definition goodl (l : lexeme) : Prop := goodp (pm_flexion l) /\ goodp (pm_content l).
  Definition fine (ts : list string) : Prop := forall s m, In s ts -> parse so s = Ok m -> goodm m.
  Lemma null_good : goodm (Null 0).
  Proof. split; [|intros (c & r & X); discriminate X]. split; [apply (c_null 0); reflexivity|]. intros [x X]. discriminate X. Qed.
  Lemma mk_good cs gs : Forall goodm cs -> Forall (fun g => Forall goodm (fst g)) gs -> goodp (mk_pm cs gs).
  Proof.
    intros F G. assert (S : forall l, Forall goodm l -> Forall goodm (isort (filter_empty l))).
    { intros l Fl. rewrite Forall_forall in *. intros x Hx. apply Fl. apply (Permutation_in _ (sort_perm _ _)) in Hx. now apply filter_In in Hx. }
    split; [exists cs, gs; split; [eapply Forall_impl; [|exact F]; now intros m [H _]|split; [|reflexivity]]|split; cbn [mk_pm constant groups]].
    - eapply Forall_impl; [|exact G]. intros g Hg. eapply Forall_impl; [|exact Hg]. now intros m [H _].
    - specialize (S cs F). destruct (isort (filter_empty cs)); [constructor; [apply null_good|constructor]|exact S].
    - apply Forall_forall. intros g Hg. apply (Permutation_in _ (sort_perm _ _)) in Hg. apply in_map_iff in Hg. destruct Hg as (h & <- & Hh). cbn [fst]. apply S. rewrite Forall_forall in G. auto.
  Qed.
  Lemma morphemes_good ts ms : fine ts -> e_morphemes so ts = Ok ms -> Forall goodm ms.
  Proof.
    intros H E. apply mapM_F2' in E. induction E as [|s m ts ms E F IH]; constructor; [apply (H s); [now left|exact E]|]. apply IH. intros x y Hx. apply H. now right.
  Qed.
  Lemma fine_app a b : fine (a ++ b)%list <-> fine a /\ fine b.
  Proof.
    unfold fine. split.
    - intros H. split; intros s m Hs; apply H, in_app_iff; auto.
    - intros [H1 H2] s m Hs. apply in_app_iff in Hs. destruct Hs as [Hs|Hs]; eauto.
  Qed.
  Lemma pm_good p q : fine (pm_texts p) -> e_pm so p = Ok q -> goodp q.
  Proof.
    intros H E. apply fine_app in H. destruct H as [H1 H2]. unfold e_pm in E. destruct (e_morphemes so (raw_constant p)) as [cs|] eqn:E1; [|discriminate]. cbn [bind] in E.
    destruct (mapM _ (raw_groups p)) as [gs|] eqn:E2; [|discriminate]. cbn [bind] in E. apply Ok_inj in E. subst q. apply mk_good; [now apply (morphemes_good _ _ H1)|].
    apply mapM_F2' in E2. induction E2 as [|g h rg gs E F IH]; constructor.
    - destruct (e_morphemes so (fst g)) as [ms|] eqn:Em; [|discriminate]. cbn [bind] in E. apply Ok_inj in E. subst h. cbn [fst]. apply (morphemes_good (fst g)); [|exact Em]. now apply fine_app in H2.
    - apply IH. now apply fine_app in H2.
  Qed.
  Lemma opt_good p q : fine (match p with Some q => pm_texts q | None => [] end) -> e_opt so p = Ok q -> goodp q.
  Proof. destruct p as [p|]; cbn [e_opt]; [apply pm_good|]. intros _ E. apply Ok_inj in E. subst q. apply mk_good; constructor. Qed.
  Lemma lexeme_good ps l : fine (lexeme_texts ps) -> e_lexeme so ps = Ok l -> goodl l.
  Proof.
    intros H E. unfold e_lexeme in E. destruct (mapM (e_opt so) ps) as [qs|] eqn:Q; [|discriminate]. cbn [bind] in E. apply mapM_F2' in Q.
    assert (G : Forall goodp qs).
    { clear E. induction Q as [|p q ps qs E F IH]; constructor; [apply (opt_good p); [|exact E]|apply IH]; now apply fine_app in H. }
    assert (N : goodp (mk_pm [] [])) by (apply mk_good; constructor).
    assert (K : (exists a b c, qs = [a; b; c] /\ l = {| pm_flexion := mk_pm (constant a ++ constant c) (groups a ++ groups c); pm_content := b |}) \/
      (In (pm_flexion l) (mk_pm [] [] :: qs) /\ In (pm_content l) (mk_pm [] [] :: qs))).
    { destruct ps as [|[|] [|? [|? [|]]]], qs as [|a [|b [|c [|]]]]; try discriminate E; apply Ok_inj in E; subst l; cbn [pm_flexion pm_content In]; try (right; tauto); left; eauto. }
    destruct K as [(a & b & c & -> & ->)|[A B]].
    - rewrite !Forall_cons_iff in G. destruct G as ((_ & A1 & A2) & B & (_ & C1 & C2) & _). split; [|exact B]. apply mk_good; apply Forall_app; auto.
    - assert (G' : Forall goodp (mk_pm [] [] :: qs)) by (constructor; auto). rewrite Forall_forall in G'. split; auto.
  Qed.
  Lemma goodp_plain p : goodp p -> full_groups p -> UslGrammar.plain p.
  Proof.
    intros (_ & C & G) F. split; [|exact F]. rewrite Forall_forall in C, G. intros s [H|(g & Hg & H)]; [now apply C in H as [_ H]|]. specialize (G g Hg). rewrite Forall_forall in G. now apply G in H as [_ H].
  Qed.
End Parsed.
(** Any text so read gives a USL which is read back. *)
Lemma parsed_readable : forall so t u ds, set_order so -> usl_parse so t = Ok (u, ds) -> plain_morphemes so t -> complete u -> text_readable u.
Proof.
  intros so t u ds SO E M C. unfold usl_parse in E. destruct (String.eqb t ""). { apply Ok_inj in E. injection E as <- <-. split; [apply (c_null 0); reflexivity|exact C]. }
  destruct (p_proposition (ulex 0 false t)) as [[x ds']|] eqn:P; [|discriminate]. apply p_proposition_iff in P.
  assert (F : fine so (UslGrammar.texts x)).
  { intros s m Hs Em. pose proof (texts_tokens _ _ _ _ P Hs) as Ht. destruct (M s m Ht Em) as [M1 M2]. split; [split; [exact (parse_constructible so SO s m Em)|exact M1]|exact M2]. }
  destruct (e_usl so x) as [v|e] eqn:Ev; [|destruct e; discriminate]. apply Ok_inj in E. injection E as -> ->. destruct x as [s|p|l|es]; cbn [e_usl UslGrammar.texts] in *.
  - destruct (parse so s) as [m|] eqn:Em; [|discriminate]. cbn [bind] in Ev. apply Ok_inj in Ev. subst u. split; [exact (parse_constructible so SO s m Em)|exact C].
  - destruct (e_pm so p) as [q|] eqn:Eq; [|discriminate]. cbn [bind] in Ev. apply Ok_inj in Ev. subst u. destruct C as [C1 C2]. pose proof (pm_good so p q F Eq) as G. split; [apply G|split; [now apply goodp_plain|exact C2]].
  - destruct (e_lexeme so l) as [q|] eqn:Eq; [|discriminate]. cbn [bind] in Ev. apply Ok_inj in Ev. subst u. destruct C as [C1 C2]. destruct (lexeme_good so l q F Eq) as [G1 G2]. split; [split; [apply G1|apply G2]|split; now apply goodp_plain].
  - destruct (e_word so es) as [w|] eqn:Ew; [|discriminate]. cbn [bind] in Ev. apply Ok_inj in Ev. subst u. unfold e_word in Ew. destruct (mapM (e_entry so) es) as [xs|] eqn:Ex; [|discriminate]. cbn [bind] in Ew.
    destruct C as [C1 C2]. set (l := map (fun e : bool * (role * lexeme) => (fst (snd e), Some (snd (snd e)))) xs) in *.
    assert (R : w_role w = last_mark xs) by (apply word_of_inv in Ew; destruct Ew as (c & f & _ & Hw); now destruct (mk_word_fields _ _ _ _ Hw) as (_ & -> & _)).
    assert (G : Forall goodl (present l)).
    { apply mapM_F2' in Ex. unfold l. clear -Ex F. induction Ex as [|e x es xs E F2 IH]; [constructor|]. cbn [flat_map] in F. apply fine_app in F. destruct F as [F1 F2']. apply fine_app in F1. destruct F1 as [_ F1].
      unfold e_entry in E. destruct (e_morphemes so _) as [ms|]; [|discriminate]. cbn [bind] in E. destruct (e_lexeme so _) as [y|] eqn:Ey; [|discriminate]. cbn [bind] in E. apply Ok_inj in E. subst x. cbn. constructor; [exact (lexeme_good so _ _ F1 Ey)|auto]. }
    split; [exists l, (last_mark xs); split; [exact Ew|now rewrite <- R]|]. intros e He. destruct (C2 e He) as (y & Ey & Y1 & Y2). exists y. split; [exact Ey|].
    assert (Gy : goodl y).
    { rewrite Forall_forall in G. apply G. pose proof Ew as Ew'. apply word_of_inv in Ew'. destruct Ew' as (c & f & Hf & Hw). destruct (mk_word_fields _ _ _ _ Hw) as (E1 & E2 & E3). rewrite E1, E3 in He.
      apply C27_no_lexeme_lost in Hf. eapply Permutation_in; [exact Hf|]. destruct e as [q o]. cbn [snd] in Ey. subst o. eapply in_present; eauto. }
    destruct Gy as [G1 G2]. split; [split; [apply G1|apply G2]|split; now apply goodp_plain].
Qed.
Theorem C23_parsed_partial : forall so t u ds, set_order so -> usl_parse so t = Ok (u, ds) -> plain_morphemes so t -> complete u ->
  text_readable u /\ exists u', usl_parse so (usl_str u) = Ok (u', []) /\ usl_str u' = usl_str u.
Proof. intros so t u ds SO E M C. pose proof (parsed_readable so t u ds SO E M C) as R. split; [exact R|now apply C23_text_partial]. Qed.
Print Assumptions C23_parsed_partial.
(** A lexeme, a sum of one term, and a word with a missing lexeme. *)
Example C23_parsed_case :
  plain_morphemes ident "(wa.)(wa. m1(a. e.) m1(b. i.))" /\ usl_parse ident "(wa.)(wa. m1(a. e.) m1(b. i.))" = Ok (ULexeme X3, []) /\ complete (ULexeme X3) /\
  (exists m, parse ident "a.+a." = Ok m /\ one_term_sum m) /\
  (exists w, usl_parse ident "[! E:A:. E:U:. (a.)]" = Ok (UWord w, []) /\ ~ complete (UWord w)).
Proof.
  split.
  { intros s m H E. vm_compute in H. repeat (destruct H as [H|H]; [first [discriminate H|injection H as <-; vm_compute in E; apply Ok_inj in E; subst m; split; [intros [x X]; discriminate X|intros (c & r & X); vm_compute in X; discriminate X]]|]). destruct H. }
  split; [vm_compute; reflexivity|]. split. { split; intros g Hg; vm_compute in Hg; repeat (destruct Hg as [<-|Hg]; [discriminate|]); destruct Hg. }
  split. { eexists. split; [vm_compute; reflexivity|]. eexists. reflexivity. }
  eexists. split; [vm_compute; reflexivity|]. intros [_ H]. destruct (H _ (or_introl eq_refl)) as (x & X & _). vm_compute in X. discriminate X.
Qed.

(** ** The characters of the texts *)
Definition name_char (c : ascii) : bool := match c with "/"%char | "|"%char | """"%char | "010"%char | "013"%char => false | _ => true end.
Notation clear s := (chars_all name_char s = true).
Lemma clear_app a b : clear (a ++ b) <-> clear a /\ clear b.
Proof. rewrite chars_all_app. apply andb_true_iff. Qed.
Lemma clear_join sep l : clear sep -> Forall (fun s => clear s) l -> clear (join sep l).
Proof.
  intros S. induction 1 as [|x l Hx F IH]; [reflexivity|]. destruct l as [|y l]; [exact Hx|]. rewrite join_cons2, !clear_app. auto.
Qed.
Lemma clear_script s : wf s -> clear (str s).
Proof.
  intros W. destruct (str_word s W) as [H _]. eapply chars_all_impl; [|exact H]. intros c. now destruct c as [[] [] [] [] [] [] [] []].
Qed.
Lemma clear_int n : clear (int_str n).
Proof. unfold int_str. eapply chars_all_impl; [|apply uint_digits]. intros c. now destruct c as [[] [] [] [] [] [] [] []]. Qed.
Lemma clear_pm p : pok p -> clear (pm_str p).
Proof.
  intros [[H1 H2] _]. unfold pm_str. apply clear_join; [reflexivity|]. apply Forall_app. split; rewrite Forall_map, Forall_forall in *.
  - intros s Hs. apply filter_In in Hs. apply clear_script, nf_wf. now apply H1.
  - intros g Hg. specialize (H2 g Hg). unfold group_str. rewrite !clear_app. repeat split; [apply clear_int|]. apply clear_join; [reflexivity|]. rewrite Forall_map. eapply Forall_impl; [|exact H2]. intros m Hm. now apply clear_script, nf_wf.
Qed.
Lemma clear_lexeme l : lok l -> clear (lexeme_str l).
Proof.
  intros [A B]. apply clear_pm in A, B. rewrite lexeme_str_alt. unfold paren. destruct (pm_empty (pm_content l)); [destruct (pm_empty (pm_flexion l)); [reflexivity|]|]; rewrite !clear_app; auto.
Qed.
Lemma clear_role r : vrole r -> clear (role_str r).
Proof.
  intros V. apply clear_join; [reflexivity|]. eapply Forall_impl; [|exact V]. intros s Hs.
  assert (H : forallb (chars_all name_char) ADDRESS_SCRIPTS = true) by (vm_compute; reflexivity). rewrite forallb_forall in H. auto.
Qed.
Lemma clear_readable u : text_readable u -> clear (usl_str u).
Proof.
  destruct u as [s|p|l|w]; cbn [text_readable usl_str].
  - intros [C _]. apply clear_script. now apply constructible_wf.
  - intros [B _]. apply clear_pm. now apply built_ok.
  - intros [B _]. apply clear_lexeme. now apply built_lexeme_ok.
  - intros [(l & r & Hw & Hr) Hl]. apply word_of_inv in Hw. destruct Hw as (c & f & Hf & Hw). destruct (mk_word_fields _ _ _ _ Hw) as (E1 & E2 & E3). apply from_list_inv in Hf. destruct Hf as [V _]. rewrite E1, E3 in *.
    destruct (expansion_single c f r V Hr) as (r0 & _ & _ & _ & X). unfold mk_word in Hw. rewrite (render_single c f r r0 X) in Hw. cbn [bind] in Hw. destruct (class_from_address r); [|discriminate]. cbn [bind] in Hw. apply Ok_inj in Hw. subst w. cbn [w_str].
    unfold word_text. rewrite !clear_app. split; [reflexivity|]. split; [|reflexivity]. apply clear_join; [reflexivity|]. rewrite Forall_map, Forall_forall. intros [q t] Hk. cbn [fst snd].
    destruct (krows_keys c f V) as (F & _). rewrite Forall_forall in F. pose proof (F _ Hk) as Vq. cbn [fst] in Vq.
    assert (Ct : clear t).
    { apply (Permutation_in _ (krows_perm f)) in Hk. apply in_map_iff in Hk. destruct Hk as ([q' x] & Ek & Hk). unfold kstr in Ek. cbn [fst snd] in Ek. injection Ek as <- <-.
      destruct (Hl ((context_prefix c ++ q')%list, x)) as (y & Ey & By & _); [rewrite as_list_lst; apply pre_in; exists q'; auto|]. cbn [snd] in Ey. subst x. apply clear_lexeme. now apply built_lexeme_ok. }
    rewrite !clear_app. split; [now destruct (role_eqb q r0)|]. split; [now destruct c|]. split; [now apply clear_role|]. split; [reflexivity|exact Ct].
Qed.
(** No text of such a USL has a character which the files or their names cannot hold. *)
Lemma readable_plain u : text_readable u -> DatabaseSpec.plain (usl_str u) /\ ~ occurs "/" (usl_str u) /\ ~ occurs "|" (usl_str u).
Proof.
  intros H. apply clear_readable in H. assert (X : forall c, name_char c = false -> ~ occurs c (usl_str u)) by (intros c N O; pose proof (chars_occurs _ _ _ H O); congruence).
  repeat split; now apply X.
Qed.

(** * C43 *)
(** Of the parser only the texts of the history matter: if the normal form of each is its own
    normal form, the calls are those of a parser to which C40, C41, C42, C44, C85, C88 and C93
    apply. *)
Definition own_layout (parse : string -> res string) (sha : string -> string) (ops : list op) : Prop :=
  (forall o n, In o ops -> parse (op_text o) = Ok n -> op_text o <> "" /\ n <> "" /\ parse n = Ok n /\ nameable sha n) /\
  (forall i j, named parse ops i -> named parse ops j -> 100 < String.length i -> 100 < String.length j -> substring 0 10 (sha i) = substring 0 10 (sha j) -> i = j).
Theorem C43_own_parser : forall parse sha class_of singular folder ops, own_layout parse sha ops ->
  exists parse', layout parse' sha ops /\ (forall s n, parse' s = Ok n -> parse s = Ok n) /\
    (forall o, In o ops -> parse' (op_text o) = parse (op_text o)) /\
    (forall fs ops', incl ops' ops -> run parse' (db_path sha class_of singular folder) fs ops' = run parse (db_path sha class_of singular folder) fs ops') /\
    (forall ops', incl ops' ops -> records parse' ops' = records parse ops').
Proof.
  intros parse sha class_of singular folder ops (H & L). set (parse' := restrict parse (RestrictProofs.texts parse ops)). exists parse'.
  assert (E : forall o, In o ops -> parse' (op_text o) = parse (op_text o)) by (intros o Ho; exact (proj1 (restrict_same parse ops o Ho))).
  assert (K : forall s n, parse' s = Ok n -> s <> "" /\ exists o, In o ops /\ parse (op_text o) = Ok n).
  { intros s n X. apply restrict_ok in X. destruct X as [I1 X]. apply texts_in in I1. destruct I1 as (o & Ho & [->|Y]); [split; [destruct (H o n Ho X) as (Z & _); exact Z|exists o; auto]|].
    destruct (H o s Ho Y) as (_ & N & Z & _). rewrite Z in X. apply Ok_inj in X. subst n. split; [exact N|exists o; auto]. }
  assert (I2 : forall o n, In o ops -> parse (op_text o) = Ok n -> parse' n = Ok n).
  { intros o n Ho X. apply restrict_ok. split; [apply texts_in; exists o; auto|destruct (H o n Ho X) as (_ & _ & Z & _); exact Z]. }
  split; [|split; [|split; [exact E|split]]].
  - split; [|split].
    + intros s n X. destruct (K s n X) as (_ & o & Ho & Y). split; [eauto|apply (H o n Ho Y)].
    + intros n X. apply K in X. now destruct X as [X _].
    + intros i j (o & Ho & X) (o' & Ho' & Y). rewrite E in X, Y by auto. apply L; [exists o|exists o']; auto.
  - intros s n X. apply restrict_ok in X. tauto.
  - intros fs ops' In1. symmetry. apply (run_same parse' parse).
    + intros s n X. destruct (K s n X) as (_ & o & Ho & Y). eauto.
    + intros o Ho. apply In1 in Ho. split; [symmetry; auto|]. intros n X. rewrite E in X by auto. rewrite (I2 o n Ho X). apply (H o n Ho X).
  - intros ops' In1. symmetry. apply (spec_same parse' parse). intros o Ho. apply In1 in Ho. split; [symmetry; auto|]. intros n X. rewrite E in X by auto. rewrite (I2 o n Ho X). apply (H o n Ho X).
Qed.
Print Assumptions C43_own_parser.

Lemma values_any parse parse' fo fs i l d : descriptor_values parse is_desc_file fo fs i l d = descriptor_values parse' is_desc_file fo fs i l d.
Proof. unfold descriptor_values. destruct (get_descriptors _ _ _); [|reflexivity]. cbn [bind]. unfold get_values, normalize_key. rewrite !andb_false_r. reflexivity. Qed.
(** So one more value added is read as C42 says, and values are removed as C41 says. *)
Theorem C42_own_parser : forall parse sha class_of singular folder fo ops t i l d v, own_layout parse sha (ops ++ [AddDescriptor t l d v]) -> file_order fo ->
  Forall (op_ok parse) (ops ++ [AddDescriptor t l d v]) -> parse t = Ok i -> In l LANGUAGES -> In d DESCRIPTORS_CLASS ->
  let values ops := descriptor_values parse is_desc_file fo (run parse (db_path sha class_of singular folder) [] ops) in
  exists before, values ops i l d = Ok before /\
    (normalize_value v = "" -> values (ops ++ [AddDescriptor t l d v])%list i l d = Ok before) /\
    (normalize_value v <> "" -> exists x, values (ops ++ [AddDescriptor t l d v])%list i l d = Ok (before ++ [x])%list /\
       (x = Some (normalize_value v) <-> ~ occurs "010" (normalize_value v) /\ ~ In (normalize_value v) NA_VALUES)) /\
    (forall i' l' d', In l' LANGUAGES -> In d' DESCRIPTORS_CLASS -> (i', l', d') <> (i, l, d) ->
       values (ops ++ [AddDescriptor t l d v])%list i' l' d' = values ops i' l' d').
Proof.
  intros parse sha class_of singular folder fo ops t i l d v O Hfo Hops Hi Hl Hd.
  destruct (C43_own_parser parse sha class_of singular folder _ O) as (parse' & L' & _ & E & Q & _).
  assert (Hops' : Forall (op_ok parse') (ops ++ [AddDescriptor t l d v])) by (rewrite Forall_forall in *; intros o Ho; apply (op_same parse); auto).
  assert (Hi' : parse' t = Ok i) by (rewrite <- Hi; apply (E (AddDescriptor t l d v)), in_app_iff; right; now left).
  pose proof (C42_added_exact sha class_of singular folder parse' fo ops t i l d v L' Hfo Hops' Hi' Hl Hd) as X. cbv beta zeta in X |- *.
  rewrite !Q in X; [|apply incl_refl|apply incl_appl, incl_refl].
  destruct X as (before & X0 & X1 & X2 & X3). exists before. rewrite !(values_any parse parse'). repeat split; auto. intros i' l' d' Hl' Hd' N. rewrite !(values_any parse parse'). auto.
Qed.
Print Assumptions C42_own_parser.
Theorem C41_own_parser : forall parse sha class_of singular folder fo ops t i l d v, own_layout parse sha (ops ++ [RemoveDescriptor t l d v]) -> file_order fo ->
  Forall (op_ok parse) (ops ++ [RemoveDescriptor t l d v]) -> parse t = Ok i ->
  let texts ops := stored is_desc_file fo (run parse (db_path sha class_of singular folder) [] ops) in
  forall i' l' d', exists before, texts ops i' l' d' = Ok before /\
    texts (ops ++ [RemoveDescriptor t l d v])%list i' l' d' =
    Ok (if (String.eqb i i' && selects l l' && selects d d')%bool
        then match v with None => [] | Some v => filter (fun x => negb (same_or_quoted (kept v) x)) before end else before).
Proof.
  intros parse sha class_of singular folder fo ops t i l d v O Hfo Hops Hi.
  destruct (C43_own_parser parse sha class_of singular folder _ O) as (parse' & L' & _ & E & Q & _).
  assert (Hops' : Forall (op_ok parse') (ops ++ [RemoveDescriptor t l d v])) by (rewrite Forall_forall in *; intros o Ho; apply (op_same parse); auto).
  assert (Hi' : parse' t = Ok i) by (rewrite <- Hi; apply (E (RemoveDescriptor t l d v)), in_app_iff; right; now left).
  pose proof (C41_removed_exact sha class_of singular folder parse' fo ops t i l d v L' Hfo Hops' Hi') as X. cbv beta zeta in X |- *.
  rewrite !Q in X; [|apply incl_refl|apply incl_appl, incl_refl]. exact X.
Qed.
Print Assumptions C41_own_parser.

(** What is asked of the values given: no carriage return in a descriptor, no empty structure
    value, and a value to remove comes with its key. *)
Definition values_given (o : op) : Prop :=
  match o with
  | AddDescriptor _ _ _ v => ~ occurs "013" v
  | RemoveDescriptor _ l d v => v <> None -> l <> None /\ d <> None
  | AddStructure _ _ v => v <> ""
  | RemoveStructure _ k v => v <> None -> k <> None /\ v <> Some ""
  end.
Lemma usls_own so decorated sha ops : set_order so -> (forall t, ~ occurs "/" (sha t)) ->
  let parse := usl_text (usl_parse so) decorated in
  (forall o, In o ops -> op_text o <> "" /\ values_given o /\ exists u, usl_parse so (op_text o) = Ok (u, []) /\ text_readable u) ->
  (forall i j, named parse ops i -> named parse ops j -> 100 < String.length i -> 100 < String.length j -> substring 0 10 (sha i) = substring 0 10 (sha j) -> i = j) ->
  own_layout parse sha ops /\ Forall (op_ok parse) ops.
Proof.
  intros SO Hsha parse H L.
  assert (R : forall o n, In o ops -> parse (op_text o) = Ok n -> exists u, n = usl_str u /\ text_readable u /\ parse n = Ok n).
  { intros o n Ho X. destruct (H o Ho) as (_ & _ & u & E & R). destruct (C23_normal_form_partial so decorated _ u SO E R) as [A B].
    fold parse in A, B. rewrite A in X. apply Ok_inj in X. subst n. eauto. }
  assert (O : own_layout parse sha ops).
  { split; [|exact L]. intros o n Ho X. destruct (R o n Ho X) as (u & -> & T & P). split; [apply (H o Ho)|]. destruct (readable_plain u T) as (_ & N1 & N2). split; [|repeat split; auto]. intros Z.
    destruct (C23_text_partial so u SO T) as (u' & E' & Q). rewrite Z in E', Q. cbn in E'. injection E' as <-. discriminate Q. }
  assert (Hops : Forall (op_ok parse) ops).
  { apply Forall_forall. intros o Ho. assert (P : forall n, parse (op_text o) = Ok n -> DatabaseSpec.plain n) by (intros n X; destruct (R o n Ho X) as (u & -> & T & _); apply (readable_plain u T)).
    destruct (H o Ho) as (_ & V & _). destruct o; split; auto. }
  split; [exact O|exact Hops].
Qed.
(** The database of USLs: the values read after a history whose texts are those of such USLs,
    in normal form or not. *)
Theorem C43_usls_partial : forall so decorated sha class_of singular folder fo ops, set_order so -> file_order fo -> (forall t, ~ occurs "/" (sha t)) ->
  let parse := usl_text (usl_parse so) decorated in
  (forall o, In o ops -> op_text o <> "" /\ values_given o /\ exists u, usl_parse so (op_text o) = Ok (u, []) /\ text_readable u) ->
  (forall i j, named parse ops i -> named parse ops j -> 100 < String.length i -> 100 < String.length j -> substring 0 10 (sha i) = substring 0 10 (sha j) -> i = j) ->
  let fs := run parse (db_path sha class_of singular folder) [] ops in
  (forall i l d, In l LANGUAGES -> In d DESCRIPTORS_CLASS ->
    descriptor_values parse is_desc_file fo fs i l d = Ok (map pandas_cell (values_of (fst (records parse ops)) i l d))) /\
  match get_structure is_desc_file fo fs with
  | Ok rows => snd (records parse ops) <> [] /\ forall i k, structure_values rows i k = svalues_of (snd (records parse ops)) i k
  | Err e => snd (records parse ops) = [] /\ e = ValueError
  end.
Proof.
  intros so decorated sha class_of singular folder fo ops SO Hfo Hsha parse H L fs.
  destruct (usls_own so decorated sha ops SO Hsha H L) as [O Hops]. fold parse in O, Hops.
  destruct (C43_own_parser parse sha class_of singular folder ops O) as (parse' & L' & _ & E & Q & M).
  assert (Hops' : Forall (op_ok parse') ops) by (rewrite Forall_forall in *; intros o Ho; apply (op_same parse); auto).
  destruct (C40_exact sha class_of singular folder parse' fo ops L' Hfo Hops') as [A B]. rewrite Q, M in A, B by apply incl_refl. fold fs in A, B. split; [|exact B].
  intros i l d Hl Hd. rewrite <- (A i l d Hl Hd). unfold descriptor_values. destruct (get_descriptors _ _ _); [|reflexivity]. cbn [bind]. unfold get_values, normalize_key. rewrite !andb_false_r. reflexivity.
Qed.
Print Assumptions C43_usls_partial.

(** Stated on the texts given. *)
Theorem C43_texts_partial : forall so decorated sha class_of singular folder fo ops, set_order so -> file_order fo -> (forall t, ~ occurs "/" (sha t)) ->
  let parse := usl_text (usl_parse so) decorated in
  (forall o, In o ops -> op_text o <> "" /\ values_given o /\ plain_morphemes so (op_text o) /\ exists u, usl_parse so (op_text o) = Ok (u, []) /\ complete u) ->
  (forall i j, named parse ops i -> named parse ops j -> 100 < String.length i -> 100 < String.length j -> substring 0 10 (sha i) = substring 0 10 (sha j) -> i = j) ->
  let fs := run parse (db_path sha class_of singular folder) [] ops in
  forall i l d, In l LANGUAGES -> In d DESCRIPTORS_CLASS ->
    descriptor_values parse is_desc_file fo fs i l d = Ok (map pandas_cell (values_of (fst (records parse ops)) i l d)).
Proof.
  intros so decorated sha class_of singular folder fo ops SO Hfo Hsha parse H L fs.
  apply (C43_usls_partial so decorated sha class_of singular folder fo ops SO Hfo Hsha); [|exact L].
  intros o Ho. destruct (H o Ho) as (A & V & M & u & E & C). split; [exact A|]. split; [exact V|]. exists u. split; [exact E|]. exact (parsed_readable so _ u [] SO E M C).
Qed.
Print Assumptions C43_texts_partial.

(** A word, a lexeme and a polymorpheme, not written in normal form. *)
Definition word44 : string := "[E:.n.- E:A:. (wa.)(i.) > E:T:.   (wa.)(b.)>!E:.n.- (wa.)(wa. m1(e. a.)m1(i. b.))]".
Definition lexeme44 : string := "(wa.)(wa. m1(a. e.) m1(b. i.))".
Definition pm44 : string := "b. a. wa.  m1(b.) m2(i. wa.)".
Definition history44 : list op :=
  [AddDescriptor word44 "en" "translations" "the actor"; AddDescriptor lexeme44 "en" "translations" "a lexeme"; AddDescriptor pm44 "fr" "comments" " N/A ";
   AddDescriptor (usl_str (UWord U23)) "en" "translations" "an actor"; RemoveDescriptor word44 (Some "en") (Some "translations") (Some "the actor"); AddStructure pm44 "is_root" "True"].
Notation parse44 := (usl_text (usl_parse ident) (fun _ _ => Err NotImplementedError)).
Definition class44 (s : string) : iclass := if String.prefix "[" s then CWord else if String.prefix "(" s then CLexeme else CPolymorpheme.
Notation fs44 := (run parse44 (db_path toy_digest class44 (fun _ => true) "/db") [] history44).
Lemma readable44 o : In o history44 -> op_text o <> "" /\ values_given o /\ exists u, usl_parse ident (op_text o) = Ok (u, []) /\ text_readable u /\ In u [UWord U23; ULexeme X3; UPm P23].
Proof.
  destruct C23_case as (B & P & _ & E & (BX & PX & _) & W & Wl & Wr & Ew).
  assert (RW : text_readable (UWord U23)) by (split; [exists W23, [INITIATOR]; auto|exact Wl]).
  assert (RX : text_readable (ULexeme X3)) by (split; auto).
  assert (RP : text_readable (UPm P23)) by (split; [exact B|split; [exact P|rewrite E; discriminate]]).
  assert (X : forall m c, existsb (Ascii.eqb c) (list_ascii_of_string m) = false -> ~ occurs c m) by (intros m c X O; apply existsb_occurs in O; congruence).
  intros Ho. cbn [In history44] in Ho.
  repeat (destruct Ho as [<-|Ho]; [cbn [op_text]; split; [discriminate|]; split; [first [apply X; vm_compute; reflexivity|discriminate|intros _; split; discriminate]|];
    first [exists (UWord U23); split; [vm_compute; reflexivity|]; split; [exact RW|]; cbn; tauto
          |exists (ULexeme X3); split; [vm_compute; reflexivity|]; split; [exact RX|]; cbn; tauto
          |exists (UPm P23); split; [vm_compute; reflexivity|]; split; [exact RP|]; cbn; tauto]|]). destruct Ho.
Qed.
Example C43_usls_case :
  (forall t, ~ occurs "/" (toy_digest t)) /\
  (forall o, In o history44 -> op_text o <> "" /\ values_given o /\ exists u, usl_parse ident (op_text o) = Ok (u, []) /\ text_readable u) /\
  (forall i, named parse44 history44 i -> String.length i <= 100) /\
  map (fun f => fst f) fs44 = ["/db/word/singular/[E:T:. (wa/[E:T:. (wa.)(b.) > ! E:.n.- (wa.)(wa. m1(e. a.) m1(i. b.)) > E:.n.- E:A:. (wa.)(i.)].desc";
    "/db/lexeme/singular/(wa.)(wa/(wa.)(wa. m1(e. a.) m1(i. b.)).desc"; "/db/polymorpheme/singular/wa. a/wa. a. b. m2(wa. i.) m1(b.).desc";
    "/db/polymorpheme/singular/wa. a/wa. a. b. m2(wa. i.) m1(b.).ieml"] /\
  descriptor_values parse44 is_desc_file (@rev _) fs44 (usl_str (UWord U23)) "en" "translations" = Ok [Some "an actor"] /\
  descriptor_values parse44 is_desc_file (@rev _) fs44 (usl_str (ULexeme X3)) "en" "translations" = Ok [Some "a lexeme"] /\
  descriptor_values parse44 is_desc_file (@rev _) fs44 (usl_str (UPm P23)) "fr" "comments" = Ok [None].
Proof.
  split; [intros t O; apply existsb_occurs in O; unfold toy_digest in O; destruct (String.eqb _ _); vm_compute in O; discriminate|].
  split; [intros o Ho; destruct (readable44 o Ho) as (A & V & u & H1 & H2 & _); eauto|]. split; [|repeat split; vm_compute; reflexivity].
  intros i (o & Ho & E). destruct (readable44 o Ho) as (_ & _ & u & Eu & _ & I1). unfold usl_text in E. rewrite Eu in E. apply Ok_inj in E. subst i.
  cbn [In] in I1. repeat (destruct I1 as [<-|I1]; [apply Nat.leb_le; vm_compute; reflexivity|]). destruct I1.
Qed.
(** The history is one to which [C41_own_parser] and [C42_own_parser] apply. *)
Example C42_own_case : own_layout parse44 toy_digest history44 /\ Forall (op_ok parse44) history44 /\
  stored is_desc_file (@rev _) (run parse44 (db_path toy_digest class44 (fun _ => true) "/db") [] (firstn 4 history44)) (usl_str (UWord U23)) "en" "translations" = Ok ["the actor"; "an actor"].
Proof.
  destruct C43_usls_case as (S & H & L & _). split; [|split; [|vm_compute; reflexivity]]; apply (usls_own ident _ toy_digest history44 (fun l => Permutation_refl l) S H); intros i j Hi _ N; apply L in Hi; lia.
Qed.
