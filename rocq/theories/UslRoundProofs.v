(** The parser gives back printed lexemes and words. *)
From Coq Require Import List String Ascii Bool NArith Arith Lia Permutation Sorted.
From Verif Require Import Base Script ScriptParser SortProofs ScriptWf ScriptOrderProofs ScriptSpec ScriptCtorProofs ScriptParseProofs ScriptEqProofs Commons Usl Sfun UslParser OrderTheory UslProofs UslSpec UslSsProofs UslParserProofs SfunProofs SfunListProofs SfunWordProofs.
Import ListNotations.
Local Open Scope string_scope.

Definition made (p : pm) : Prop := exists cs gs, Forall nf cs /\ Forall gok gs /\ p = mk_pm cs gs.
Definition clean (p : pm) : Prop := made p /\ readable p.
Definition clean_lexeme (l : lexeme) : Prop := clean (pm_flexion l) /\ clean (pm_content l).
Lemma clean_ok p : clean p -> pok p. Proof. intros [_ [H _]]. exact H. Qed.
Lemma clean_lok l : clean_lexeme l -> lok l. Proof. intros [H H']. split; now apply clean_ok. Qed.

Definition opt_raw (p : pm) : option raw_pm := if pm_empty p then None else Some (raw_of p).
Definition raw_lex (l : lexeme) : raw_lexeme :=
  if pm_empty (pm_content l) then [opt_raw (pm_flexion l)] else [opt_raw (pm_flexion l); Some (raw_of (pm_content l))].

Lemma tok_paren p : clean p -> Forall2 tokof (Dl "(" :: pm_words p ++ [Dl ")"]) (paren_toks (opt_raw p)).
Proof.
  intros C. pose proof (clean_ok p C) as P. unfold paren_toks, opt_raw. constructor; [constructor|]. apply Forall2_app; [|constructor; constructor]. destruct (pm_empty p) eqn:E.
  - rewrite (empty_words p P E). constructor.
  - apply (tok_pm (raw_of p)). apply raw_good; auto. apply C.
Qed.
Lemma tok_lex l : clean_lexeme l -> Forall2 tokof (lex_words l) (ltoks (raw_lex l)).
Proof.
  intros [F C]. unfold lex_words, raw_lex. pose proof (tok_paren _ F) as TF. pose proof (tok_paren _ C) as TC. unfold opt_raw at 1 in TC. destruct (pm_empty (pm_content l)) eqn:E.
  - cbn [ltoks flat_map]. rewrite app_nil_r. exact TF.
  - cbn [ltoks flat_map]. rewrite app_nil_r.
    replace (Dl "(" :: pm_words (pm_flexion l) ++ Dl ")" :: Dl "(" :: pm_words (pm_content l) ++ [Dl ")"])%list
      with ((Dl "(" :: pm_words (pm_flexion l) ++ [Dl ")"]) ++ (Dl "(" :: pm_words (pm_content l) ++ [Dl ")"]))%list.
    + now apply Forall2_app.
    + cbn [app]. now rewrite <- app_assoc.
Qed.
Lemma vraw_lex l : clean_lexeme l -> vlexeme (raw_lex l).
Proof.
  intros [F C]. assert (V : forall p, clean p -> match opt_raw p with Some q => vpm q | None => True end).
  { intros p Hp. unfold opt_raw. destruct (pm_empty p) eqn:E; auto. apply raw_valid; auto. apply Hp. }
  pose proof (V _ C) as VC. unfold vlexeme, raw_lex. unfold opt_raw in VC. destruct (pm_empty (pm_content l)).
  - split; [unfold opt_raw; now destruct (pm_empty _)|]. constructor; [now apply V|constructor].
  - split; [unfold opt_raw; now destruct (pm_empty _)|]. constructor; [now apply V|constructor; [auto|constructor]].
Qed.

Lemma address_scripts : forallb (fun t => match parse (fun l => l) t with
  | Ok r => (String.eqb (str r) t && match r with Add [_] => false | _ => true end && match old_class t with None => true | _ => false end)%bool | Err _ => false end) ADDRESS_SCRIPTS = true.
Proof. vm_compute. reflexivity. Qed.
Lemma address_nf t : In t ADDRESS_SCRIPTS -> exists s, nf s /\ str s = t /\ old_class t = None.
Proof.
  intros H. pose proof address_scripts as A. rewrite forallb_forall in A. specialize (A t H). destruct (parse _ t) as [r|] eqn:E; [|discriminate].
  apply andb_true_iff in A. destruct A as [A O]. apply andb_true_iff in A. destruct A as [A N]. apply String.eqb_eq in A. exists r. split; [|split; [auto|now destruct (old_class t)]]. split.
  - apply constructible_wf. eapply parse_constructible; [apply set_order_id|exact E].
  - intros x ->. discriminate.
Qed.
Lemma role_nf r : vrole r -> exists l, Forall nf l /\ map str l = r.
Proof.
  induction 1 as [|t r H F (l & N & M)]; [exists []; auto|]. destruct (address_nf t H) as (s & Ns & Ms & _). exists (s :: l). split; [auto|cbn; congruence].
Qed.
Lemma role_goodw r : vrole r -> Forall goodw r.
Proof.
  apply Forall_impl. intros t H. destruct (address_nf t H) as (s & Ns & <- & O). split; [apply str_word, nf_wf; auto|auto].
Qed.

Section Round.
  Variable so : list script -> list script.
  Hypothesis SO : set_order so.
  Lemma e_opt_ok p : clean p -> exists p', e_opt so (opt_raw p) = Ok p' /\ pok p' /\ pm_str p' = pm_str p.
  Proof.
    intros C. pose proof (clean_ok p C) as P. destruct C as [(cs & gs & Hc & Hg & ->) _]. unfold opt_raw. destruct (pm_empty (mk_pm cs gs)) eqn:E.
    - exists (mk_pm [] []). split; [reflexivity|]. split; [apply mk_pm_ok; constructor|]. symmetry. now apply pm_empty_str.
    - destruct (e_pm_ok so SO cs gs Hc Hg) as (p' & E' & P' & K). exists p'. split; [exact E'|]. split; auto. now apply pm_str_key.
  Qed.
  Lemma e_lexeme_ok l : clean_lexeme l -> exists l', e_lexeme so (raw_lex l) = Ok l' /\ lok l' /\ lexeme_str l' = lexeme_str l.
  Proof.
    intros C. pose proof (clean_lok l C) as Lk. destruct C as [CF CC]. destruct (e_opt_ok _ CF) as (f & Ef & Pf & Sf). destruct (e_opt_ok _ CC) as (c & Ec & Pc & Sc).
    unfold raw_lex. unfold opt_raw in Ec. destruct (pm_empty (pm_content l)) eqn:E.
    - exists {| pm_flexion := f; pm_content := mk_pm [] [] |}. unfold e_lexeme. rewrite mapM_step, Ef. cbn [bind mapM]. split; [destruct (opt_raw (pm_flexion l)); reflexivity|].
      assert (L : lok {| pm_flexion := f; pm_content := mk_pm [] [] |}) by (split; [auto|apply mk_pm_ok; constructor]). split; [exact L|]. apply lexeme_str_key; auto. cbn [pm_flexion pm_content]. split; auto.
      apply pm_empty_str in E; [|apply Lk]. rewrite E. reflexivity.
    - exists {| pm_flexion := f; pm_content := c |}. unfold e_lexeme. rewrite mapM_step, Ef. cbn [bind]. rewrite mapM_step, Ec. cbn [bind mapM]. split; [destruct (opt_raw (pm_flexion l)); reflexivity|].
      assert (L : lok {| pm_flexion := f; pm_content := c |}) by (split; auto). split; [exact L|]. apply lexeme_str_key; auto.
  Qed.

  (** ** Polymorphemes and lexemes *)
  Lemma parse_text s u x : s <> "" -> p_proposition (ulex 0 false s) = Some (u, []) -> e_usl so u = Ok x -> usl_parse so s = Ok (x, []).
  Proof. intros N P E. unfold usl_parse. apply String.eqb_neq in N. rewrite N, P, E. reflexivity. Qed.
  Lemma pm_tokens p : clean p -> ulex 0 false (pm_str p) = ptoks (raw_of p).
  Proof.
    intros C. apply (ulex_words _ _ _ _ (le_n _)); [|discriminate]. rewrite <- (app_string_nil (pm_str p)). rewrite split_pm_str; [|now apply clean_ok|now left].
    cbn [split_words flush]. rewrite app_nil_r. apply (tok_pm (raw_of p)). apply raw_good; [now apply clean_ok|apply C].
  Qed.
  Definition lone (p : pm) : Prop := groups p = [] /\ exists s, printed p = [s].
  Lemma parse_pm p : clean p -> pm_empty p = false ->
    exists u, usl_parse so (pm_str p) = Ok (u, []) /\ usl_str u = pm_str p /\
      ((lone p /\ exists s, u = UScript s) \/ (~ lone p /\ exists p', u = UPm p' /\ pok p' /\ pkey p' = pkey p)).
  Proof.
    intros C E. pose proof (clean_ok p C) as P. assert (NE : pm_str p <> "") by (intros X; apply pm_empty_str in X; auto; congruence).
    pose proof (raw_valid p (proj2 C) E) as V. pose proof (pm_tokens p C) as T.
    destruct C as [(cs & gs & Hc & Hg & Ep) _]. destruct (e_pm_ok so SO cs gs Hc Hg) as (p' & E' & P' & K). rewrite <- Ep in *. clear Ep.
    assert (D : (groups p = [] /\ exists s, printed p = [s]) \/ p_usl (ptoks (raw_of p)) = Some (RPm (raw_of p), []) /\ ~ lone p).
    { pose proof (p_pm_ok (raw_of p) [] V ltac:(intros ? ?; discriminate) ltac:(intros ? ?; discriminate)) as Pp. rewrite app_nil_r in Pp. unfold lone.
      unfold p_usl. unfold ptoks in *. cbn [raw_of raw_constant raw_groups] in *. destruct (printed p) as [|s [|s' l]], (groups p) as [|[ms k] gs']; cbn [map flat_map gkey gtoks fst snd app] in *; try (left; eauto; fail);
        right; (split; [rewrite Pp; reflexivity|]); intros [? [? ?]]; discriminate. }
    destruct D as [[G (s & Es)]|[D NL]].
    - assert (Ns : nf s). { destruct P as [[P1 _] _]. rewrite Forall_forall in P1. apply P1. assert (In s (printed p)) as H by (rewrite Es; now left). unfold printed, filter_empty in H. apply filter_In in H. tauto. }
      destruct (parse_str_nf so s SO Ns) as (r & Er & Nr & Sr). exists (UScript r). assert (X : pm_str p = str s) by (rewrite pm_str_parts, Es, G; reflexivity). split; [|split].
      + apply parse_text with (u := RMorpheme (str s)); auto; [|cbn; now rewrite Er]. rewrite T. unfold ptoks. cbn [raw_of raw_constant raw_groups]. rewrite Es, G. reflexivity.
      + cbn. congruence.
      + left. split; [split; eauto|eauto].
    - exists (UPm p'). split; [|split].
      + apply parse_text with (u := RPm (raw_of p)); auto; [|cbn; now rewrite E']. rewrite T. unfold p_proposition. rewrite D. reflexivity.
      + cbn. now apply pm_str_key.
      + right. split; eauto.
  Qed.
  Lemma parse_lexeme l : clean_lexeme l -> exists l', usl_parse so (lexeme_str l) = Ok (ULexeme l', []) /\ lok l' /\ lexeme_str l' = lexeme_str l.
  Proof.
    intros C. destruct (e_lexeme_ok l C) as (l' & E & L & Sl). exists l'. split; [|auto]. apply parse_text with (u := RLexeme (raw_lex l)); [| |cbn; now rewrite E].
    - rewrite lexeme_str_alt. unfold paren. destruct (pm_empty _); [destruct (pm_empty _)|]; discriminate.
    - assert (T : ulex 0 false (lexeme_str l) = ltoks (raw_lex l)).
      { apply (ulex_words _ _ _ _ (le_n _)); [|discriminate]. rewrite <- (app_string_nil (lexeme_str l)). rewrite split_lexeme by now apply clean_lok. cbn [split_words flush]. rewrite app_nil_r. now apply tok_lex. }
      pose proof (p_lexeme_ok (raw_lex l) [] (vraw_lex l C) ltac:(intros ?; discriminate)) as Pl. rewrite app_nil_r in Pl.
      destruct (ltoks_head (raw_lex l) [] (vraw_lex l C)) as (u & Eu). rewrite app_nil_r in Eu. rewrite T. unfold p_proposition, p_usl. rewrite Eu in *. rewrite Pl. reflexivity.
  Qed.

  (** ** Words *)
  Definition row := (role * lexeme)%type.
  Definition part (c : context) (r0 : role) (e : row) : string :=
    (if role_eqb (fst e) r0 then "! " else "") ++ (match context_prefix c with p :: _ => p ++ " " | [] => "" end) ++ role_str (fst e) ++ " " ++ lexeme_str (snd e).
  Definition raw_row (c : context) (r0 : role) (e : row) : raw_entry := (role_eqb (fst e) r0, ((context_prefix c ++ fst e)%list, raw_lex (snd e))).
  Lemma context_vrole c : vrole (context_prefix c).
  Proof. destruct c; cbn; constructor; try constructor; apply ins_In; vm_compute; reflexivity. Qed.
  Lemma split_words_blank ws r : Forall wordy ws -> split_words "" (join " " ws ++ " " ++ r) = (map Wd ws ++ split_words "" r)%list.
  Proof.
    induction 1 as [|w ws Hw F IH]; [reflexivity|]. destruct ws as [|w' ws]; [cbn [join map app]; now apply split_blank|].
    rewrite join_cons2, !app_string_assoc, split_blank by auto. rewrite IH. reflexivity.
  Qed.
  Lemma split_part c r0 e r : vrole (fst e) -> clean_lexeme (snd e) ->
    split_words "" (part c r0 e ++ r) = ((if role_eqb (fst e) r0 then [Dl "!"] else []) ++ map Wd (context_prefix c ++ fst e) ++ lex_words (snd e) ++ split_words "" r)%list.
  Proof.
    intros V C. unfold part. rewrite !app_string_assoc.
    assert (X : split_words "" ((match context_prefix c with p :: _ => p ++ " " | [] => "" end) ++ role_str (fst e) ++ " " ++ lexeme_str (snd e) ++ r) =
      (map Wd (context_prefix c ++ fst e) ++ lex_words (snd e) ++ split_words "" r)%list).
    { assert (Y : split_words "" (role_str (fst e) ++ " " ++ lexeme_str (snd e) ++ r) = (map Wd (fst e) ++ lex_words (snd e) ++ split_words "" r)%list).
      { unfold role_str. rewrite split_words_blank by now apply vrole_wordy. now rewrite split_lexeme by now apply clean_lok. }
      pose proof (vrole_wordy _ (context_vrole c)) as W. destruct c; cbn [context_prefix] in *; [exact Y|..]; cbv iota;
        (rewrite app_string_assoc, split_blank, Y; [reflexivity|]); now apply Forall_cons_iff in W. }
    destruct (role_eqb (fst e) r0); cbn [append app]; [|exact X].
    rewrite split_delim0; [|reflexivity|discriminate]. f_equal. exact X.
  Qed.
  Lemma split_sep r : split_words "" (" > " ++ r) = Dl ">" :: split_words "" r. Proof. reflexivity. Qed.
  Lemma tok_rows c r0 L : L <> [] -> Forall (fun e : row => vrole (fst e) /\ clean_lexeme (snd e)) L ->
    Forall2 tokof (split_words "" (join " > " (map (part c r0) L) ++ "]")) (estoks (map (raw_row c r0) L) ++ [URbr]).
  Proof.
    assert (P : forall e r ts, vrole (fst e) -> clean_lexeme (snd e) -> Forall2 tokof (split_words "" r) ts ->
      Forall2 tokof (split_words "" (part c r0 e ++ r)) (etoks (raw_row c r0 e) ++ ts)).
    { intros e r ts V C F. rewrite split_part by auto. unfold etoks, raw_row. cbn [fst snd]. rewrite <- !app_assoc. apply Forall2_app; [destruct (role_eqb (fst e) r0); constructor; constructor|].
      apply Forall2_app; [|apply Forall2_app; auto; now apply tok_lex]. apply tok_words, role_goodw, Forall_app. split; [apply context_vrole|auto]. }
    intros N F. induction F as [|e L [V C] F IH]; [congruence|]. destruct L as [|e' L].
    - cbn [map join estoks]. apply P; auto. cbn. constructor; constructor.
    - cbn [map]. rewrite join_cons2. rewrite app_string_assoc. change (estoks (raw_row c r0 e :: raw_row c r0 e' :: map (raw_row c r0) L)) with (etoks (raw_row c r0 e) ++ UChevron :: estoks (map (raw_row c r0) (e' :: L)))%list.
      rewrite <- app_assoc. apply P; auto. rewrite app_string_assoc, split_sep. constructor; [constructor|]. apply IH. discriminate.
  Qed.
End Round.

Section Words.
  Notation nonjun := (fun e : role * sfun lexeme => negb (is_jun (snd e))).
  Notation rlt := (fun a b : role * sfun lexeme => role_lt (fst a) (fst b)).
  Notation lst := (lst lexeme). Notation cvalid := (cvalid lexeme).
  Definition krows (f : sfun lexeme) : list (role * string) := map (fun e => (fst e, actor_str (actor_of (snd e)))) (filter nonjun (sort rlt (actors f))).
  Definition kstr (e : role * option lexeme) : role * string := (fst e, actor_str (snd e)).

  Lemma filter_perm {A} (p : A -> bool) l l' : Permutation l l' -> Permutation (filter p l) (filter p l').
  Proof. induction 1; cbn; auto; repeat match goal with |- context [if ?b then _ else _] => destruct b end; auto using perm_swap. eapply perm_trans; eauto. Qed.
  Lemma sorted_perm_lst f : Permutation (map (fun e => (fst e, actor_of (snd e))) (filter nonjun (sort rlt (actors f)))) (lst f).
  Proof. apply Permutation_map, filter_perm, sort_perm. Qed.
  Lemma krows_perm f : Permutation (krows f) (map kstr (lst f)).
  Proof.
    unfold krows. rewrite <- (map_map (fun e => (fst e, actor_of (snd e))) kstr). apply Permutation_map, sorted_perm_lst.
  Qed.
  Lemma order_row (K : Type) : order (fun e : role * K => vrole (fst e)) fst (fun a b => role_eqb (fst a) (fst b)) (fun a b => role_lt (fst a) (fst b)).
  Proof. destruct order_role as [O1 O2 O3 O4]. split; intros; eauto. Qed.
  Lemma filter_sorted {A} (lt : A -> A -> bool) p l : weak_sorted lt l -> weak_sorted lt (filter p l).
  Proof.
    unfold weak_sorted. induction 1 as [|x l S IH F]; cbn; [constructor|]. destruct (p x); auto. constructor; auto. rewrite Forall_forall in *. intros y Hy. apply filter_In in Hy. apply F. tauto.
  Qed.
  Lemma krows_keys c f : cvalid c f -> Forall (fun e => vrole (fst e)) (krows f) /\ NoDup (map fst (krows f)) /\ weak_sorted (fun a b => role_lt (fst a) (fst b)) (krows f).
  Proof.
    intros V. assert (F : Forall (fun e : role * sfun lexeme => vrole (fst e)) (actors f)) by (apply Forall_forall; intros [r g] H; eapply actors_roles; eauto).
    assert (Fs : Forall (fun e : role * sfun lexeme => vrole (fst e)) (sort rlt (actors f))) by (eapply Permutation_Forall; [apply Permutation_sym, sort_perm|exact F]). split; [|split].
    - unfold krows. rewrite Forall_map, Forall_forall in *. intros e He. apply filter_In in He. apply Fs. tauto.
    - unfold krows. rewrite map_map. cbn [fst]. assert (N : NoDup (map fst (sort rlt (actors f)))) by (eapply Permutation_NoDup; [apply Permutation_map, Permutation_sym, sort_perm|eapply actors_nodup_c; eauto]).
      clear -N. induction (sort rlt (actors f)) as [|e l IH]; cbn; [constructor|]. cbn in N. apply NoDup_cons_iff in N. destruct (negb (is_jun (snd e))); [|tauto]. cbn. constructor; [|tauto].
      intros H. apply (proj1 N). apply in_map_iff in H. destruct H as (x & E & H). apply filter_In in H. apply in_map_iff. exists x. tauto.
    - pose proof (filter_sorted rlt nonjun _ (o_sorted (order_row (sfun lexeme)) _ F)) as S. unfold krows. clear -S. unfold weak_sorted in *. induction S as [|x l S IH H]; cbn; constructor; auto.
      rewrite Forall_map. exact H.
  Qed.
  Lemma krows_eq c f f' : cvalid c f -> cvalid c f' -> Permutation (map kstr (lst f')) (map kstr (lst f)) -> krows f' = krows f.
  Proof.
    intros V V' P. destruct (krows_keys c f V) as (F & N & S). destruct (krows_keys c f' V') as (F' & N' & S').
    assert (Q : Permutation (krows f') (krows f)) by (eapply perm_trans; [apply krows_perm|]; eapply perm_trans; [exact P|apply Permutation_sym, krows_perm]).
    apply perm_fst_eq; auto. apply (o_unique (order_row string)); auto. now apply Permutation_map.
  Qed.

  Lemma expansion_single c f r : cvalid c f -> In r (map fst (as_list c f)) ->
    exists r0, r = (context_prefix c ++ r0)%list /\ vrole r0 /\ In r0 (map fst (lst f)) /\ role_expansion f r (context_prefix c) = Ok [r0].
  Proof.
    intros V H. rewrite as_list_lst in H. apply in_map_iff in H. destruct H as ([r' x] & E & H). cbn in E. subst r'. apply pre_in in H. destruct H as (r0 & E & H). cbn [fst snd] in *. exists r0. split; auto.
    pose proof H as H'. unfold SfunProofs.lst in H'. apply in_map_iff in H'. destruct H' as ([r1 g] & E1 & Hg). cbn in E1. injection E1 as <- E1. apply filter_In in Hg. destruct Hg as [Hg J]. cbn in J.
    assert (Vr : vrole r1) by (eapply actors_roles; eauto). split; [auto|]. split; [change r1 with (fst (r1, x)); now apply in_map|]. subst r. unfold role_expansion.
    replace (skipn (List.length (context_prefix c)) (context_prefix c ++ r1)) with r1 by (rewrite skipn_app, skipn_all, Nat.sub_diag; reflexivity).
    cbn [expand]. rewrite (node_at_in _ c f r1 g V Vr Hg). destruct g; try discriminate; reflexivity.
  Qed.
  Definition word_text (c : context) (r0 : role) (ks : list (role * string)) : string :=
    "[" ++ join " > " (map (fun k => (if role_eqb (fst k) r0 then "! " else "") ++ (match context_prefix c with p :: _ => p ++ " " | [] => "" end) ++ role_str (fst k) ++ " " ++ snd k) ks) ++ "]".
  Lemma render_single c f r r0 : role_expansion f r (context_prefix c) = Ok [r0] -> render f r c = Ok (word_text c r0 (krows f)).
  Proof.
    intros E. unfold render, word_text, krows. rewrite E. cbn [bind]. f_equal. f_equal. f_equal. rewrite map_map. f_equal. apply map_ext. intros e. cbn [fst snd existsb]. now rewrite orb_false_r.
  Qed.

  Variable so : list script -> list script.
  Hypothesis SO : set_order so.
  Lemma e_entry_ok c r0 e : vrole (fst e) -> clean_lexeme (snd e) -> exists l', e_entry so (raw_row c r0 e) = Ok (role_eqb (fst e) r0, ((context_prefix c ++ fst e)%list, l')) /\ lexeme_str l' = lexeme_str (snd e).
  Proof.
    intros V C. destruct (e_lexeme_ok so SO _ C) as (l' & El & _ & Sl). exists l'. split; auto. unfold e_entry, raw_row. cbn [fst snd].
    destruct (role_nf (context_prefix c ++ fst e)%list) as (ss & Ns & Ms); [apply Forall_app; split; [apply context_vrole|auto]|].
    destruct (e_morphemes_ok so SO ss Ns) as (ss' & E & _ & M). rewrite <- Ms, E. cbn [bind]. rewrite El. cbn [bind]. now rewrite M.
  Qed.
  Lemma e_rows_ok c r0 L : Forall (fun e : row => vrole (fst e) /\ clean_lexeme (snd e)) L ->
    exists M : list row, mapM (e_entry so) (map (raw_row c r0) L) = Ok (map (fun e => (role_eqb (fst e) r0, ((context_prefix c ++ fst e)%list, snd e))) M) /\
      Forall2 (fun e' e : row => fst e' = fst e /\ lexeme_str (snd e') = lexeme_str (snd e)) M L.
  Proof.
    induction 1 as [|e L [V C] F (M & E & F2)]; [exists []; split; [reflexivity|constructor]|]. destruct (e_entry_ok c r0 e V C) as (l' & El & Sl).
    exists ((fst e, l') :: M). cbn [map fst snd]. rewrite mapM_step, El. cbn [bind]. rewrite E. cbn [bind]. split; [reflexivity|]. constructor; auto.
  Qed.
  Lemma last_mark_ok c r0 (M : list row) : Forall (fun e => vrole (fst e)) M -> vrole r0 -> In r0 (map fst M) ->
    last_mark (map (fun e => (role_eqb (fst e) r0, ((context_prefix c ++ fst e)%list, snd e))) M) = (context_prefix c ++ r0)%list.
  Proof.
    intros F V. unfold last_mark. assert (X : forall M acc, Forall (fun e : row => vrole (fst e)) M -> acc = (context_prefix c ++ r0)%list \/ In r0 (map fst M) ->
      fold_left (fun (acc : role) (e : bool * (role * lexeme)) => if fst e then fst (snd e) else acc) (map (fun e : row => (role_eqb (fst e) r0, ((context_prefix c ++ fst e)%list, snd e))) M) acc = (context_prefix c ++ r0)%list).
    { clear M F. induction M as [|e M IH]; intros acc F H; cbn.
      - destruct H as [H|[]]. auto.
      - apply Forall_cons_iff in F. destruct F as [Ve F]. apply IH; auto. destruct (role_eqb (fst e) r0) eqn:E.
        + apply role_eqb_eq in E; auto. left. now rewrite E.
        + destruct H as [H|[H|H]]; auto. exfalso. rewrite H in E. assert (role_eqb r0 r0 = true) by (apply role_eqb_eq; auto). congruence. }
    intros H. apply X; auto.
  Qed.
  Lemma same_actants_list c f f' : same_actants lexeme f f' -> Permutation (as_list c f') (as_list c f).
  Proof.
    intros [->|(x & v & acts & acts' & -> & -> & Q)]; [reflexivity|]. rewrite !as_list_lst. unfold pre. apply Permutation_map.
    rewrite !lst_proc. apply perm_skip. clear -Q. induction Q; cbn; auto.
    + now apply Permutation_app_head.
    + rewrite !app_assoc. apply Permutation_app_tail, Permutation_app_comm.
    + eapply Permutation_trans; eauto.
  Qed.
  Lemma pre_map_inj p (l l' : list (role * option lexeme)) : Permutation (pre lexeme p l) (pre lexeme p l') -> Permutation l l'.
  Proof.
    intros P. unfold pre in P. apply (Permutation_map (fun e : role * option lexeme => (skipn (List.length p) (fst e), snd e))) in P. rewrite !map_map in P. cbn [fst snd] in P.
    assert (X : forall m : list (role * option lexeme), map (fun e => (skipn (List.length p) (p ++ fst e), snd e)) m = m).
    { intros m. rewrite <- (map_id m) at 2. apply map_ext. intros [r x]. cbn. f_equal. rewrite skipn_app, skipn_all, Nat.sub_diag. reflexivity. }
    now rewrite !X in P.
  Qed.

  Lemma F2_map_eq {A B K} (R : A -> B -> Prop) (g : A -> K) (h : B -> K) l m : Forall2 R l m -> (forall a b, R a b -> g a = h b) -> map g l = map h m.
  Proof. intros F H. induction F; cbn; [reflexivity|]. f_equal; auto. Qed.
  Lemma rows_no_chevron c r0 (L : list row) ts : L <> [] -> Forall (fun e => vrole (fst e) /\ clean_lexeme (snd e)) L -> (estoks (map (raw_row c r0) L) ++ [URbr])%list <> UChevron :: ts.
  Proof.
    intros NL FL X2. destruct L as [|e L]; [congruence|]. apply Forall_cons_iff in FL. destruct FL as [[Ve Ce] _].
    cbn [map] in X2. assert (Y : forall rest, (etoks (raw_row c r0 e) ++ rest)%list <> UChevron :: ts).
    { intros rest Y. unfold etoks, raw_row in Y. cbn [fst snd] in Y. destruct (role_eqb (fst e) r0); [discriminate|]. destruct (context_prefix c ++ fst e)%list; [|discriminate]. cbn [map app] in Y.
      destruct (ltoks_head (raw_lex (snd e)) rest (vraw_lex _ Ce)) as (u & Eu). rewrite Eu in Y. discriminate. }
    destruct L as [|e' L]; [eapply Y; exact X2|]. change (estoks (raw_row c r0 e :: map (raw_row c r0) (e' :: L))) with (etoks (raw_row c r0 e) ++ UChevron :: estoks (map (raw_row c r0) (e' :: L)))%list in X2.
    rewrite <- app_assoc in X2. eapply Y. exact X2.
  Qed.
  Lemma parse_word f r c w : cvalid c f -> mk_word f r c = Ok w ->
    Forall (fun e => exists l, snd e = Some l /\ clean_lexeme l) (as_list c f) -> In r (map fst (as_list c f)) ->
    exists w', usl_parse so (w_str w) = Ok (UWord w', []) /\ w_str w' = w_str w /\ w_role w' = w_role w /\ w_context w' = w_context w /\ w_class w' = w_class w /\
      Permutation (map kstr (as_list c (w_fun w'))) (map kstr (as_list c f)).
  Proof.
    intros V W C H. destruct (expansion_single c f r V H) as (r0 & Er & Vr & Hr & Ex). pose proof (render_single c f r r0 Ex) as R.
    assert (CL : exists L : list row, map (fun e => (fst e, Some (snd e))) L = map (fun e => (fst e, actor_of (snd e))) (filter nonjun (sort rlt (actors f))) /\ Forall (fun e => vrole (fst e) /\ clean_lexeme (snd e)) L).
    { assert (F : Forall (fun e => vrole (fst e) /\ exists l, snd e = Some l /\ clean_lexeme l) (map (fun e => (fst e, actor_of (snd e))) (filter nonjun (sort rlt (actors f))))).
      { eapply Permutation_Forall; [apply Permutation_sym, sorted_perm_lst|]. rewrite as_list_lst in C. unfold pre in C. rewrite Forall_map in C. apply Forall_forall. intros e He.
        rewrite Forall_forall in C. specialize (C e He). split; [|exact C]. unfold SfunProofs.lst in He. apply in_map_iff in He. destruct He as ([q g] & <- & Hq). apply filter_In in Hq. cbn. eapply actors_roles; [exact V|apply Hq]. }
      clear -F. induction F as [|[q x] l (V & y & Ey & C) F (L & E & FL)]; [exists []; auto|]. exists ((q, y) :: L). cbn in Ey. subst x. cbn. rewrite E. auto. }
    destruct CL as (L & EL & FL).
    assert (Kr : krows f = map (fun e : row => (fst e, lexeme_str (snd e))) L).
    { unfold krows. transitivity (map kstr (map (fun e => (fst e, actor_of (snd e))) (filter nonjun (sort rlt (actors f))))); [now rewrite map_map|]. rewrite <- EL, map_map. reflexivity. }
    assert (NL : L <> []). { intros ->. cbn in EL. pose proof (sorted_perm_lst f) as Z. rewrite <- EL in Z. apply Permutation_nil in Z. rewrite Z in Hr. destruct Hr. }
    assert (Wr : w_str w = word_text c r0 (krows f) /\ w_role w = r /\ w_context w = c /\ class_from_address r = Ok (w_class w)).
    { unfold mk_word in W. rewrite R in W. cbn [bind] in W. destruct (class_from_address r); [|discriminate]. injection W as <-. auto. }
    destruct Wr as (Ws & Wro & Wc & Wk). assert (Tx : w_str w = "[" ++ join " > " (map (part c r0) L) ++ "]").
    { rewrite Ws, Kr. unfold word_text. rewrite map_map. reflexivity. }
    (* tokens *)
    pose proof (tok_rows c r0 L NL FL) as TR.
    assert (FV : Forall (fun e => vlexeme (snd (snd e))) (map (raw_row c r0) L)).
    { rewrite Forall_map. eapply Forall_impl; [|exact FL]. intros e [_ Ce]. cbn. now apply vraw_lex. }
    assert (NR : map (raw_row c r0) L <> []) by (destruct L; [congruence|discriminate]).
    assert (TK : ulex 0 false (w_str w) = (ULbr :: estoks (map (raw_row c r0) L) ++ [URbr])%list).
    { rewrite Tx. cbn [append]. rewrite ulex_lbr. f_equal. apply (ulex_words _ _ _ _ (le_n _) TR). intros _ x Ex'. rewrite Ex' in TR. rewrite split_delim0 in TR; [|reflexivity|discriminate].
      inversion TR as [|? t ? ts T1 T2 X1 X2].
      assert (t = UChevron) as Et by now inversion T1. rewrite Et in X2. eapply rows_no_chevron; [exact NL|exact FL|symmetry; exact X2]. }
    (* evaluation *)
    destruct (e_rows_ok c r0 L FL) as (M & EM & FM).
    assert (Mk : map fst M = map fst L). { clear -FM. induction FM as [|a b M L [E _] F IH]; cbn; congruence. }
    assert (FMv : Forall (fun e : row => vrole (fst e)) M).
    { apply (proj1 (Forall_map fst vrole M)). rewrite Mk. apply (proj2 (Forall_map fst vrole L)). eapply Forall_impl; [|exact FL]. cbn. tauto. }
    assert (Hr0 : In r0 (map fst M)).
    { rewrite Mk. assert (map fst L = map fst (map (fun e => (fst e, actor_of (snd e))) (filter nonjun (sort rlt (actors f))))) as -> by (rewrite <- EL, map_map; reflexivity).
      eapply Permutation_in; [apply Permutation_map, Permutation_sym, sorted_perm_lst|exact Hr]. }
    pose proof (last_mark_ok c r0 M FMv Vr Hr0) as LM.
    set (EN := map (fun e : row => ((context_prefix c ++ fst e)%list, Some (snd e))) M).
    assert (PM : exists m', Permutation EN m' /\ Forall2 (fun e' e => fst e' = fst e /\ kstr e' = kstr e) m' (as_list c f)).
    { apply (Forall2_perm _ (map (fun e : row => ((context_prefix c ++ fst e)%list, Some (snd e))) L)).
      - rewrite as_list_lst. unfold pre. pose proof (f_equal (map (fun e : role * option lexeme => ((context_prefix c ++ fst e)%list, snd e))) EL) as EL2. rewrite map_map in EL2.
        eapply perm_trans; [apply Permutation_refl'; exact EL2|]. apply Permutation_map, sorted_perm_lst.
      - unfold EN. clear -FM. induction FM as [|a b M L [E1 E2] F IH]; cbn; constructor; auto. unfold kstr. cbn. rewrite E1, E2. auto. }
    destruct PM as (m' & Pm & Fm). assert (Km : map fst m' = map fst (as_list c f)) by (eapply F2_map_eq; [exact Fm|]; cbn; tauto).
    assert (Sm : map kstr m' = map kstr (as_list c f)) by (eapply F2_map_eq; [exact Fm|]; cbn; tauto).
    destruct (refill_c lexeme c f V m' Km) as (f2 & V2 & E2 & _).
    destruct (from_list_perm lexeme c f2 EN V2) as (f3 & E3 & S3); [rewrite E2; exact Pm|]. pose proof (from_list_inv lexeme _ _ _ E3) as [V3 _].
    pose proof (same_actants_list c f2 f3 S3) as P3. rewrite E2 in P3.
    assert (H3 : In r (map fst (as_list c f3))). { eapply Permutation_in; [apply Permutation_map, Permutation_sym, P3|]. exact (eq_ind_r (fun l => In r l) H Km). }
    destruct (expansion_single c f3 r V3 H3) as (r3 & Er3 & _ & _ & Ex3). assert (r3 = r0) by (rewrite Er in Er3; now apply app_inv_head in Er3). subst r3.
    assert (P3' : Permutation (map kstr (as_list c f3)) (map kstr (as_list c f))) by (rewrite <- Sm; now apply Permutation_map).
    assert (K3 : krows f3 = krows f).
    { apply (krows_eq c); auto. rewrite !as_list_lst in P3'. unfold pre in P3'. rewrite !map_map in P3'. unfold kstr in P3'. cbn [fst snd] in P3'.
      apply (Permutation_map (fun e : role * string => (skipn (List.length (context_prefix c)) (fst e), snd e))) in P3'. rewrite !map_map in P3'. cbn [fst snd] in P3'.
      assert (X : forall m : list (role * option lexeme), map (fun e => (skipn (List.length (context_prefix c)) (context_prefix c ++ fst e), actor_str (snd e))) m = map kstr m).
      { intros m. apply map_ext. intros [q x]. unfold kstr. cbn. f_equal. rewrite skipn_app, skipn_all, Nat.sub_diag. reflexivity. }
      now rewrite !X in P3'. }
    exists {| w_fun := f3; w_role := r; w_context := c; w_str := w_str w; w_class := w_class w |}. cbn [w_str w_role w_context w_class w_fun]. split; [|repeat split; auto].
    apply parse_text with (u := RWord (map (raw_row c r0) L)).
    - rewrite Tx. discriminate.
    - rewrite TK. unfold p_proposition, p_usl. pose proof (p_word_ok _ [] NR FV) as Pw. rewrite Pw. reflexivity.
    - cbn [e_usl]. unfold e_word. rewrite EM. cbn [bind]. rewrite LM, map_map. cbn [fst snd]. fold EN. unfold word_of. rewrite <- Er.
      assert (NEr : r <> []). { intros ->. unfold class_from_address in Wk. cbn in Wk. discriminate. }
      destruct r as [|a r']; [congruence|]. match goal with |- context [from_list ?x] => change (from_list x) with (@from_list lexeme EN) end. rewrite E3. cbn [bind fst snd].
      assert (VR : mk_role (a :: r') = Ok (a :: r')).
      { unfold mk_role. assert (A : vrole (a :: r')) by (rewrite Er; apply Forall_app; split; [apply context_vrole|auto]). replace (forallb _ _) with true; [reflexivity|]. symmetry. apply forallb_forall. intros s Hs.
        unfold vrole in A. rewrite Forall_forall in A. apply ins_In. auto. }
      rewrite VR. cbn [bind]. unfold mk_word. rewrite (render_single c f3 _ r0 Ex3), K3. cbn [bind]. rewrite Wk. cbn [bind]. now rewrite <- Ws.
  Qed.
End Words.
