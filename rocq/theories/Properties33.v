(** Properties of the tables of lexemes: C89. *)
From Coq Require Import List String Bool NArith Arith Lia Permutation Sorting.
From Verif Require Import Base Script ScriptParser SortProofs ScriptWf ScriptOrderProofs ScriptSpec ScriptMoreProofs Commons Usl UslSpec OrderTheory UslProofs UslSsProofs Properties1 Properties8
  Sfun Properties9 UslParser UslParserProofs UslRoundProofs UslGrammar Path PathBuildProofs RebuildSpec Properties10 Properties12 Instance UslTable UslTableProofs UslTableSpec UslTableOrderProofs UslTableSsProofs Properties20 LexTableSpec LexTableProofs LexTableSsProofs.
Import ListNotations.
Local Open Scope string_scope.

(** The rows can be named, or left to what is not in the columns. *)
Definition rows_choice (b : bool) : option path := if b then Some content_path else None.
Section Tables.
  (** Any order of the sets of scripts and of paths, any order of words. *)
  Variable so : list script -> list script.
  Variable po : list path -> list path.
  Variable wl : word -> word -> bool.
  Hypothesis SO : set_order so.
  Hypothesis PO : forall l, Permutation (po l) l.
  Notation cells_of x b := (table_cells so po wl (ULexeme x) flexion_path (rows_choice b)).
  Notation rows_of x b := (table_rows so po wl (ULexeme x) flexion_path (rows_choice b)).

  (** * C89 *)
  (** The table of a lexeme has a column for each singular sequence of its flexion, a row for each
      choice in the groups of its content, and the cell where they meet is the lexeme of both. *)
  Theorem C89_cells : forall x b, lexeme_tabular x ->
    exists cells cs rs, cells_of x b = Ok cells /\
      Permutation (map pm_str cs) (map pm_str (pm_ss so (pm_flexion x))) /\
      Permutation (map pm_str rs) (map pm_str (pm_ss so (content_choices x))) /\
      map (map usl_str) cells = map (fun r => map (fun c => lexeme_str (lexeme_at x c r)) cs) rs.
  Proof.
    intros x b ((HF & HC) & NR). destruct (lex_spec so po wl SO PO x (flexion_good _ HF) (content_good _ HC) NR b) as (cs & rs & cells & hs & PC & PR & FC & FR & SC & SR & Ec & Eh & Fc & Fh).
    exists cells, cs, rs. split; [exact Ec|]. split; [exact PC|]. split; [exact PR|]. now apply (lgrid_texts x).
  Qed.
  (** No two cells are equal. *)
  Theorem C89_distinct : forall x b cells, lexeme_tabular x -> cells_of x b = Ok cells -> NoDup (List.concat (map (map usl_str) cells)).
  Proof.
    intros x b cells0 ((HF & HC) & NR) E. pose proof (flexion_good _ HF) as GF. pose proof (content_good _ HC) as G. destruct (lex_spec so po wl SO PO x GF G NR b) as (cs & rs & cells & hs & PC & PR & FC & FR & SC & SR & Ec & Eh & Fc & Fh).
    assert (cells0 = cells) by (unfold rows_choice in E; congruence). subst cells0. apply (lgrid_distinct x G cs rs cells); auto.
    - eapply Permutation_NoDup; [apply Permutation_sym, PC|]. apply ss_nodup; [exact SO|apply clean_ok, GF].
    - eapply Permutation_NoDup; [apply Permutation_sym, PR|]. apply ss_nodup; [exact SO|]. rewrite <- (rowpm_choices x G). now apply rowpm_ok.
  Qed.
  (** The cells are the singular sequences of the lexeme, each once. Missing: groups of the content of
      which several morphemes can be taken, or of one morpheme, and more than five morphemes. *)
  Theorem C89_exact_partial : forall x b cells, lexeme_tabular x -> cells_of x b = Ok cells ->
    (forall h, In h (groups (pm_content x)) -> snd h = 1 /\ 2 <= List.length (fst h)) ->
    List.length (constant (pm_content x)) + List.length (groups (pm_content x)) <= 5 -> shown_flexion (pm_flexion x) ->
    (forall t, In t (map lexeme_str (lexeme_ss so x)) <-> In t (List.concat (map (map usl_str) cells))).
  Proof.
    intros x b cells0 ((HF & HC) & NR) E Sg L Sh t. pose proof (flexion_good _ HF) as GF. pose proof (content_good _ HC) as G. destruct (lex_spec so po wl SO PO x GF G NR b) as (cs & rs & cells & hs & PC & PR & FC & FR & SC & SR & Ec & Eh & Fc & Fh).
    assert (cells0 = cells) by (unfold rows_choice in E; congruence). subst cells0. assert (Sg' : single_groups (groups (pm_content x))) by (apply Forall_forall; exact Sg).
    rewrite (lex_exact so SO x GF G NR cs rs t PC PR FC FR Sh Sg' L). rewrite (lgrid_texts x cs rs cells Fc), in_concat. split.
    - intros (c & r & Hc & Hr & ->). exists (map (fun c => lexeme_str (lexeme_at x c r)) cs). split; [apply in_map_iff; eauto|]. apply in_map_iff. eauto.
    - intros (l & Hl & Ht). apply in_map_iff in Hl. destruct Hl as (r & <- & Hr). apply in_map_iff in Ht. destruct Ht as (c & <- & Hc). eauto.
  Qed.
  (** The rows and the columns are in the order of USLs. *)
  Theorem C89_order : forall x b cells, lexeme_tabular x -> cells_of x b = Ok cells ->
    (forall row, In row cells -> increasing (fun x y => usl_lt wl x y = true) row) /\ increasing (Forall2 (fun x y => usl_lt wl x y = true)) cells.
  Proof.
    intros x b cells0 ((HF & HC) & NR) E. pose proof (flexion_good _ HF) as GF. pose proof (content_good _ HC) as G. destruct (lex_spec so po wl SO PO x GF G NR b) as (cs & rs & cells & hs & PC & PR & FC & FR & SC & SR & Ec & Eh & Fc & Fh).
    assert (cells0 = cells) by (unfold rows_choice in E; congruence). subst cells0. split.
    - pose proof (lgrid_rows wl x G cs rs cells FC FR SC Fc) as F. rewrite Forall_forall in F. intros row Hr. apply sorted_increasing. auto.
    - apply sorted_increasing. now apply (lgrid_columns wl x cs rs cells).
  Qed.
  (** The header of a row has the flexion of the lexeme and the content of the row, and the headers are
      in the order of USLs. Missing: flexions with groups and five constants (see the refutation). *)
  Theorem C89_headers_partial : forall x b, lexeme_tabular x -> shown_flexion (pm_flexion x) ->
    exists cells hs cs rs, cells_of x b = Ok cells /\ rows_of x b = Ok hs /\
      map (map usl_str) cells = map (fun r => map (fun c => lexeme_str (lexeme_at x c r)) cs) rs /\
      map usl_str hs = map (fun r => lexeme_str (lexeme_at x (pm_flexion x) r)) rs /\
      increasing (fun x y => usl_lt wl x y = true) hs.
  Proof.
    intros x b ((HF & HC) & NR) Sh. pose proof (flexion_good _ HF) as GF. pose proof (content_good _ HC) as G. destruct (lex_spec so po wl SO PO x GF G NR b) as (cs & rs & cells & hs & PC & PR & FC & FR & SC & SR & Ec & Eh & Fc & Fh).
    exists cells, hs, cs, rs. split; [exact Ec|]. split; [exact Eh|]. split; [now apply (lgrid_texts x)|]. split; [apply (lheader_texts x); auto|]. apply sorted_increasing. apply (lheader_rows wl x GF rs hs FR SR). auto.
  Qed.
  (** The cells of a row are the singular sequences of its header. Missing: the same. *)
  Theorem C89_row_paradigm_partial : forall x b cells hs, lexeme_tabular x -> shown_flexion (pm_flexion x) -> cells_of x b = Ok cells -> rows_of x b = Ok hs ->
    Forall2 (fun h row => exists p, h = ULexeme p /\ Permutation (map lexeme_str (lexeme_ss so p)) (map usl_str row)) hs cells.
  Proof.
    intros x b cells0 hs0 ((HF & HC) & NR) Sh E E'. pose proof (flexion_good _ HF) as GF. pose proof (content_good _ HC) as G. destruct (lex_spec so po wl SO PO x GF G NR b) as (cs & rs & cells & hs & PC & PR & FC & FR & SC & SR & Ec & Eh & Fc & Fh).
    assert (cells0 = cells) by (unfold rows_choice in E; congruence). assert (hs0 = hs) by (unfold rows_choice in E'; congruence). subst cells0 hs0. specialize (Fh Sh). clear PR SR Ec Eh E E'.
    revert hs Fh FR. induction Fc as [|r l rs cells Fl Fc IH]; intros hs Fh FR; inversion Fh as [|? y ? hs' (p & -> & Lp & La & Ep) Fh']; subst; [constructor|]. apply Forall_cons_iff in FR. destruct FR as [Fr FR]. constructor; [|now apply IH].
    exists p. split; [reflexivity|]. rewrite (header_ss so SO x GF G cs r p PC FC Fr Sh Lp Ep).
    assert (X : map usl_str l = map (fun c => lexeme_str (lexeme_at x c r)) cs); [|now rewrite X]. eapply F2_map; [exact Fl|]. intros c y _ (q & -> & _ & _ & Eq). exact Eq.
  Qed.
End Tables.
Print Assumptions C89_cells.
Print Assumptions C89_distinct.
Print Assumptions C89_exact_partial.
Print Assumptions C89_order.
Print Assumptions C89_headers_partial.
Print Assumptions C89_row_paradigm_partial.
(** The cells depend neither on the orders of the sets nor on whether the rows are named. *)
Theorem C89_deterministic : forall so so' po po' wl wl' x b b' cells cells', set_order so -> set_order so' -> (forall l, Permutation (po l) l) -> (forall l, Permutation (po' l) l) ->
  lexeme_tabular x -> table_cells so po wl (ULexeme x) flexion_path (rows_choice b) = Ok cells -> table_cells so' po' wl' (ULexeme x) flexion_path (rows_choice b') = Ok cells' ->
  map (map usl_str) cells = map (map usl_str) cells'.
Proof.
  intros so so' po po' wl wl' x b b' c1 c2 SO SO' PO PO' ((HF & HC) & NR) E1 E2. pose proof (flexion_good _ HF) as GF. pose proof (content_good _ HC) as G.
  destruct (lex_spec so po wl SO PO x GF G NR b) as (cs & rs & cells & hs & PC & PR & FC & FR & SC & SR & Ec & Eh & Fc & Fh).
  destruct (lex_spec so' po' wl' SO' PO' x GF G NR b') as (cs' & rs' & cells' & hs' & PC' & PR' & FC' & FR' & SC' & SR' & Ec' & Eh' & Fc' & Fh').
  assert (c1 = cells) by (unfold rows_choice in E1; congruence). assert (c2 = cells') by (unfold rows_choice in E2; congruence). subst c1 c2.
  assert (Xc : map pm_str cs = map pm_str cs').
  { apply (o_unique order_pm); auto.
    - refine (sorted_weaken _ _ _ _ FC _ SC). intros a c Pa Pc L. now apply (o_asym order_pm).
    - refine (sorted_weaken _ _ _ _ FC' _ SC'). intros a c Pa Pc L. now apply (o_asym order_pm).
    - rewrite PC, PC'. apply ss_orders; auto. apply clean_ok, GF. }
  assert (Xr : map pm_str rs = map pm_str rs').
  { apply (rows_unique x G rs rs' FR FR' SR SR'). rewrite PR, PR'. apply ss_orders; auto. rewrite <- (rowpm_choices x G). now apply rowpm_ok. }
  rewrite (lgrid_texts x cs rs cells Fc), (lgrid_texts x cs' rs' cells' Fc'). now apply (lgrid_equal x G).
Qed.
Print Assumptions C89_deterministic.

(** ** Cases *)
Lemma X4_tabular : lexeme_tabular X4.
Proof. split; [apply X4_rebuilt|]. vm_compute. repeat constructor; cbn; intuition discriminate. Qed.
Example C89_case : lexeme_tabular X4 /\ lexeme_str X4 = "(E:S:.-d.u.-' m1(E:U:U:. E:U:A:.))(wa. m1(e. a.) m1(i. b.))" /\
  map (firstn 3) (firstn 3 (shown (table_cells ident ipo nol (ULexeme X4) flexion_path (Some content_path)))) =
    [["(E:S:.-d.u.-')(wa.)"; "(E:U:U:. E:S:.-d.u.-')(wa.)"; "(E:U:A:. E:S:.-d.u.-')(wa.)"];
     ["(E:S:.-d.u.-')(wa. e.)"; "(E:U:U:. E:S:.-d.u.-')(wa. e.)"; "(E:U:A:. E:S:.-d.u.-')(wa. e.)"];
     ["(E:S:.-d.u.-')(wa. a.)"; "(E:U:U:. E:S:.-d.u.-')(wa. a.)"; "(E:U:A:. E:S:.-d.u.-')(wa. a.)"]] /\
  map (@List.length string) (shown (table_cells ident ipo nol (ULexeme X4) flexion_path (Some content_path))) = [3; 3; 3; 3; 3; 3; 3; 3; 3] /\
  shown (table_cells ident ipo nol (ULexeme X4) flexion_path None) = shown (table_cells ident ipo nol (ULexeme X4) flexion_path (Some content_path)) /\
  shown_row (table_rows ident ipo nol (ULexeme X4) flexion_path (Some content_path)) =
    ["(E:S:.-d.u.-' m1(E:U:U:. E:U:A:.))(wa.)"; "(E:S:.-d.u.-' m1(E:U:U:. E:U:A:.))(wa. e.)"; "(E:S:.-d.u.-' m1(E:U:U:. E:U:A:.))(wa. a.)"; "(E:S:.-d.u.-' m1(E:U:U:. E:U:A:.))(wa. i.)";
     "(E:S:.-d.u.-' m1(E:U:U:. E:U:A:.))(wa. b.)"; "(E:S:.-d.u.-' m1(E:U:U:. E:U:A:.))(wa. e. i.)"; "(E:S:.-d.u.-' m1(E:U:U:. E:U:A:.))(wa. e. b.)"; "(E:S:.-d.u.-' m1(E:U:U:. E:U:A:.))(wa. a. i.)";
     "(E:S:.-d.u.-' m1(E:U:U:. E:U:A:.))(wa. a. b.)"] /\
  shown_flexion (pm_flexion X4) /\ List.length (constant (pm_content X4)) + List.length (groups (pm_content X4)) <= 5 /\
  (forall h, In h (groups (pm_content X4)) -> snd h = 1 /\ 2 <= List.length (fst h)).
Proof.
  split; [apply X4_tabular|]. do 5 (split; [vm_compute; reflexivity|]). split; [right; vm_compute; lia|]. split; [vm_compute; lia|].
  intros h H. vm_compute in H. destruct H as [<-|[<-|[]]]; cbn; lia.
Qed.

(** ** Where the tables are wrong *)
(** With the content in the columns, the table cannot be made when the flexion has a constant and a
    group, whether the rows are named or not. *)
Theorem C89_swapped_refuted : exists x, lexeme_tabular x /\ table_cells ident ipo nol (ULexeme x) content_path (Some flexion_path) = Err KeyError /\
  table_cells ident ipo nol (ULexeme x) content_path None = Err KeyError /\ exists cells, table_cells ident ipo nol (ULexeme x) flexion_path (Some content_path) = Ok cells.
Proof. exists X4. split; [apply X4_tabular|]. split; [vm_compute; reflexivity|]. split; [vm_compute; reflexivity|]. destruct (table_cells ident ipo nol (ULexeme X4) flexion_path (Some content_path)) as [cells|e] eqn:E; [now exists cells|]. exfalso. vm_compute in E. discriminate. Qed.
Print Assumptions C89_swapped_refuted.
(** The header of a column is not what its cells have in common: it has the morphemes of all the rows,
    and its only singular sequence is no cell. *)
Theorem C89_column_headers_refuted : exists x hs cells, lexeme_tabular x /\ table_columns ident ipo nol (ULexeme x) flexion_path (Some content_path) = Ok hs /\
  table_cells ident ipo nol (ULexeme x) flexion_path (Some content_path) = Ok cells /\
  forall h, In h hs -> exists p, h = ULexeme p /\ forall t, In t (map lexeme_str (lexeme_ss ident p)) -> ~ In t (List.concat (map (map usl_str) cells)).
Proof.
  destruct (table_columns ident ipo nol (ULexeme X4) flexion_path (Some content_path)) as [hs|e] eqn:E; [|exfalso; vm_compute in E; discriminate].
  destruct (table_cells ident ipo nol (ULexeme X4) flexion_path (Some content_path)) as [cells|e] eqn:E'; [|exfalso; vm_compute in E'; discriminate].
  exists X4, hs, cells. split; [apply X4_tabular|]. split; [exact E|]. split; [exact E'|].
  assert (Y : match table_columns ident ipo nol (ULexeme X4) flexion_path (Some content_path), table_cells ident ipo nol (ULexeme X4) flexion_path (Some content_path) with
    | Ok hs, Ok cells => forallb (fun h => match h with ULexeme p => forallb (fun t => negb (existsb (String.eqb t) (List.concat (map (map usl_str) cells)))) (map lexeme_str (lexeme_ss ident p)) | _ => false end) hs | _, _ => false end = true) by (vm_compute; reflexivity).
  rewrite E, E' in Y. rewrite forallb_forall in Y. intros h Hh. specialize (Y h Hh). destruct h as [| |p|]; [discriminate Y|discriminate Y| |discriminate Y]. exists p. split; [reflexivity|]. rewrite forallb_forall in Y. intros t Ht Hc. specialize (Y t Ht). apply negb_true_iff in Y.
  assert (X : existsb (String.eqb t) (List.concat (map (map usl_str) cells)) = true) by (apply existsb_exists; exists t; split; [exact Hc|apply String.eqb_refl]). congruence.
Qed.
Print Assumptions C89_column_headers_refuted.
(** A flexion with five constants and a group: the group is in no cell, and in no header. *)
Definition S4 := text "E:S:U:.". Definition S5 := text "E:.wo.-". Definition S6 := text "E:.b.wo.-". Definition S7 := text "E:U:.-t.o.-'".
Definition X6 := lx (mk_pm [S1; S4; S5; S6; S7] [([S2; S3], 1)]) (mk_pm [B_] []).
Lemma X6_tabular : lexeme_tabular X6.
Proof.
  split; [|vm_compute; repeat constructor; cbn; intuition discriminate]. split.
  - split; [exists [S1; S4; S5; S6; S7], [([S2; S3], 1)]; split; [repeat (constructor; [text_reg|]); constructor|split; [constructor; [constructor; [text_reg|constructor; [text_reg|constructor]]|constructor]|reflexivity]]|]. split; [apply plain_by; vm_compute; reflexivity|].
    split; [vm_compute; lia|]. assert (G : groups (pm_flexion X6) = [([S2; S3], 1)]) by (vm_compute; reflexivity). rewrite G. split.
    + intros g [<-|[]]. cbn [fst snd List.length]. split; [reflexivity|]. split; [lia|]. repeat constructor; vm_compute; intuition discriminate.
    + exists ["E:M:O:."; "E:.O:O:.-"; "E:.b.O:O:.-"; "E:F:.-t.o.-'"; "E:M:.-d.u.-'"; "E:O:O:."]. split; [repeat constructor; cbn; intuition discriminate|]. split; [intros t Ht; repeat (destruct Ht as [<-|Ht]; [cbn; tauto|]); destruct Ht|].
      assert (M : meaningful (constant (pm_flexion X6)) = [S4; S5; S6; S7; S1]) by (vm_compute; reflexivity). rewrite M.
      cbn [map app fst]. assert (Cat : forall t m, of_root t m -> (exists x l, parse (fun l => l) t = Ok x /\ ss x = Ok l) -> of_category t m).
      { intros t m H (x & l & Ep & Es). unfold of_root, flexion_root in H. rewrite Ep in H. cbn [bind] in H. rewrite Es in H. apply in_scripts_iff in H. apply in_map_iff in H. destruct H as (n & E & Hn). exists x, l, n. auto. }
      repeat (constructor; [intros m Hm; (apply Cat; [|do 2 eexists; split; vm_compute; reflexivity]); cbn [In] in Hm; repeat (destruct Hm as [<-|Hm]; [vm_compute; reflexivity|]); destruct Hm|]). constructor.
  - split; [exists [B_], []; split; [good; auto using B_reg|split; [constructor|reflexivity]]|]. split; [apply plain_by; vm_compute; reflexivity|]. split; [vm_compute; lia|]. split; [repeat constructor; vm_compute; intuition discriminate|intros g []].
Qed.
Theorem C89_five_refuted : exists x hs, lexeme_tabular x /\ table_rows ident ipo nol (ULexeme x) flexion_path (Some content_path) = Ok hs /\
  exists m, In m (flat_map fst (groups (pm_flexion x))) /\ forall h, In h hs -> exists p, h = ULexeme p /\ groups (pm_flexion p) = [] /\ ~ In (str m) (map str (constant (pm_flexion p))).
Proof.
  destruct (table_rows ident ipo nol (ULexeme X6) flexion_path (Some content_path)) as [hs|e] eqn:E; [|exfalso; vm_compute in E; discriminate].
  exists X6, hs. split; [apply X6_tabular|]. split; [exact E|]. exists S2. split; [vm_compute; auto|].
  assert (Y : match table_rows ident ipo nol (ULexeme X6) flexion_path (Some content_path) with
    | Ok hs => forallb (fun h => match h with ULexeme p => match groups (pm_flexion p) with [] => negb (existsb (String.eqb (str S2)) (map str (constant (pm_flexion p)))) | _ => false end | _ => false end) hs | _ => false end = true) by (vm_compute; reflexivity).
  rewrite E in Y. rewrite forallb_forall in Y. intros h Hh. specialize (Y h Hh). destruct h as [| |p|]; [discriminate Y|discriminate Y| |discriminate Y]. exists p. split; [reflexivity|]. destruct (groups (pm_flexion p)); [|discriminate Y]. split; [reflexivity|]. intros Hc. apply negb_true_iff in Y.
  assert (X : existsb (String.eqb (str S2)) (map str (constant (pm_flexion p))) = true) by (apply existsb_exists; exists (str S2); split; [exact Hc|apply String.eqb_refl]). congruence.
Qed.
Print Assumptions C89_five_refuted.
