(** Properties of the tables of polymorphemes: C69, C70. *)
From Coq Require Import List String Bool NArith Arith Lia Permutation Sorting.
From Verif Require Import Base Script ScriptParser SortProofs ScriptWf ScriptOrderProofs ScriptSpec ScriptMoreProofs Commons Usl UslSpec OrderTheory UslProofs UslSsProofs Properties1 Properties8
  Sfun UslParser UslParserProofs UslRoundProofs UslGrammar Path PathBuildProofs RebuildSpec Properties10 Properties12 Instance UslTable UslTableProofs UslTableSpec UslTableOrderProofs UslTableSsProofs.
Import ListNotations.
Local Open Scope string_scope.

Section Tables.
  (** Any order of the sets of scripts and of paths, any order of words. *)
  Variable so : list script -> list script.
  Variable po : list path -> list path.
  Variable wl : word -> word -> bool.
  Hypothesis SO : set_order so.
  Hypothesis PO : forall l, Permutation (po l) l.
  Notation cells_of u g rows := (table_cells so po wl (UPm u) (group_path u g) (option_map (group_path u) rows)).
  Notation rows_of u g rows := (table_rows so po wl (UPm u) (group_path u g) (option_map (group_path u) rows)).

  (** * C69 *)
  (** A table has a column for each choice in the group of the columns, a row for each choice in the
      groups of the rows, and the cell where they meet holds the constants, both choices and the
      groups that vary in neither. *)
  Theorem C69_cells : forall u g rows, tabular u g rows ->
    exists cells cs rs, cells_of u g rows = Ok cells /\
      Permutation (map pm_str cs) (map pm_str (pm_ss so (column_choices u g))) /\
      Permutation (map pm_str rs) (map pm_str (pm_ss so (row_choices u g rows))) /\
      map (map usl_str) cells = map (fun r => map (fun c => pm_str (cell u g rows c r)) cs) rs.
  Proof.
    intros u g rows (R & NR & Hi & Hh). pose proof (content_good u R) as G. destruct (table_spec so po wl SO PO u G NR g rows Hi Hh) as (cs & rs & cells & hs & PC & PR & FC & FR & SC & SR & EC & EH & Fc & Fh).
    exists cells, cs, rs. split; [exact EC|]. split; [now rewrite <- (one_column u g Hi)|]. split; [unfold row_choices; now rewrite <- (rows_eq u g rows Hh)|]. now apply (grid_texts u g rows).
  Qed.
  (** No two cells are equal. *)
  Theorem C69_distinct : forall u g rows cells, tabular u g rows -> cells_of u g rows = Ok cells -> NoDup (List.concat (map (map usl_str) cells)).
  Proof.
    intros u g rows cells0 (R & NR & Hi & Hh) E. pose proof (content_good u R) as G. destruct (table_spec so po wl SO PO u G NR g rows Hi Hh) as (cs & rs & cells & hs & PC & PR & FC & FR & SC & SR & EC & EH & Fc & Fh).
    assert (cells0 = cells) by congruence. subst cells0. apply (grid_distinct u G NR g rows Hi Hh cs rs cells); auto.
    - eapply Permutation_NoDup; [apply Permutation_sym, PC|]. apply ss_nodup; [exact SO|apply (one_ok u G g)].
    - eapply Permutation_NoDup; [apply Permutation_sym, PR|]. apply ss_nodup; [exact SO|]. rewrite (rows_eq u g rows Hh). apply mk_pm_ok; [constructor|apply (sel_ok u G)].
  Qed.
  (** The cells are the singular sequences, each once. Missing: groups of which several morphemes
      can be taken, groups of one morpheme, and polymorphemes with more than five morphemes (see the
      refutations). *)
  Theorem C69_exact_partial : forall u g rows cells, tabular u g rows -> cells_of u g rows = Ok cells ->
    (forall h, In h (groups u) -> snd h = 1 /\ 2 <= List.length (fst h)) ->
    List.length (constant u) + List.length (groups u) <= 5 ->
    select u (in_rest g rows) = [] ->
    Permutation (map pm_str (pm_ss so u)) (List.concat (map (map usl_str) cells)).
  Proof.
    intros u g rows cells0 T E Sg L Al. pose proof (C69_distinct u g rows cells0 T E) as ND. destruct T as (R & NR & Hi & Hh). pose proof (content_good u R) as G.
    destruct (table_spec so po wl SO PO u G NR g rows Hi Hh) as (cs & rs & cells & hs & PC & PR & FC & FR & SC & SR & EC & EH & Fc & Fh).
    assert (cells0 = cells) by congruence. subst cells0. assert (M : UslRoundProofs.made u) by apply G. assert (O : pok u) by (destruct M as (c & h & F1 & F2 & ->); now apply mk_pm_ok).
    apply NoDup_Permutation; [now apply ss_nodup|exact ND|]. intros t. assert (Sg' : single_groups (groups u)) by (apply Forall_forall; exact Sg).
    rewrite (exact_member so SO u G NR Sg' g rows Hi Hh Al cs rs t PC PR FC FR L). rewrite (grid_texts u g rows cs rs cells Fc). rewrite in_concat. split.
    - intros (c & r & Hc & Hr & ->). exists (map (fun c => pm_str (cell u g rows c r)) cs). split; [apply in_map_iff; eauto|]. apply in_map_iff. eauto.
    - intros (l & Hl & Ht). apply in_map_iff in Hl. destruct Hl as (r & <- & Hr). apply in_map_iff in Ht. destruct Ht as (c & <- & Hc). eauto.
  Qed.

  (** * C70 *)
  (** The rows and the columns of a table are in the order of USLs. *)
  Theorem C70_order : forall u g rows cells hs, tabular u g rows -> cells_of u g rows = Ok cells -> rows_of u g rows = Ok hs ->
    increasing (fun x y => usl_lt wl x y = true) hs /\
    (forall row, In row cells -> increasing (fun x y => usl_lt wl x y = true) row) /\
    increasing (Forall2 (fun x y => usl_lt wl x y = true)) cells.
  Proof.
    intros u g rows cells0 hs0 (R & NR & Hi & Hh) E E'. pose proof (content_good u R) as G. destruct (table_spec so po wl SO PO u G NR g rows Hi Hh) as (cs & rs & cells & hs & PC & PR & FC & FR & SC & SR & EC & EH & Fc & Fh).
    assert (cells0 = cells) by congruence. assert (hs0 = hs) by congruence. subst cells0 hs0. split; [|split].
    - apply sorted_increasing. now apply (header_rows u G NR g rows Hh wl rs hs).
    - pose proof (grid_rows u G NR g rows Hi Hh wl cs rs cells FC FR SC Fc) as F. rewrite Forall_forall in F. intros row Hr. apply sorted_increasing. auto.
    - apply sorted_increasing. now apply (grid_columns u G NR g rows Hi Hh wl cs rs cells).
  Qed.
  (** There is a header for each row, and it holds the constants, the choice of its row and the
      groups that vary in it. *)
  Theorem C70_headers : forall u g rows, tabular u g rows ->
    exists cells hs cs rs, cells_of u g rows = Ok cells /\ rows_of u g rows = Ok hs /\
      map (map usl_str) cells = map (fun r => map (fun c => pm_str (cell u g rows c r)) cs) rs /\
      map usl_str hs = map (fun r => pm_str (header u g rows r)) rs.
  Proof.
    intros u g rows (R & NR & Hi & Hh). pose proof (content_good u R) as G. destruct (table_spec so po wl SO PO u G NR g rows Hi Hh) as (cs & rs & cells & hs & PC & PR & FC & FR & SC & SR & EC & EH & Fc & Fh).
    exists cells, hs, cs, rs. split; [exact EC|]. split; [exact EH|]. split; [now apply (grid_texts u g rows)|now apply (header_texts u g rows)].
  Qed.
  (** The cells of a row are the singular sequences of its header, each once. Missing: tables where
      some group varies in every cell, and headers whose sequences may have more than five
      morphemes. *)
  Theorem C70_row_paradigm_partial : forall u g rows cells hs gr, tabular u g rows -> cells_of u g rows = Ok cells -> rows_of u g rows = Ok hs ->
    groups_at u g = Some gr -> select u (in_rest g rows) = [] ->
    Forall2 (fun h row => exists p, h = UPm p /\ (List.length (constant p) + snd gr <= 5 -> Permutation (map pm_str (pm_ss so p)) (map usl_str row))) hs cells.
  Proof.
    intros u g rows cells0 hs0 gr (R & NR & Hi & Hh) E E' Eg Al. pose proof (content_good u R) as G. destruct (table_spec so po wl SO PO u G NR g rows Hi Hh) as (cs & rs & cells & hs & PC & PR & FC & FR & SC & SR & EC & EH & Fc & Fh).
    assert (cells0 = cells) by congruence. assert (hs0 = hs) by congruence. subst cells0 hs0. clear EC EH E E' SR PR. revert hs Fh. induction Fc as [|r row rs cells Fl Fc IH]; intros hs Fh; inversion Fh as [|? h ? hs' Hh' Fh']; subst; [constructor|].
    apply Forall_cons_iff in FR. destruct FR as [Hr FR]. constructor; [|now apply IH]. destruct Hh' as (p & -> & Po & Ma & Ep). exists p. split; [reflexivity|]. intros L.
    assert (X : map usl_str row = map (fun c => pm_str (cell u g rows c r)) cs) by (eapply F2_map; [exact Fl|]; intros c x _ (q & -> & _ & _ & Eq); exact Eq). rewrite X.
    apply (row_perm so SO u G NR g rows Hi Hh Al cs r p); auto. intros gr' E'. assert (gr' = gr) by congruence. now subst gr'.
  Qed.
End Tables.
Print Assumptions C69_cells.
Print Assumptions C69_distinct.
Print Assumptions C69_exact_partial.
Print Assumptions C70_order.
Print Assumptions C70_headers.
Print Assumptions C70_row_paradigm_partial.

(** A table does not depend on the order of the sets, nor on the order of words. *)
Theorem C70_deterministic : forall so so' po po' wl wl' u g rows cells cells' hs hs', set_order so -> set_order so' -> (forall l, Permutation (po l) l) -> (forall l, Permutation (po' l) l) ->
  tabular u g rows ->
  table_cells so po wl (UPm u) (group_path u g) (option_map (group_path u) rows) = Ok cells ->
  table_cells so' po' wl' (UPm u) (group_path u g) (option_map (group_path u) rows) = Ok cells' ->
  table_rows so po wl (UPm u) (group_path u g) (option_map (group_path u) rows) = Ok hs ->
  table_rows so' po' wl' (UPm u) (group_path u g) (option_map (group_path u) rows) = Ok hs' ->
  map (map usl_str) cells = map (map usl_str) cells' /\ map usl_str hs = map usl_str hs'.
Proof.
  intros so so' po po' wl wl' u g rows c1 c2 h1 h2 SO SO' PO PO' (R & NR & Hi & Hh) E1 E2 E3 E4. pose proof (content_good u R) as G.
  destruct (table_spec so po wl SO PO u G NR g rows Hi Hh) as (cs & rs & cells & hs & PC & PR & FC & FR & SC & SR & EC & EH & Fc & Fh).
  destruct (table_spec so' po' wl' SO' PO' u G NR g rows Hi Hh) as (cs' & rs' & cells' & hs' & PC' & PR' & FC' & FR' & SC' & SR' & EC' & EH' & Fc' & Fh').
  assert (c1 = cells) by congruence. assert (c2 = cells') by congruence. assert (h1 = hs) by congruence. assert (h2 = hs') by congruence. subst.
  assert (Ro : pok (rowpm u g rows)) by (rewrite (rows_eq u g rows Hh); apply mk_pm_ok; [constructor|apply (sel_ok u G)]).
  assert (Xc : map pm_str cs = map pm_str cs').
  { apply flat_unique; auto; [now apply (cc_flat u g)|now apply (cc_flat u g)|]. rewrite PC, PC'. apply ss_orders; auto. apply (one_ok u G g). }
  assert (Xr : map pm_str rs = map pm_str rs').
  { apply flat_unique; auto; [now apply (rr_flat u g rows)|now apply (rr_flat u g rows)|]. rewrite PR, PR'. apply ss_orders; auto. }
  rewrite (grid_texts u g rows cs rs cells Fc), (grid_texts u g rows cs' rs' cells' Fc'), (header_texts u g rows rs hs Fh), (header_texts u g rows rs' hs' Fh'). split.
  - now apply (grid_equal u G g rows).
  - now apply (headers_equal u G g rows).
Qed.
Print Assumptions C70_deterministic.

(** ** Cases *)
Definition F_ := text "t.". Definition K_ := text "k.". Definition M_ := text "m.".
Lemma F_reg : regular F_. Proof. text_reg. Qed.
Lemma K_reg : regular K_. Proof. text_reg. Qed.
Lemma M_reg : regular M_. Proof. text_reg. Qed.
Definition V2 (n : nat) := mk_pm [A_] [([D_; C_], 1); ([B_; F_], n)].
Definition V3 := mk_pm [A_] [([D_; C_], 1); ([B_; F_], 1); ([K_; M_], 1)].
Ltac tabular_of gs :=
  split; [|split; [vm_compute; repeat constructor; cbn; intuition discriminate|split; [vm_compute; discriminate|first [exact Logic.I|split; [vm_compute; discriminate|discriminate]]]]];
  split; [exists [A_], gs; split; [good; auto using A_reg|split; [good; good; auto using B_reg, C_reg, D_reg, F_reg, K_reg, M_reg|reflexivity]]|]; split; [apply plain_by; vm_compute; reflexivity|];
  split; [vm_compute; lia|]; split; [repeat constructor; vm_compute; intuition discriminate|];
  let g := fresh in let Hg := fresh in intros g Hg;
  let Gs := fresh in match type of Hg with In _ ?l => assert (Gs : forallb (fun g => ((1 <=? snd g)%nat && (snd g <? 10)%nat)%bool) l = true) by (vm_compute; reflexivity) end;
  rewrite forallb_forall in Gs; specialize (Gs g Hg); apply andb_true_iff in Gs; destruct Gs as [?H1 ?H2]; apply Nat.leb_le in H1; apply Nat.ltb_lt in H2; (split; [lia|]);
  vm_compute in Hg; repeat (destruct Hg as [<-|Hg]; [vm_compute; repeat constructor; cbn; intuition discriminate|]); destruct Hg.
Lemma V2_tabular : tabular (V2 1) Group0 None.
Proof. unfold V2. tabular_of [([D_; C_], 1); ([B_; F_], 1)]. Qed.
Lemma V2_2_tabular : tabular (V2 2) Group0 None.
Proof. unfold V2. tabular_of [([D_; C_], 1); ([B_; F_], 2)]. Qed.
Lemma V3_tabular : tabular V3 Group0 (Some Group2).
Proof. unfold V3. tabular_of [([D_; C_], 1); ([B_; F_], 1); ([K_; M_], 1)]. Qed.
Definition ipo (l : list path) := l.
Definition nol (a b : word) := false.
Definition shown (r : res (list (list usl))) : list (list string) := match r with Ok l => map (map usl_str) l | Err _ => [] end.
Definition shown_row (r : res (list usl)) : list string := match r with Ok l => map usl_str l | Err _ => [] end.
Example C69_case : tabular (V2 1) Group0 None /\ tabular V3 Group0 (Some Group2) /\
  pm_str (V2 1) = "wa. m1(a. i.) m1(b. t.)" /\
  shown (table_cells ident ipo nol (UPm (V2 1)) (group_path (V2 1) Group0) None) =
    [["wa."; "wa. a."; "wa. i."]; ["wa. b."; "wa. a. b."; "wa. i. b."]; ["wa. t."; "wa. a. t."; "wa. i. t."]] /\
  (forall h, In h (groups (V2 1)) -> snd h = 1 /\ 2 <= List.length (fst h)) /\
  List.length (constant (V2 1)) + List.length (groups (V2 1)) <= 5 /\ select (V2 1) (in_rest Group0 None) = [].
Proof.
  split; [apply V2_tabular|]. split; [apply V3_tabular|]. split; [vm_compute; reflexivity|]. split; [vm_compute; reflexivity|]. split; [|split; [vm_compute; lia|vm_compute; reflexivity]].
  intros h H. vm_compute in H. destruct H as [<-|[<-|[]]]; cbn; lia.
Qed.
Example C70_case : tabular V3 Group0 (Some Group2) /\ pm_str V3 = "wa. m1(a. i.) m1(b. t.) m1(k. m.)" /\
  shown (table_cells ident ipo nol (UPm V3) (group_path V3 Group0) (Some (group_path V3 Group2))) =
    [["wa. m1(b. t.)"; "wa. a. m1(b. t.)"; "wa. i. m1(b. t.)"]; ["wa. k. m1(b. t.)"; "wa. a. k. m1(b. t.)"; "wa. i. k. m1(b. t.)"];
     ["wa. m. m1(b. t.)"; "wa. a. m. m1(b. t.)"; "wa. i. m. m1(b. t.)"]] /\
  shown_row (table_rows ident ipo nol (UPm V3) (group_path V3 Group0) (Some (group_path V3 Group2))) =
    ["wa. m1(a. i.) m1(b. t.)"; "wa. k. m1(a. i.) m1(b. t.)"; "wa. m. m1(a. i.) m1(b. t.)"] /\
  tabular (V2 1) Group0 None /\ select (V2 1) (in_rest Group0 None) = [] /\
  shown_row (table_rows ident ipo nol (UPm (V2 1)) (group_path (V2 1) Group0) None) = ["wa. m1(a. i.)"; "wa. b. m1(a. i.)"; "wa. t. m1(a. i.)"].
Proof. split; [apply V3_tabular|]. split; [vm_compute; reflexivity|]. split; [vm_compute; reflexivity|]. split; [vm_compute; reflexivity|]. split; [apply V2_tabular|]. split; vm_compute; reflexivity. Qed.

(** ** Where the tables are wrong *)
(** With a group of which two morphemes can be taken, the table has a cell that is no singular
    sequence: the singular sequences take two morphemes there only if they take one of each group. *)
Theorem C69_multiplicity_refuted : exists u g cells t, tabular u g None /\ table_cells ident ipo nol (UPm u) (group_path u g) None = Ok cells /\
  In t (List.concat (map (map usl_str) cells)) /\ ~ In t (map pm_str (pm_ss ident u)).
Proof.
  destruct (table_cells ident ipo nol (UPm (V2 2)) (group_path (V2 2) Group0) None) as [cells|e] eqn:E.
  - exists (V2 2), Group0, cells, "wa. b. t.". split; [apply V2_2_tabular|]. split; [exact E|]. split.
    + assert (X : shown (table_cells ident ipo nol (UPm (V2 2)) (group_path (V2 2) Group0) None) = [["wa."; "wa. a."; "wa. i."]; ["wa. b."; "wa. a. b."; "wa. i. b."]; ["wa. t."; "wa. a. t."; "wa. i. t."]; ["wa. b. t."; "wa. a. b. t."; "wa. i. b. t."]]) by (vm_compute; reflexivity).
      rewrite E in X. unfold shown in X. rewrite X. cbn. tauto.
    + vm_compute. intuition discriminate.
  - exfalso. vm_compute in E. discriminate.
Qed.
Print Assumptions C69_multiplicity_refuted.
(** The path of the columns without the multiplicity of the group gives another table: the group still
    varies in the cells, and two cells are equal. *)
Theorem C69_path_refuted : exists u cells, rebuilt_content u /\ no_repetition u /\ table_cells ident ipo nol (UPm u) (PPoly Group1 None (Some 1) None) None = Ok cells /\
  ~ NoDup (List.concat (map (map usl_str) cells)).
Proof.
  destruct (table_cells ident ipo nol (UPm (V2 2)) (PPoly Group1 None (Some 1) None) None) as [cells|e] eqn:E.
  - exists (V2 2), cells. destruct V2_2_tabular as (R & NR & _). split; [exact R|]. split; [exact NR|]. split; [exact E|].
    assert (X : exists a b, List.concat (shown (table_cells ident ipo nol (UPm (V2 2)) (PPoly Group1 None (Some 1) None) None)) = (a ++ b)%list /\ exists t, In t a /\ In t b).
    { exists (firstn 5 (List.concat (shown (table_cells ident ipo nol (UPm (V2 2)) (PPoly Group1 None (Some 1) None) None)))), (skipn 5 (List.concat (shown (table_cells ident ipo nol (UPm (V2 2)) (PPoly Group1 None (Some 1) None) None)))). split; [now rewrite firstn_skipn|]. exists "wa. b.". vm_compute. tauto. }
    destruct X as (a & b & X & t & Ha & Hb). rewrite E in X. unfold shown in X. rewrite X. intros N. apply NoDup_app_iff in N. destruct N as (_ & _ & D). exact (D t Ha Hb).
  - exfalso. vm_compute in E. discriminate.
Qed.
Print Assumptions C69_path_refuted.
(** The header of a column is not what its cells have in common: it has the morphemes of all the rows
    as constants, and its only singular sequence is no cell. *)
Theorem C70_column_headers_refuted : exists u g hs cells, tabular u g None /\ table_columns ident ipo nol (UPm u) (group_path u g) None = Ok hs /\
  table_cells ident ipo nol (UPm u) (group_path u g) None = Ok cells /\
  forall h, In h hs -> exists p, h = UPm p /\ forall t, In t (map pm_str (pm_ss ident p)) -> ~ In t (List.concat (map (map usl_str) cells)).
Proof.
  destruct (table_cells ident ipo nol (UPm (V2 1)) (group_path (V2 1) Group0) None) as [cells|e] eqn:E; [|exfalso; vm_compute in E; discriminate].
  destruct (table_columns ident ipo nol (UPm (V2 1)) (group_path (V2 1) Group0) None) as [hs|e] eqn:E'; [|exfalso; vm_compute in E'; discriminate].
  exists (V2 1), Group0, hs, cells. split; [apply V2_tabular|]. split; [exact E'|]. split; [exact E|].
  assert (X : shown (table_cells ident ipo nol (UPm (V2 1)) (group_path (V2 1) Group0) None) = [["wa."; "wa. a."; "wa. i."]; ["wa. b."; "wa. a. b."; "wa. i. b."]; ["wa. t."; "wa. a. t."; "wa. i. t."]]) by (vm_compute; reflexivity).
  rewrite E in X. unfold shown in X. rewrite X. clear X E.
  assert (Y : match table_columns ident ipo nol (UPm (V2 1)) (group_path (V2 1) Group0) None with Ok l => forallb (fun h => match h with UPm p => forallb (fun t => existsb (String.eqb t) ["wa. b. t."; "wa. a. b. t."; "wa. i. b. t."]) (map pm_str (pm_ss ident p)) | _ => false end) l | Err _ => false end = true) by (vm_compute; reflexivity).
  rewrite E' in Y. rewrite forallb_forall in Y. intros h Hh. specialize (Y h Hh). destruct h as [|p| |]; try discriminate. exists p. split; [reflexivity|]. rewrite forallb_forall in Y. intros t Ht. specialize (Y t Ht). apply existsb_exists in Y. destruct Y as (x & Hx & Ex). apply String.eqb_eq in Ex. subst x.
  cbn in Hx. destruct Hx as [<-|[<-|[<-|[]]]]; cbn; intuition discriminate.
Qed.
Print Assumptions C70_column_headers_refuted.
