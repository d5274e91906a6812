(** Tables of words whose rows are not named: more of C90. *)
From Coq Require Import List String Bool NArith Arith Lia Permutation.
From Verif Require Import Base Script ScriptParser SortProofs ScriptWf ScriptOrderProofs ScriptSpec ScriptMoreProofs Commons Usl UslSpec OrderTheory UslProofs UslSsProofs Properties1 Properties8
  SfunSpec Sfun SfunProofs SfunListProofs SfunWordProofs Properties9 UslParser UslParserProofs UslRoundProofs UslGrammar Path PathBuildProofs RebuildSpec Properties10 Properties12 Instance MemberProofs UslTable UslTableProofs UslTableSpec UslTableOrderProofs UslTableSsProofs Properties20
  LexTableSpec LexTableProofs LexTableSsProofs WordBuildProofs LexPartProofs WordTableProofs WordTableSpec WordTableSsProofs WordTableExactProofs Properties35 Properties37.
Import ListNotations.
Local Open Scope string_scope.

(** When the path of the rows is not given, the groups of the flexions of the other actors become
    dimensions of the rows. Such a dimension is rebuilt as a lexeme of which the content is empty; the
    empty morpheme of this content is looked for among the morphemes of the flexion (usl/table.py:
    131-141): the table raises KeyError, although the table with the rows named has cells. *)
Definition W39 : addressed := [([INITIATOR], Some XF); (["E:T:."], Some X5); (QA, Some XF)].
Theorem C90_unnamed_rows_refuted : exists w a x, word_tabular w /\ In (a, Some x) (word_actors w) /\ shown_flexion (pm_flexion x) /\
  (forall i z, In (i, Some z) (word_actors w) -> groups (pm_content z) = []) /\
  (exists b cells, table_cells ident ipo nol (UWord w) (role_path w a flexion_path) (Some (role_path w b content_path)) = Ok cells) /\
  table_cells ident ipo nol (UWord w) (role_path w a flexion_path) None = Err KeyError.
Proof.
  destruct (word_of W39 [INITIATOR]) as [w|] eqn:E; [|exfalso; vm_compute in E; discriminate].
  assert (B : match word_of W39 [INITIATOR] with Ok w => as_list (w_context w) (w_fun w) | Err _ => [] end = [(["E:T:."], Some X5); ([INITIATOR], Some XF); (QA, Some XF)]) by (vm_compute; reflexivity).
  assert (R : match word_of W39 [INITIATOR] with Ok w => w_role w | Err _ => [] end = [INITIATOR]) by (vm_compute; reflexivity).
  assert (C : match word_of W39 [INITIATOR] with Ok w => match cells37 w with Ok _ => true | Err _ => false end | Err _ => false end = true) by (vm_compute; reflexivity).
  assert (D : match word_of W39 [INITIATOR] with Ok w => table_cells ident ipo nol (UWord w) (role_path w [INITIATOR] flexion_path) None | Err _ => Ok [] end = Err KeyError) by (vm_compute; reflexivity).
  rewrite E in B, R, C, D. exists w, [INITIATOR], XF. unfold word_tabular, word_actors. rewrite B, R. split; [|split; [cbn; auto|split; [right; vm_compute; lia|split; [|split; [|exact D]]]]].
  - split; [eauto|]. split; [cbn; auto|]. intros e [<-|[<-|[<-|[]]]]; eexists; (split; [reflexivity|]); [apply X5_rebuilt|split; [apply X4_rebuilt|apply X5_rebuilt]|split; [apply X4_rebuilt|apply X5_rebuilt]].
  - intros i z [H|[H|[H|[]]]]; injection H as <- <-; reflexivity.
  - exists QA. destruct (cells37 w) as [cells|] eqn:Ec; [|discriminate C]. exists cells. exact Ec.
Qed.
Print Assumptions C90_unnamed_rows_refuted.

Section Unnamed.
  Variable so : list script -> list script.
  Variable po : list path -> list path.
  Variable wl : word -> word -> bool.
  Hypothesis SO : set_order so.
  Hypothesis PO : forall l, Permutation (po l) l.
  (** The word has groups in the flexion of [a] and in the content of [b] only. *)
  Definition groups_only (w : word) (a b : role) : Prop :=
    (forall i z, In (i, Some z) (word_actors w) -> i <> a -> groups (pm_flexion z) = []) /\
    (forall i z, In (i, Some z) (word_actors w) -> i <> b -> groups (pm_content z) = []).
  (** The table of a word of which only the columns are named, the flexion of [a]: when all the other
      groups are those of the content of [b], it is the table with the content of [b] in the rows. *)
  Theorem C90_unnamed_partial : forall w a b x y, word_tabular w -> In (a, Some x) (word_actors w) -> In (b, Some y) (word_actors w) -> no_repetition (pm_content y) -> groups_only w a b ->
    exists cells cs rs, table_cells so po wl (UWord w) (role_path w a flexion_path) None = Ok cells /\
      Permutation (map pm_str cs) (map pm_str (pm_ss so (pm_flexion x))) /\
      Permutation (map pm_str rs) (map pm_str (pm_ss so (content_choices y))) /\
      Forall2 (fun r row => Forall2 (fun c v => word_at w a b y c r (usl_str v)) cs row) rs cells /\
      NoDup (List.concat (map (map usl_str) cells)) /\
      (shown_flexion (pm_flexion x) -> exists hs, table_rows so po wl (UWord w) (role_path w a flexion_path) None = Ok hs /\
        Forall2 (fun r h => word_at w a b y (pm_flexion x) r (usl_str h)) rs hs).
  Proof.
    intros w a b x y T Ia Ib NR [OF OC]. destruct (tabular_inv w T) as (V & W & es & Ee & Fe & Hf). pose proof (actor_in es _ a x Ee Ia) as Ha. pose proof (actor_in es _ b y Ee Ib) as Hb.
    assert (Back : forall i z, In (i, z) es -> In (i, Some z) (word_actors w)) by (intros i z H; rewrite <- Ee; apply in_map_iff; exists (i, z); auto).
    destruct (nspec so SO (w_context w) (w_fun w) (w_role w) V es Ee Fe Hf po wl PO w W a b x y Ha Hb NR) as (cs & rs & cells & PC & PR & FC & FR & Ec & Fc & Fh); [eauto|eauto|].
    exists cells, cs, rs. split; [exact Ec|]. split; [exact PC|]. split; [exact PR|]. split; [|split].
    - eapply Forall2_in_impl; [|exact Fc]. intros r row _ Fv. eapply Forall2_in_impl; [|exact Fv]. intros s v _. now apply shown_at.
    - pose proof (SF es Fe a x Ha) as GF. pose proof (SG es Fe b y Hb) as G. eapply (grid_distinct (w_context w) (w_fun w) (w_role w) V es Ee Fe Hf); [exact Ha|exact Hb|exact FC|exact FR| | |exact Fc].
      + eapply Permutation_NoDup; [apply Permutation_sym, PC|]. apply ss_nodup; [exact SO|apply clean_ok, GF].
      + eapply Permutation_NoDup; [apply Permutation_sym, PR|]. apply ss_nodup; [exact SO|]. rewrite <- (rowpm_choices y G). now apply rowpm_ok.
    - intros Sh. destruct (Fh Sh) as (hs & Eh & Fv). exists hs. split; [exact Eh|]. eapply Forall2_in_impl; [|exact Fv]. intros r v _. now apply shown_at.
  Qed.
  (** Its cells are the singular sequences of the word, with the limits of C90_exact_partial. *)
  Theorem C90_unnamed_exact_partial : forall w a b x y cells, word_tabular w -> In (a, Some x) (word_actors w) -> In (b, Some y) (word_actors w) -> no_repetition (pm_content y) -> groups_only w a b ->
    table_cells so po wl (UWord w) (role_path w a flexion_path) None = Ok cells ->
    (forall h, In h (groups (pm_content y)) -> snd h = 1 /\ 2 <= List.length (fst h)) ->
    List.length (constant (pm_content y)) + List.length (groups (pm_content y)) <= 5 -> shown_flexion (pm_flexion x) ->
    exists ws, word_ss so w = Ok ws /\ forall t, In t (map w_str ws) <-> In t (List.concat (map (map usl_str) cells)).
  Proof.
    intros w a b x y cells0 T Ia Ib NR [OF OC] E0 Sg L Sh. destruct (tabular_inv w T) as (V & W & es & Ee & Fe & Hf). pose proof (actor_in es _ a x Ee Ia) as Ha. pose proof (actor_in es _ b y Ee Ib) as Hb.
    assert (Back : forall i z, In (i, z) es -> In (i, Some z) (word_actors w)) by (intros i z H; rewrite <- Ee; apply in_map_iff; exists (i, z); auto).
    destruct (nspec so SO (w_context w) (w_fun w) (w_role w) V es Ee Fe Hf po wl PO w W a b x y Ha Hb NR) as (cs & rs & cells & PC & PR & FC & FR & Ec & Fc & _); [eauto|eauto|].
    assert (E : cells0 = cells). { assert (E1 : Ok cells0 = Ok cells) by (rewrite <- E0; exact Ec). congruence. } subst cells0.
    assert (Wok : wok2 w) by (eapply w_ok; eassumption). assert (Wf : MemberSpec.filled w) by (eapply w_filled; eassumption).
    destruct (word_ss_spec so w (proj1 Wok) Wf) as (ws & xs & Ew & _). exists ws. split; [exact Ew|]. intros t.
    eapply wexact; [exact SO|exact V|exact Ee|exact Fe|exact Hf|exact W|exact Ha|exact Hb|exact NR| | |exact Sh|apply Forall_forall; exact Sg|exact L|exact PC|exact PR|exact FC|exact FR|exact Fc|exact Ew]; eauto.
  Qed.
End Unnamed.
Print Assumptions C90_unnamed_partial.
Print Assumptions C90_unnamed_exact_partial.
(** The word of Properties37, with the rows unnamed. *)
Definition cells39 (w : word) := table_cells ident ipo nol (UWord w) (role_path w [INITIATOR] flexion_path) None.
Definition result39 := Eval vm_compute in (do w <- word_of W37 [INITIATOR]; do t <- cells39 w; Ok (map (map usl_str) t)).
Example C90_unnamed_case : exists w cells ws, word_of W37 [INITIATOR] = Ok w /\ groups_only w [INITIATOR] QA /\ cells39 w = Ok cells /\ word_ss ident w = Ok ws /\
  (forall t, In t (map w_str ws) <-> In t (List.concat (map (map usl_str) cells))) /\ NoDup (List.concat (map (map usl_str) cells)) /\ List.length cells = 9 /\
  nth 2 (nth 8 (map (map usl_str) cells) []) "" = "[E:T:. ()(b.) > ! E:.n.- (E:U:A:. E:S:.-d.u.-')(b.) > E:.n.- E:A:. ()(wa. a. b.)]".
Proof.
  destruct (word_of W37 [INITIATOR]) as [w|] eqn:E; [|exfalso; vm_compute in E; discriminate]. destruct (W37_actors w E) as (T & A).
  assert (GO : groups_only w [INITIATOR] QA).
  { unfold groups_only. rewrite A. split; intros i z [H|[H|[H|[]]]] D; injection H as <- <-; reflexivity || congruence. }
  assert (B : (do w <- word_of W37 [INITIATOR]; do t <- cells39 w; Ok (map (map usl_str) t)) = result39) by (vm_compute; reflexivity). rewrite E in B. cbn [bind] in B.
  assert (Ia : In ([INITIATOR], Some XF) (word_actors w)) by (rewrite A; cbn; auto). assert (Ib : In (QA, Some XC) (word_actors w)) by (rewrite A; cbn; auto).
  assert (SO : set_order ident) by (intros l; apply Permutation_refl). assert (PO : forall l, Permutation (ipo l) l) by (intros l; apply Permutation_refl).
  destruct (C90_unnamed_partial ident ipo nol SO PO w [INITIATOR] QA XF XC T Ia Ib X4_content GO) as (cells & cs & rs & Ec & _ & _ & _ & N & _). fold (cells39 w) in Ec. rewrite Ec in B. cbn [bind] in B. unfold result39 in B. injection B as B.
  destruct (C90_unnamed_exact_partial ident ipo nol SO PO w [INITIATOR] QA XF XC cells T Ia Ib X4_content GO Ec) as (ws & Ew & X); [|vm_compute; lia|right; vm_compute; lia|].
  - intros h Hh. assert (Y : forallb (fun h : list script * nat => Nat.eqb (snd h) 1 && Nat.leb 2 (List.length (fst h))) (groups (pm_content XC)) = true) by (vm_compute; reflexivity). rewrite forallb_forall in Y. specialize (Y h Hh). apply andb_true_iff in Y. destruct Y as [Y1 Y2]. apply Nat.eqb_eq in Y1. apply Nat.leb_le in Y2. auto.
  - exists w, cells, ws. split; [reflexivity|]. split; [exact GO|]. split; [exact Ec|]. split; [exact Ew|]. split; [exact X|]. split; [exact N|]. split; [rewrite <- (map_length (map usl_str)), B; reflexivity|rewrite B; vm_compute; reflexivity].
Qed.
