(** The cells of the tables of words are their singular sequences: more of C90. *)
From Coq Require Import List String Bool NArith Arith Lia Permutation.
From Verif Require Import Base Script ScriptParser SortProofs ScriptWf ScriptOrderProofs ScriptSpec ScriptMoreProofs Commons Usl UslSpec OrderTheory UslProofs UslSsProofs Properties1 Properties8
  SfunSpec Sfun SfunProofs SfunListProofs SfunWordProofs Properties9 UslParser UslParserProofs UslRoundProofs UslGrammar Path PathBuildProofs RebuildSpec Properties10 Properties12 Instance MemberProofs UslTable UslTableProofs UslTableSpec UslTableOrderProofs UslTableSsProofs Properties20
  LexTableSpec LexTableProofs LexTableSsProofs WordBuildProofs LexPartProofs WordTableProofs WordTableSpec WordTableSsProofs WordTableExactProofs Properties35.
Import ListNotations.
Local Open Scope string_scope.

(** The cells are the singular sequences of the word, when it has no other groups than those the table
    shows. Missing: groups of the content of which several morphemes can be taken, or of one morpheme,
    and more than five morphemes. *)
Theorem C90_exact_partial : forall so po wl w a b x y cells, set_order so -> (forall l, Permutation (po l) l) ->
  word_tabular w -> In (a, Some x) (word_actors w) -> In (b, Some y) (word_actors w) -> no_repetition (pm_content y) ->
  table_cells so po wl (UWord w) (role_path w a flexion_path) (Some (role_path w b content_path)) = Ok cells ->
  (forall i z, In (i, Some z) (word_actors w) -> i <> a -> groups (pm_flexion z) = []) ->
  (forall i z, In (i, Some z) (word_actors w) -> i <> b -> groups (pm_content z) = []) ->
  (forall h, In h (groups (pm_content y)) -> snd h = 1 /\ 2 <= List.length (fst h)) ->
  List.length (constant (pm_content y)) + List.length (groups (pm_content y)) <= 5 -> shown_flexion (pm_flexion x) ->
  exists ws, word_ss so w = Ok ws /\ forall t, In t (map w_str ws) <-> In t (List.concat (map (map usl_str) cells)).
Proof.
  intros so po wl w a b x y cells0 SO PO T Ia Ib NR E0 OF OC Sg L Sh. destruct (tabular_inv w T) as (V & W & es & Ee & Fe & Hf). pose proof (actor_in es _ a x Ee Ia) as Ha. pose proof (actor_in es _ b y Ee Ib) as Hb.
  destruct (wspec so SO (w_context w) (w_fun w) (w_role w) V es Ee Fe Hf po wl PO w W a b x y Ha Hb NR) as (cs & rs & cells & PC & PR & FC & FR & Ec & Fc & _).
  assert (E : cells0 = cells). { assert (E1 : Ok cells0 = Ok cells) by (rewrite <- E0; exact Ec). congruence. } subst cells0.
  assert (Back : forall i z, In (i, z) es -> In (i, Some z) (word_actors w)) by (intros i z H; rewrite <- Ee; apply in_map_iff; exists (i, z); auto).
  assert (Wok : wok2 w) by (eapply w_ok; eassumption). assert (Wf : MemberSpec.filled w) by (eapply w_filled; eassumption).
  destruct (word_ss_spec so w (proj1 Wok) Wf) as (ws & xs & Ew & _). exists ws. split; [exact Ew|]. intros t.
  eapply wexact; [exact SO|exact V|exact Ee|exact Fe|exact Hf|exact W|exact Ha|exact Hb|exact NR| | |exact Sh|apply Forall_forall; exact Sg|exact L|exact PC|exact PR|exact FC|exact FR|exact Fc|exact Ew]; eauto.
Qed.
Print Assumptions C90_exact_partial.
(** A word with a group in the flexion of its focus and two in the content of another actor. *)
Definition XF := {| pm_flexion := pm_flexion X4; pm_content := pm_content X5 |}.
Definition XC := {| pm_flexion := pm_flexion X5; pm_content := pm_content X4 |}.
Definition W37 : addressed := [([INITIATOR], Some XF); (["E:T:."], Some X5); (QA, Some XC)].
Definition cells37 (w : word) := table_cells ident ipo nol (UWord w) (role_path w [INITIATOR] flexion_path) (Some (role_path w QA content_path)).
Definition result37 := Eval vm_compute in (do w <- word_of W37 [INITIATOR]; do t <- cells37 w; do l <- word_ss ident w; Ok (map (map usl_str) t, map w_str l)).
Lemma W37_actors w : word_of W37 [INITIATOR] = Ok w -> word_tabular w /\ word_actors w = [(["E:T:."], Some X5); ([INITIATOR], Some XF); (QA, Some XC)].
Proof.
  intros E. assert (B : match word_of W37 [INITIATOR] with Ok w => as_list (w_context w) (w_fun w) | Err _ => [] end = [(["E:T:."], Some X5); ([INITIATOR], Some XF); (QA, Some XC)]) by (vm_compute; reflexivity).
  assert (R : match word_of W37 [INITIATOR] with Ok w => w_role w | Err _ => [] end = [INITIATOR]) by (vm_compute; reflexivity). rewrite E in B, R. unfold word_tabular, word_actors. rewrite B, R. split; [|reflexivity].
  split; [eauto|]. split; [cbn; auto|]. intros e [<-|[<-|[<-|[]]]]; eexists; (split; [reflexivity|]); [apply X5_rebuilt|split; [apply X4_rebuilt|apply X5_rebuilt]|split; [apply X5_rebuilt|apply X4_rebuilt]].
Qed.
Example C90_exact_case : exists w cells ws, word_of W37 [INITIATOR] = Ok w /\ cells37 w = Ok cells /\ word_ss ident w = Ok ws /\
  (forall t, In t (map w_str ws) <-> In t (List.concat (map (map usl_str) cells))) /\ List.length ws = 27 /\
  In "[E:T:. ()(b.) > ! E:.n.- (E:U:A:. E:S:.-d.u.-')(b.) > E:.n.- E:A:. ()(wa. a. i.)]" (map w_str ws).
Proof.
  destruct (word_of W37 [INITIATOR]) as [w|] eqn:E; [|exfalso; vm_compute in E; discriminate]. destruct (W37_actors w E) as (T & A).
  assert (B : (do w <- word_of W37 [INITIATOR]; do t <- cells37 w; do l <- word_ss ident w; Ok (map (map usl_str) t, map w_str l)) = result37) by (vm_compute; reflexivity). rewrite E in B. cbn [bind] in B.
  destruct (cells37 w) as [cells|e] eqn:Ec; [|discriminate B]. cbn [bind] in B. destruct (word_ss ident w) as [ws|e] eqn:Ew; [|discriminate B]. cbn [bind] in B. unfold result37 in B. injection B as _ Bw. exists w, cells, ws.
  split; [reflexivity|]. split; [exact Ec|]. split; [exact Ew|]. split; [|split].
  - destruct (C90_exact_partial ident ipo nol w [INITIATOR] QA XF XC cells) as (ws' & Ew' & X); [intros l; apply Permutation_refl|intros l; apply Permutation_refl|exact T|rewrite A; cbn; auto|rewrite A; cbn; auto|exact X4_content|exact Ec| | | |vm_compute; lia|right; vm_compute; lia|].
    + rewrite A. intros i z [H|[H|[H|[]]]] D; injection H as <- <-; [reflexivity|congruence|reflexivity].
    + rewrite A. intros i z [H|[H|[H|[]]]] D; injection H as <- <-; [reflexivity|reflexivity|congruence].
    + intros h Hh. assert (Y : forallb (fun h : list script * nat => Nat.eqb (snd h) 1 && Nat.leb 2 (List.length (fst h))) (groups (pm_content XC)) = true) by (vm_compute; reflexivity). rewrite forallb_forall in Y. specialize (Y h Hh). apply andb_true_iff in Y. destruct Y as [Y1 Y2]. apply Nat.eqb_eq in Y1. apply Nat.leb_le in Y2. auto.
    + assert (ws' = ws) as -> by congruence. exact X.
  - rewrite <- (map_length w_str), Bw. reflexivity.
  - rewrite Bw. cbn [In]. tauto.
Qed.
(** With groups elsewhere the cells still have them: they are not singular sequences of the word. *)
Theorem C90_other_groups_refuted : exists w a b x y cells ws, word_tabular w /\ In (a, Some x) (word_actors w) /\ In (b, Some y) (word_actors w) /\ no_repetition (pm_content y) /\ shown_flexion (pm_flexion x) /\
  table_cells ident ipo nol (UWord w) (role_path w a flexion_path) (Some (role_path w b content_path)) = Ok cells /\ word_ss ident w = Ok ws /\
  forall t, In t (List.concat (map (map usl_str) cells)) -> ~ In t (map w_str ws).
Proof.
  destruct (word_of W33 [INITIATOR]) as [w|] eqn:E; [|exfalso; vm_compute in E; discriminate]. destruct (W33_actors w E) as (T & R & Ia & Ib).
  assert (Y : match (do w <- word_of W33 [INITIATOR]; do c <- cells37 w; do l <- word_ss ident w; Ok (c, l)) with
    | Ok (c, l) => let texts := map w_str l in forallb (fun t => negb (existsb (String.eqb t) texts)) (List.concat (map (map usl_str) c))
    | Err _ => false end = true) by (vm_compute; reflexivity).
  rewrite E in Y. cbn [bind] in Y. destruct (cells37 w) as [cells|e] eqn:Ec; [|discriminate Y]. cbn [bind] in Y. destruct (word_ss ident w) as [ws|e] eqn:Ew; [|discriminate Y]. cbn [bind] in Y. cbv zeta in Y.
  exists w, [INITIATOR], QA, X4, X4, cells, ws. split; [exact T|]. split; [exact Ia|]. split; [exact Ib|]. split; [exact X4_content|]. split; [right; vm_compute; lia|]. split; [exact Ec|]. split; [exact Ew|].
  rewrite forallb_forall in Y. intros t Ht Hn. specialize (Y t Ht). apply negb_true_iff in Y. assert (Z : existsb (String.eqb t) (map w_str ws) = true) by (apply existsb_exists; exists t; split; [exact Hn|apply String.eqb_refl]). congruence.
Qed.
Print Assumptions C90_other_groups_refuted.
