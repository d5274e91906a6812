(** Properties of the tables of words: C90. *)
From Coq Require Import List String Bool NArith Arith Lia Permutation.
From Verif Require Import Base Script ScriptParser SortProofs ScriptWf ScriptOrderProofs ScriptSpec ScriptMoreProofs Commons Usl UslSpec OrderTheory UslProofs UslSsProofs Properties1 Properties8
  SfunSpec Sfun SfunProofs SfunListProofs SfunWordProofs Properties9 UslParser UslParserProofs UslRoundProofs UslGrammar Path PathBuildProofs RebuildSpec Properties10 Properties12 Instance MemberProofs UslTable UslTableProofs UslTableSpec UslTableOrderProofs UslTableSsProofs Properties20
  LexTableSpec LexTableProofs LexTableSsProofs WordBuildProofs LexPartProofs WordTableProofs WordTableSpec WordTableSsProofs.
Import ListNotations.
Local Open Scope string_scope.

Lemma tabular_inv w : word_tabular w -> SfunProofs.cvalid lexeme (w_context w) (w_fun w) /\ mk_word (w_fun w) (w_role w) (w_context w) = Ok w /\
  exists es, map (fun e => (fst e, Some (snd e))) es = word_actors w /\ Forall entry_good es /\ In (w_role w) (map fst es).
Proof.
  intros ((l & r & W) & Hr & G). unfold word_actors in *. apply word_of_inv in W. destruct W as (c & f & E & W). apply from_list_inv in E. destruct E as [V _]. destruct (mk_word_fields _ _ _ _ W) as (Wf & Wr & Wc). rewrite Wf, Wr, Wc in *.
  split; [exact V|]. split; [exact W|].
  assert (X : exists es : list (role * lexeme), map (fun e => (fst e, Some (snd e))) es = as_list c f /\ Forall entry_good es).
  { pose proof (fun e => roles_nonempty c f e V) as R. revert R G. generalize (as_list c f) as L. clear. intros L R G. induction L as [|[q x] L IH]; [exists []; auto|]. destruct (G (q, x)) as (z & E & GF & GC); [now left|]. cbn [snd] in E. subst x.
    destruct IH as (es & E & F); [intros e He; apply R; now right|intros e He; apply G; now right|]. exists ((q, z) :: es). cbn. rewrite E. split; [reflexivity|]. destruct (R (q, Some z)) as [R1 R2]; [now left|]. constructor; [|exact F]. split; [exact R1|]. split; [exact R2|]. split; [now apply flexion_good|now apply content_good]. }
  destruct X as (es & Ee & Fe). exists es. split; [exact Ee|]. split; [exact Fe|]. rewrite <- Ee, map_map in Hr. exact Hr.
Qed.
Lemma actor_in (es : list (role * lexeme)) L i z : map (fun e => (fst e, Some (snd e))) es = L -> In (i, Some z) L -> In (i, z) es.
Proof. intros <- H. apply in_map_iff in H. destruct H as ([j t] & E & H). cbn in E. injection E as -> ->. exact H. Qed.
Lemma shown_at w es a b y s r v : map (fun e => (fst e, Some (snd e))) es = word_actors w -> shows_word (w_context w) (w_role w) v (at_words es a b y s r) -> word_at w a b y s r (usl_str v).
Proof.
  intros E (p & q & -> & Eq & T & _). exists q. split; [|exact T]. rewrite <- Eq. f_equal. rewrite <- E. unfold at_words. rewrite map_map. reflexivity.
Qed.
Section Tables.
  (** Any order of the sets of scripts and of paths, any order of words. *)
  Variable so : list script -> list script.
  Variable po : list path -> list path.
  Variable wl : word -> word -> bool.
  Hypothesis SO : set_order so.
  Hypothesis PO : forall l, Permutation (po l) l.
  (** The flexion of the actor [a] in the columns, the content of the actor [b] in the rows. *)
  Notation cells_of w a b := (table_cells so po wl (UWord w) (role_path w a flexion_path) (Some (role_path w b content_path))).
  Notation rows_of w a b := (table_rows so po wl (UWord w) (role_path w a flexion_path) (Some (role_path w b content_path))).

  (** * C90 *)
  (** The table of a word has a column for each singular sequence of the flexion of [a], a row for each
      choice in the groups of the content of [b], and the cell where they meet is the word with both:
      all the other flexions and contents are those of the word. *)
  Theorem C90_cells : forall w a b x y, word_tabular w -> In (a, Some x) (word_actors w) -> In (b, Some y) (word_actors w) -> no_repetition (pm_content y) ->
    exists cells cs rs, cells_of w a b = Ok cells /\
      Permutation (map pm_str cs) (map pm_str (pm_ss so (pm_flexion x))) /\
      Permutation (map pm_str rs) (map pm_str (pm_ss so (content_choices y))) /\
      Forall2 (fun r row => Forall2 (fun c v => word_at w a b y c r (usl_str v)) cs row) rs cells.
  Proof.
    intros w a b x y T Ia Ib NR. destruct (tabular_inv w T) as (V & W & es & Ee & Fe & Hf). pose proof (actor_in es _ a x Ee Ia) as Ha. pose proof (actor_in es _ b y Ee Ib) as Hb.
    destruct (wspec so SO (w_context w) (w_fun w) (w_role w) V es Ee Fe Hf po wl PO w W a b x y Ha Hb NR) as (cs & rs & cells & PC & PR & FC & FR & Ec & Fc & _).
    exists cells, cs, rs. split; [exact Ec|]. split; [exact PC|]. split; [exact PR|]. eapply Forall2_in_impl; [|exact Fc]. intros r row _ Fv. eapply Forall2_in_impl; [|exact Fv]. intros s v _. now apply shown_at.
  Qed.
  (** No two cells are equal. *)
  Theorem C90_distinct : forall w a b x y cells, word_tabular w -> In (a, Some x) (word_actors w) -> In (b, Some y) (word_actors w) -> no_repetition (pm_content y) ->
    cells_of w a b = Ok cells -> NoDup (List.concat (map (map usl_str) cells)).
  Proof.
    intros w a b x y cells0 T Ia Ib NR E0. destruct (tabular_inv w T) as (V & W & es & Ee & Fe & Hf). pose proof (actor_in es _ a x Ee Ia) as Ha. pose proof (actor_in es _ b y Ee Ib) as Hb.
    destruct (wspec so SO (w_context w) (w_fun w) (w_role w) V es Ee Fe Hf po wl PO w W a b x y Ha Hb NR) as (cs & rs & cells & PC & PR & FC & FR & Ec & Fc & _).
    assert (E : cells0 = cells). { assert (E1 : Ok cells0 = Ok cells) by (rewrite <- E0; exact Ec). congruence. } subst cells0.
    pose proof (SF es Fe a x Ha) as GF. pose proof (SG es Fe b y Hb) as G.
    eapply (grid_distinct (w_context w) (w_fun w) (w_role w) V es Ee Fe Hf); [exact Ha|exact Hb|exact FC|exact FR| | |exact Fc].
    - eapply Permutation_NoDup; [apply Permutation_sym, PC|]. apply ss_nodup; [exact SO|apply clean_ok, GF].
    - eapply Permutation_NoDup; [apply Permutation_sym, PR|]. apply ss_nodup; [exact SO|]. rewrite <- (rowpm_choices y G). now apply rowpm_ok.
  Qed.
  (** The header of a row is the word with the choice of the row, and its own flexion. *)
  Theorem C90_headers_partial : forall w a b x y, word_tabular w -> In (a, Some x) (word_actors w) -> In (b, Some y) (word_actors w) -> no_repetition (pm_content y) -> shown_flexion (pm_flexion x) ->
    exists cells cs rs hs, cells_of w a b = Ok cells /\ rows_of w a b = Ok hs /\
      Permutation (map pm_str cs) (map pm_str (pm_ss so (pm_flexion x))) /\
      Permutation (map pm_str rs) (map pm_str (pm_ss so (content_choices y))) /\
      Forall2 (fun r row => Forall2 (fun c v => word_at w a b y c r (usl_str v)) cs row) rs cells /\
      Forall2 (fun r h => word_at w a b y (pm_flexion x) r (usl_str h)) rs hs.
  Proof.
    intros w a b x y T Ia Ib NR Sh. destruct (tabular_inv w T) as (V & W & es & Ee & Fe & Hf). pose proof (actor_in es _ a x Ee Ia) as Ha. pose proof (actor_in es _ b y Ee Ib) as Hb.
    destruct (wspec so SO (w_context w) (w_fun w) (w_role w) V es Ee Fe Hf po wl PO w W a b x y Ha Hb NR) as (cs & rs & cells & PC & PR & FC & FR & Ec & Fc & Fh).
    destruct (Fh Sh) as (hs & Eh & Fv). exists cells, cs, rs, hs. split; [exact Ec|]. split; [exact Eh|]. split; [exact PC|]. split; [exact PR|]. split.
    - eapply Forall2_in_impl; [|exact Fc]. intros r row _ Fv'. eapply Forall2_in_impl; [|exact Fv']. intros s v _. now apply shown_at.
    - eapply Forall2_in_impl; [|exact Fv]. intros r v _. now apply shown_at.
  Qed.
End Tables.
Print Assumptions C90_cells.
Print Assumptions C90_distinct.
Print Assumptions C90_headers_partial.
(** The word of C33: the flexion of its focus, with a group, in three columns and the content of another
    actor, with two groups, in nine rows. *)
Notation QA := [INITIATOR; DEPENDANT_QUALITY].
Lemma W33_actors w : word_of W33 [INITIATOR] = Ok w -> word_tabular w /\ w_role w = [INITIATOR] /\ In ([INITIATOR], Some X4) (word_actors w) /\ In (QA, Some X4) (word_actors w).
Proof.
  intros E. assert (B : match word_of W33 [INITIATOR] with Ok w => as_list (w_context w) (w_fun w) | Err _ => [] end = [(["E:T:."], Some X5); ([INITIATOR], Some X4); (QA, Some X4)]) by (vm_compute; reflexivity).
  assert (R : match word_of W33 [INITIATOR] with Ok w => w_role w | Err _ => [] end = [INITIATOR]) by (vm_compute; reflexivity). rewrite E in B, R. unfold word_tabular, word_actors. rewrite B, R. split; [|split; [reflexivity|split; cbn [In]; auto]].
  split; [eauto|]. split; [cbn; auto|]. intros e [<-|[<-|[<-|[]]]]; eexists; (split; [reflexivity|]); auto using X4_rebuilt, X5_rebuilt.
Qed.
Lemma X4_content : no_repetition (pm_content X4).
Proof. vm_compute. repeat constructor; cbn; intuition discriminate. Qed.
Definition table33 (w : word) := (do c <- table_cells ident ipo nol (UWord w) (role_path w [INITIATOR] flexion_path) (Some (role_path w QA content_path));
  do h <- table_rows ident ipo nol (UWord w) (role_path w [INITIATOR] flexion_path) (Some (role_path w QA content_path));
  do k <- table_columns ident ipo nol (UWord w) (role_path w [INITIATOR] flexion_path) (Some (role_path w QA content_path)); Ok (c, h, k)).
Definition result33 := Eval vm_compute in (do w <- word_of W33 [INITIATOR]; do t <- table33 w; Ok (map (map usl_str) (fst (fst t)), map usl_str (snd (fst t)), map usl_str (snd t))).
Example C90_case : exists w c h k, word_of W33 [INITIATOR] = Ok w /\ word_tabular w /\ In ([INITIATOR], Some X4) (word_actors w) /\ In (QA, Some X4) (word_actors w) /\ no_repetition (pm_content X4) /\ shown_flexion (pm_flexion X4) /\
  table33 w = Ok (c, h, k) /\ List.length c = 9 /\ List.length h = 9 /\ (forall row, In row c -> List.length row = 3) /\
  nth 1 (map usl_str (nth 8 c [])) "" = "[E:T:. ()(b.) > ! E:.n.- (E:U:U:. E:S:.-d.u.-')(wa. m1(e. a.) m1(i. b.)) > E:.n.- E:A:. (E:S:.-d.u.-' m1(E:U:U:. E:U:A:.))(wa. a. b.)]" /\
  nth 8 (map usl_str h) "" = "[E:T:. ()(b.) > ! E:.n.- (E:S:.-d.u.-' m1(E:U:U:. E:U:A:.))(wa. m1(e. a.) m1(i. b.)) > E:.n.- E:A:. (E:S:.-d.u.-' m1(E:U:U:. E:U:A:.))(wa. a. b.)]".
Proof.
  destruct (word_of W33 [INITIATOR]) as [w|] eqn:E; [|exfalso; vm_compute in E; discriminate]. exists w. destruct (W33_actors w E) as (T & R & Ia & Ib).
  assert (B : (do w <- word_of W33 [INITIATOR]; do t <- table33 w; Ok (map (map usl_str) (fst (fst t)), map usl_str (snd (fst t)), map usl_str (snd t))) = result33) by (vm_compute; reflexivity).
  rewrite E in B. cbn [bind] in B. destruct (table33 w) as [[[c h] k]|e]; [|discriminate B]. cbn [bind fst snd] in B. unfold result33 in B. injection B as Bc Bh Bk. exists c, h, k.
  split; [reflexivity|]. split; [exact T|]. split; [exact Ia|]. split; [exact Ib|]. split; [exact X4_content|]. split; [right; vm_compute; lia|]. split; [reflexivity|].
  split; [rewrite <- (map_length (map usl_str)), Bc; reflexivity|]. split; [rewrite <- (map_length usl_str), Bh; reflexivity|]. split; [|split].
  - intros row Hr. apply (in_map (map usl_str)) in Hr. rewrite <- (map_length usl_str). rewrite Bc in Hr. cbn [In] in Hr. repeat (destruct Hr as [<-|Hr]; [reflexivity|]). destruct Hr.
  - change (@nil usl) with (@nil usl). replace (map usl_str (nth 8 c [])) with (nth 8 (map (map usl_str) c) []) by (apply (map_nth (map usl_str) c [])). rewrite Bc. reflexivity.
  - rewrite Bh. reflexivity.
Qed.
(** The header of a column has all the morphemes of the content in the rows at once: as for lexemes, it
    is not the word of the column. *)
Theorem C90_column_headers_refuted : exists w a b y cells hs, word_tabular w /\ In (b, Some y) (word_actors w) /\
  table_cells ident ipo nol (UWord w) (role_path w a flexion_path) (Some (role_path w b content_path)) = Ok cells /\
  table_columns ident ipo nol (UWord w) (role_path w a flexion_path) (Some (role_path w b content_path)) = Ok hs /\
  forall h, In h hs -> exists p z, h = UWord p /\ In (b, Some z) (word_actors p) /\ groups (pm_content z) = [] /\
    forall m, In m (flat_map fst (groups (pm_content y))) -> In (str m) (map str (constant (pm_content z))).
Proof.
  destruct (word_of W33 [INITIATOR]) as [w|] eqn:E; [|exfalso; vm_compute in E; discriminate]. destruct (W33_actors w E) as (T & R & Ia & Ib). exists w, [INITIATOR], QA, X4.
  assert (Y : match (do w <- word_of W33 [INITIATOR]; table33 w) with
    | Ok t => forallb (fun h => match h with UWord p => existsb (fun e => match snd e with Some z => (if list_eq_dec string_dec (fst e) QA then true else false) && match groups (pm_content z) with [] => true | _ => false end &&
        forallb (fun m => existsb (String.eqb (str m)) (map str (constant (pm_content z)))) (flat_map fst (groups (pm_content X4))) | None => false end) (word_actors p) | _ => false end) (snd t)
    | Err _ => false end = true) by (vm_compute; reflexivity).
  rewrite E in Y. cbn [bind] in Y. unfold table33 in Y. destruct (table_cells _ _ _ _ _ _) as [cells|e]; [|discriminate Y]. cbn [bind] in Y. destruct (table_rows _ _ _ _ _ _) as [rs|e]; [|discriminate Y]. cbn [bind] in Y. destruct (table_columns _ _ _ _ _ _) as [hs|e]; [|discriminate Y]. cbn [bind snd] in Y.
  exists cells, hs. split; [exact T|]. split; [exact Ib|]. split; [reflexivity|]. split; [reflexivity|]. rewrite forallb_forall in Y. intros h Hh. specialize (Y h Hh). destruct h as [| | |p]; [discriminate Y|discriminate Y|discriminate Y|].
  apply existsb_exists in Y. destruct Y as ([i o] & Hi & Y). cbn [fst snd] in Y. destruct o as [z|]; [|discriminate Y]. apply andb_true_iff in Y. destruct Y as [Y Y3]. apply andb_true_iff in Y. destruct Y as [Y1 Y2]. destruct (list_eq_dec string_dec i QA) as [->|]; [|discriminate Y1].
  exists p, z. split; [reflexivity|]. split; [exact Hi|]. split; [destruct (groups (pm_content z)); [reflexivity|discriminate Y2]|]. rewrite forallb_forall in Y3. intros m Hm. specialize (Y3 m Hm). apply existsb_exists in Y3. destruct Y3 as (t & Ht & Et). apply String.eqb_eq in Et. now rewrite Et.
Qed.
Print Assumptions C90_column_headers_refuted.
