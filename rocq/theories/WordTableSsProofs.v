(** The table of a word: its cells as words and as singular sequences. *)
From Coq Require Import List String Ascii Bool Arith Lia Permutation Sorted.
From Verif Require Import Base Script ScriptParser SortProofs ScriptWf ScriptStrProofs ScriptOrderProofs ScriptSpec ScriptCtorProofs ScriptParseProofs ScriptAlgProofs ScriptMoreProofs OrderTheory Commons Usl UslProofs UslSpec UslSsProofs
  SfunSpec Sfun SfunProofs SfunListProofs SfunWordProofs UslParser UslParserProofs UslRoundProofs Path PathLexProofs PathSpec PathProofs PathAlgProofs PathTextProofs PathDerefProofs PathBuildProofs Instance MemberProofs UslTable UslTableProofs UslTableSpec UslTableOrderProofs UslTableSsProofs LexBuildProofs LexTableSpec LexTableProofs LexTableSsProofs WordBuildProofs LexPartProofs WordTableProofs WordTableSpec.
Import ListNotations.
Local Open Scope string_scope.

Section Spec.
  Variable so : list script -> list script.
  Hypothesis SO : set_order so.
  Variable c : context.
  Variable f : sfun lexeme.
  Variable focus : role.
  Hypothesis V : SfunProofs.cvalid lexeme c f.
  Variable es : list (role * lexeme).
  Hypothesis Ees : map (fun e => (fst e, Some (snd e))) es = as_list c f.
  Hypothesis Fe : Forall entry_good es.
  Hypothesis Hf : In focus (map fst es).
  Variable po : list path -> list path.
  Variable ord : word -> word -> bool.
  Hypothesis PO : forall l, Permutation (po l) l.
  Variable w : word.
  Hypothesis W : mk_word f focus c = Ok w.
  Variables (a b : role) (x y : lexeme).
  Hypothesis Ha : In (a, x) es.
  Hypothesis Hb : In (b, y) es.
  Notation F := (pm_flexion x).
  Notation u := (pm_content y).
  Hypothesis NR : no_repetition u.
  Notation parts := (row_parts u Constant None).
  Notation colp := (colp focus a).
  Notation rowp := (rowp focus b).
  Notation shows_word := (shows_word c focus).
  Lemma sgood i z : In (i, z) es -> lex_good z.
  Proof. intros H. rewrite Forall_forall in Fe. now apply (Fe _ H). Qed.
  Lemma SF : flex_good F. Proof. apply (sgood a x Ha). Qed.
  Lemma SG : pm_good u. Proof. apply (sgood b y Hb). Qed.
  Definition at_words (s r : pm) : list (role * option lexeme) := map (fun e => (fst e, Some (put a b s (rowc y r) (fst e) (snd e)))) es.
  Lemma at_roles s r : map fst (at_words s r) = map fst es.
  Proof. unfold at_words. rewrite map_map. reflexivity. Qed.
  Lemma put_good s r i z : In (i, z) es -> pok s -> flatpm r -> lok (put a b s (rowc y r) i z).
  Proof. intros H Ps Fr. destruct (sgood i z H) as [[Cf _] [Cc _]]. split; cbn [put pm_flexion pm_content]; [destruct (rdec i a); [exact Ps|now apply clean_ok]|destruct (rdec i b); [apply rowc_ok; [apply SG|exact Fr]|now apply clean_ok]]. Qed.
  (** For the rows named or not. *)
  Lemma grid_spec rp :
    (exists C R cells, Permutation C (pm_ss so F) /\ Permutation (map pm_str R) (map pm_str (pm_ss so (rowpm u Constant None))) /\ Forall (rgood y) R /\
      table_cells so po ord (UWord w) colp rp = Ok cells /\ Forall2 (fun r vs => Forall2 (fun s v => shows_word v (cell_words es a b y s r)) C vs) R cells /\
      (lcover x -> exists hs, table_rows so po ord (UWord w) colp rp = Ok hs /\ Forall2 (fun r v => shows_word v (cell_words es a b y F r)) R hs)) ->
    exists cs rs cells,
    Permutation (map pm_str cs) (map pm_str (pm_ss so F)) /\ Permutation (map pm_str rs) (map pm_str (pm_ss so (content_choices y))) /\ Forall pok cs /\ Forall flatpm rs /\
    table_cells so po ord (UWord w) colp rp = Ok cells /\ Forall2 (fun r vs => Forall2 (fun s v => shows_word v (at_words s r)) cs vs) rs cells /\
    (shown_flexion F -> exists hs, table_rows so po ord (UWord w) colp rp = Ok hs /\ Forall2 (fun r v => shows_word v (at_words F r)) rs hs).
  Proof.
    intros (C & R & cells & PC & PR & FR & Ec & Fc & Fh). rewrite (rowpm_choices y SG) in PR.
    assert (FC : forall s, In s C -> pok s) by (intros s Hs; apply (Permutation_in _ PC) in Hs; now apply (column_good so SO x SF s Hs)).
    assert (FR' : forall r, In r R -> rgood' y r).
    { intros r Hr. rewrite Forall_forall in FR. destruct (FR r Hr) as [Cr Fr]. split; [exact Cr|]. split; [exact Fr|]. unfold row_parts. destruct (J u Constant None) eqn:EJ; [|reflexivity].
      pose proof (J_nil u Constant None Logic.I EJ) as Sn. assert (Hr' : In (pm_str r) (map pm_str (pm_ss so (rowpm u Constant None)))) by (rewrite (rowpm_choices y SG); eapply Permutation_in; [exact PR|now apply in_map]). rewrite (rows_eq u Constant None Logic.I), Sn in Hr'. cbn [pm_ss mk_pm groups map sort] in Hr'. cbn [map In] in Hr'. destruct Hr' as [E|[]].
      change (pm_str (mk_pm [] []) = pm_str r) in E. assert (F0 : flatpm (mk_pm [] [])) by (exists []; split; [constructor|reflexivity]). apply (flatpm_text _ _ F0 Fr) in E. exact E. }
    assert (TX : forall s r v, In r R -> pok s -> shows_word v (cell_words es a b y s r) -> shows_word v (at_words s r)).
    { intros s r v Hr Ps. eapply shows_ext; [exact V|exact Ees|exact Fe|exact Hf|eassumption..|apply at_roles|]. unfold at_words, cell_words. rewrite !map_map. apply map_ext_in. intros [i z] Hi. unfold kstr. cbn [fst snd actor_str]. f_equal. destruct (FR' r Hr) as (Cr & Fr & Sr).
      assert (L1 : lok (put a b s (rowc y r) i z)) by now apply put_good. assert (L2 : lok (put a b s (cellc y (parts r)) i z)) by (destruct (sgood i z Hi) as [[Cf _] [Cc _]]; split; cbn [put pm_flexion pm_content]; [destruct (rdec i a); [exact Ps|now apply clean_ok]|destruct (rdec i b); [apply cellc_ok; [apply SG|apply Cr]|now apply clean_ok]]).
      apply lexeme_str_key; [exact L1|exact L2|]. cbn [put pm_flexion pm_content]. split; [reflexivity|]. destruct (rdec i b); [|reflexivity]. symmetry. apply rowc_text; [apply SG|exact (FR' r Hr)]. }
    exists C, R, cells. split; [now apply Permutation_map|]. split; [exact PR|]. split; [now apply Forall_forall|]. split; [apply Forall_forall; intros r Hr; apply (FR' r Hr)|]. split; [exact Ec|]. split.
    - eapply Forall2_in_impl; [|exact Fc]. intros r vs Hr Fv. eapply Forall2_in_impl; [|exact Fv]. intros s v Hs. apply TX; auto.
    - intros Cv. destruct (Fh Cv) as (hs & Eh & Fv). exists hs. split; [exact Eh|]. eapply Forall2_in_impl; [|exact Fv]. intros r v Hr. apply TX; [exact Hr|apply clean_ok, SF].
  Qed.
  Lemma wspec : exists cs rs cells,
    Permutation (map pm_str cs) (map pm_str (pm_ss so F)) /\ Permutation (map pm_str rs) (map pm_str (pm_ss so (content_choices y))) /\ Forall pok cs /\ Forall flatpm rs /\
    table_cells so po ord (UWord w) colp (Some rowp) = Ok cells /\ Forall2 (fun r vs => Forall2 (fun s v => shows_word v (at_words s r)) cs vs) rs cells /\
    (shown_flexion F -> exists hs, table_rows so po ord (UWord w) colp (Some rowp) = Ok hs /\ Forall2 (fun r v => shows_word v (at_words F r)) rs hs).
  Proof. apply grid_spec. exact (wtable_ok so SO c f focus V es Ees Fe Hf po ord PO w W a b x y Ha Hb NR). Qed.
  Lemma nspec : (forall i z, In (i, z) es -> i <> a -> groups (pm_flexion z) = []) -> (forall i z, In (i, z) es -> i <> b -> groups (pm_content z) = []) -> exists cs rs cells,
    Permutation (map pm_str cs) (map pm_str (pm_ss so F)) /\ Permutation (map pm_str rs) (map pm_str (pm_ss so (content_choices y))) /\ Forall pok cs /\ Forall flatpm rs /\
    table_cells so po ord (UWord w) colp None = Ok cells /\ Forall2 (fun r vs => Forall2 (fun s v => shows_word v (at_words s r)) cs vs) rs cells /\
    (shown_flexion F -> exists hs, table_rows so po ord (UWord w) colp None = Ok hs /\ Forall2 (fun r v => shows_word v (at_words F r)) rs hs).
  Proof. intros OF OC. apply grid_spec. exact (ntable_ok so SO c f focus V es Ees Fe Hf po ord PO w W a b x y Ha Hb NR OF OC). Qed.
  (** *** Words written alike have the same choices *)
  Lemma es_keys : NoDup (map fst es).
  Proof. pose proof (as_list_nodup c f V) as N. rewrite <- Ees, map_map in N. exact N. Qed.
  Lemma shown_ok v s r : pok s -> flatpm r -> shows_word v (at_words s r) -> exists q, usl_str v = w_str q /\ wok2 q /\ w_role q = focus /\ w_context q = c /\ wl q = at_words s r.
  Proof.
    intros Ps Fr (p & q & -> & Eq & T & Q1 & Q2 & Q3 & Q4 & Q5). exists q. split; [exact T|]. split; [|auto]. split; [split; [now rewrite Q3|now rewrite Q2, Q3]|]. unfold wl. rewrite Q1, Q2. split; [rewrite at_roles; exact Hf|].
    intros e l He El. unfold at_words in He. apply in_map_iff in He. destruct He as ([i z] & <- & Hi). cbn [fst snd] in El. injection El as <-. now apply put_good.
  Qed.
  Lemma kstr_of (l l' : list (role * lexeme)) i z z' : Permutation (map kstr (map (fun e => (fst e, Some (snd e))) l)) (map kstr (map (fun e => (fst e, Some (snd e))) l')) -> NoDup (map fst l') -> In (i, z) l -> In (i, z') l' -> lexeme_str z = lexeme_str z'.
  Proof.
    intros P N H H'. assert (X : In (i, lexeme_str z) (map kstr (map (fun e => (fst e, Some (snd e))) l'))) by (eapply Permutation_in; [exact P|]; rewrite map_map; apply in_map_iff; exists (i, z); auto).
    rewrite map_map in X. apply in_map_iff in X. destruct X as ([j z2] & E & Hj). unfold kstr in E. cbn in E. injection E as -> <-. f_equal. clear - N H' Hj. induction l' as [|[k t] l' IH]; [destruct H'|]. cbn [map fst] in N. apply NoDup_cons_iff in N. destruct N as [N1 N2].
    destruct H' as [H'|H'], Hj as [Hj|Hj]; [congruence|injection H' as -> ->; elim N1; now apply (in_map fst) in Hj|injection Hj as -> ->; elim N1; now apply (in_map fst) in H'|auto].
  Qed.
  Lemma shows_inj v v' s s' r r' : pok s -> pok s' -> flatpm r -> flatpm r' -> shows_word v (at_words s r) -> shows_word v' (at_words s' r') -> usl_str v = usl_str v' -> pm_str s = pm_str s' /\ pm_str r = pm_str r'.
  Proof.
    intros Ps Ps' Fr Fr' S S' E. destruct (shown_ok v s r Ps Fr S) as (q & T & Wq & _ & _ & L). destruct (shown_ok v' s' r' Ps' Fr' S') as (q' & T' & Wq' & _ & _ & L'). rewrite T, T' in E. apply (MemberProofs.word_texts q q' Wq Wq') in E. destruct E as (_ & _ & P). rewrite L, L' in P.
    assert (K : forall i z, In (i, z) es -> lexeme_str (put a b s (rowc y r) i z) = lexeme_str (put a b s' (rowc y r') i z)).
    { intros i z Hi. apply (kstr_of (map (fun e => (fst e, put a b s (rowc y r) (fst e) (snd e))) es) (map (fun e => (fst e, put a b s' (rowc y r') (fst e) (snd e))) es) i).
      - unfold at_words in P. rewrite !map_map in P. rewrite !map_map. exact P.
      - rewrite map_map. exact es_keys.
      - apply in_map_iff. exists (i, z). auto.
      - apply in_map_iff. exists (i, z). auto. }
    split.
    - pose proof (K a x Ha) as E. apply lexeme_str_key in E; [|now apply put_good..]. cbn [put pm_flexion pm_content] in E. destruct (rdec a a); [apply E|congruence].
    - pose proof (K b y Hb) as E. apply lexeme_str_key in E; [|now apply put_good..]. cbn [put pm_flexion pm_content] in E. destruct (rdec b b); [|congruence]. now apply (rowc_inj y SG r r').
  Qed.
  Lemma shows_unique v v' s r : shows_word v (at_words s r) -> shows_word v' (at_words s r) -> usl_str v = usl_str v'.
  Proof. intros (p & q & -> & Eq & T & _) (p' & q' & -> & Eq' & T' & _). cbn [usl_str]. congruence. Qed.
  Notation grid cs rs cells := (Forall2 (fun r vs => Forall2 (fun s v => shows_word v (at_words s r)) cs vs) rs cells).
  Lemma F2_nodup {A B K} (R : A -> B -> Prop) (k : A -> K) (t : B -> string) l m : Forall2 R l m -> NoDup (map k l) -> (forall p q p' q', In p l -> In p' l -> R p q -> R p' q' -> t q = t q' -> k p = k p') -> NoDup (map t m).
  Proof.
    intros H N I. induction H as [|p q l m H1 H IH]; [constructor|]. cbn [map] in *. apply NoDup_cons_iff in N. destruct N as [N1 N2]. constructor; [|apply IH; [exact N2|]; intros; eapply I; [right; eassumption|right; eassumption|eassumption..]].
    intros X. apply in_map_iff in X. destruct X as (q' & E & Hq). destruct (F2_in_r _ _ _ q' H Hq) as (p' & Hp & H'). apply N1. rewrite (I p q p' q'); [now apply in_map|now left|now right|exact H1|exact H'|auto].
  Qed.
  Lemma grid_distinct cs rs cells : Forall pok cs -> Forall flatpm rs -> NoDup (map pm_str cs) -> NoDup (map pm_str rs) -> grid cs rs cells -> NoDup (List.concat (map (map usl_str) cells)).
  Proof.
    intros FC FR NC NRw G. rewrite Forall_forall in FC. induction G as [|r vs rs cells Fv G IH]; [constructor|]. apply Forall_cons_iff in FR. destruct FR as [Fr FR]. cbn [map] in NRw. apply NoDup_cons_iff in NRw. destruct NRw as [N1 N2]. cbn [map List.concat]. apply NoDup_app2; [|now apply IH|].
    - refine (F2_nodup _ pm_str usl_str cs vs Fv NC _). intros s v s' v' Hs Hs' S S' E. now apply (shows_inj v v' s s' r r (FC s Hs) (FC s' Hs') Fr Fr).
    - intros t H H'. apply in_map_iff in H. destruct H as (v & <- & Hv). destruct (F2_in_r _ _ _ v Fv Hv) as (s & Hs & S). apply in_concat in H'. destruct H' as (l & Hl & H'). apply in_map_iff in Hl. destruct Hl as (vs' & <- & Hl). apply in_map_iff in H'. destruct H' as (v' & E & Hv').
      destruct (F2_in_r _ _ _ vs' G Hl) as (r' & Hr' & Fv'). destruct (F2_in_r _ _ _ v' Fv' Hv') as (s' & Hs' & S'). rewrite Forall_forall in FR. destruct (shows_inj v v' s s' r r' (FC s Hs) (FC s' Hs') Fr (FR r' Hr') S S' (eq_sym E)) as [_ X]. apply N1. rewrite X. now apply in_map.
  Qed.
End Spec.
