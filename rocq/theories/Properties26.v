(** Properties of the order [<] of expressions: C82. *)
From Coq Require Import List String Ascii Bool NArith Arith Lia Permutation.
From Verif Require Import Base Script ScriptSpec Commons Usl UslSpec OrderTheory UslProofs Properties1 Properties8
  Sfun SfunSpec SfunProofs SfunListProofs SfunWordProofs Properties9 UslParser UslRoundProofs Properties10 Properties11 UslOrder UslOrderSpec UslOrderProofs.
Import ListNotations.
Local Open Scope string_scope.

Lemma built_word_parts w : built_word w -> exists f r c, cvalid c f /\ vrole r /\ mk_word f r c = Ok w /\ w_fun w = f /\ w_role w = r /\ w_context w = c /\
  forall g l, In g (map snd (actors f)) -> actor_of g = Some l -> lok l.
Proof.
  intros (l & r & H & F). assert (H' := H). apply word_of_inv in H. destruct H as (c & f & Hf & Hw). destruct (mk_word_fields _ _ _ _ Hw) as (E1 & E2 & E3).
  exists f, r, c. destruct (from_list_inv _ _ _ _ Hf) as [V _]. split; auto. split.
  { unfold word_of in H'. destruct r as [|a r]; [discriminate H'|]. rewrite Hf in H'. cbn [bind] in H'. unfold mk_role in H'. destruct (forallb _ (a :: r)) eqn:B; [|discriminate H']. rewrite forallb_forall in B. apply Forall_forall. intros s Hs. now apply ins_In, B. }
  split; auto. split; auto. split; auto. split; auto. intros g x Hg Hx. apply built_lexeme_ok. apply (word_lexemes l r w x H' F).
  apply in_map_iff in Hg. destruct Hg as ([q g'] & <- & Hg). cbn [snd] in *. rewrite E1, E3. apply (in_present _ (context_prefix c ++ q)%list x). unfold as_list. apply in_map_iff. exists (q, g'). cbn [fst snd]. rewrite Hx. split; auto.
  apply filter_In. split; auto. cbn [snd]. destruct g'; [discriminate Hx|..]; reflexivity.
Qed.
Lemma built_fok w : built_word w -> fok w.
Proof.
  intros B. destruct (built_word_parts w B) as (f & r & c & V & Vr & _ & Ef & Er & _ & L). split; [|split].
  - exists c. now rewrite Ef.
  - now rewrite Er.
  - apply Forall_forall. intros [q x] H. apply has_pairs in H. destruct H as (g & Hg & <-). split; cbn [fst snd].
    + rewrite Ef in Hg. eapply actors_roles; eauto.
    + intros y Hy. eapply L; [|exact Hy]. rewrite Ef in Hg. change g with (snd (q, g)). now apply in_map.
Qed.
Lemma built_wok w : built_word w -> on_lexeme w -> wok w.
Proof.
  intros B O. destruct (built_word_parts w B) as (f & r & c & V & Vr & M & Ef & Er & Ec & L). unfold on_lexeme in O. rewrite Ef, Er, Ec in O. exists f, r, c. auto.
Qed.

(** * C82 *)
(** [<] of words is irreflexive, asymmetric and transitive, and raises in both directions or in
    none, whatever the focus. *)
Theorem C82_word_order_strict : forall u v w, built_word u -> built_word v -> built_word w ->
  word_lt u u = Ok false /\
  (word_lt u v = Ok true -> word_lt v u = Ok false) /\
  (word_lt u v = Ok true -> word_lt v w = Ok true -> word_lt u w = Ok true) /\
  ((exists e, word_lt u v = Err e) <-> (exists e, word_lt v u = Err e)).
Proof.
  intros u v w Hu Hv Hw. apply built_fok in Hu, Hv, Hw. split; [now apply word_lt_irr|]. split; [now apply word_lt_asym|]. split; [now apply word_lt_trans|].
  assert (X : forall u v, fok u -> fok v -> (exists e, word_lt u v = Err e) -> exists e, word_lt v u = Err e); [|split; now apply X].
  intros x y (_ & _ & Fx) (_ & _ & Fy) (e & E). apply word_lt_Err in E. apply pairs_lt_err_sym in E; auto. eexists. apply word_lt_Err. exact E.
Qed.
Print Assumptions C82_word_order_strict.

(** When it raises: at the first role where the two words differ, one of them has a lexeme and the
    other one has none (a junction, or a missing lexeme). *)
Theorem C82_when_a_comparison_raises : forall v w e, built_word v -> built_word w -> (word_lt v w = Err e <-> exists r, clash_at v w r e).
Proof. intros v w e Hv Hw. exact (word_raises v w e (built_fok v Hv) (built_fok w Hw)). Qed.
Print Assumptions C82_when_a_comparison_raises.

(** Two different words are ordered, unless the comparison raises; two equal words are not.
    Missing: words whose focus is a junction, see below. *)
Theorem C82_word_order_total_partial : forall v w, built_word v -> built_word w -> on_lexeme v -> on_lexeme w -> (forall r e, ~ clash_at v w r e) ->
  exactly_one (word_lt v w = Ok true) (w_str v = w_str w) (word_lt w v = Ok true).
Proof.
  intros v w Hv Hw Ov Ow N. pose proof (built_fok v Hv) as Fv. pose proof (built_fok w Hw) as Fw. pose proof (word_key v w (built_wok v Hv Ov) (built_wok w Hw Ow)) as K.
  assert (NE : forall e, word_lt v w <> Err e) by (intros e E; apply (C82_when_a_comparison_raises v w e Hv Hw) in E; destruct E as (r & E); now apply N in E).
  destruct (String.eqb (w_str v) (w_str w)) eqn:E.
  - apply String.eqb_eq in E. assert (P := proj1 K E). destruct P as [P R]. right. left. rewrite (word_lt_irr v w), (word_lt_irr w v) by auto. split; [discriminate|]. split; [auto|discriminate].
  - apply String.eqb_neq in E. assert (P : ~ (pk (w_fun v) = pk (w_fun w) /\ w_role v = w_role w)) by (intros P; now apply E, K).
    destruct (word_lt_total v w Fv Fw P) as [(e & X)|[X|X]]; [now apply NE in X| |].
    + left. rewrite X, (word_lt_asym v w) by auto. split; auto. split; [auto|discriminate].
    + right. right. rewrite X, (word_lt_asym w v) by auto. split; [discriminate|auto].
Qed.
Print Assumptions C82_word_order_total_partial.

(** Between USLs of all kinds: polymorphemes, then lexemes, then words. *)
Lemma texts_apart u v : good_usl u -> good_usl v -> is_script u = false -> is_script v = false -> usl_str u = usl_str v -> syntactic_level u = syntactic_level v.
Proof.
  assert (Hp : forall p, built p -> forall t l, split_words "" (pm_str p) <> Dl t :: l).
  { intros p B t l E. apply built_ok in B. pose proof (split_pm_str p "" B (or_introl eq_refl)) as H. rewrite app_string_nil in H. rewrite H in E. cbn [split_words] in E. rewrite app_nil_r in E. unfold pm_toks in E.
    destruct (map str (printed p)); [|discriminate E]. cbn in E. destruct (groups p); discriminate E. }
  assert (Hl : forall l, built_lexeme l -> exists t, split_words "" (lexeme_str l) = Dl "(" :: t).
  { intros l B. apply built_lexeme_ok in B. pose proof (split_lexeme l "" B) as H. rewrite app_string_nil in H. eexists. exact H. }
  assert (Hw : forall w, built_word w -> on_lexeme w -> exists t, split_words "" (w_str w) = Dl "[" :: t).
  { intros w B O. destruct (wok_text w (built_wok w B O)) as (r & _ & _ & _ & _ & _ & T). rewrite T, word_text_rows. cbn [append]. rewrite split_delim0; [eauto|reflexivity|discriminate]. }
  intros Gu Gv Su Sv E. destruct u as [s|p|l|w], v as [s'|p'|l'|w']; try discriminate Su; try discriminate Sv; cbn [usl_str good_usl syntactic_level] in *; auto; exfalso; apply (f_equal (split_words "")) in E.
  - destruct (Hl l' Gv) as (t & X). rewrite X in E. now apply Hp in E.
  - destruct (Hw w') as (t & X); try tauto. rewrite X in E. now apply Hp in E.
  - destruct (Hl l Gu) as (t & X). rewrite X in E. symmetry in E. now apply Hp in E.
  - destruct (Hl l Gu) as (t & X), (Hw w') as (t' & X'); try tauto. congruence.
  - destruct (Hw w) as (t & X); try tauto. rewrite X in E. symmetry in E. now apply Hp in E.
  - destruct (Hw w) as (t & X), (Hl l' Gv) as (t' & X'); try tauto. congruence.
Qed.
Theorem C82_kinds : forall u v, good_usl u -> good_usl v ->
  match u, v with
  | UScript s, UScript t => item_lt (Plain u) (Plain v) = Ok (lt s t)
  | UScript _, _ => item_lt (Plain u) (Plain v) = Err TypeError /\ item_lt (Plain v) (Plain u) = Ok false
  | _, UScript _ => True
  | UPm _, (ULexeme _ | UWord _) | ULexeme _, UWord _ => usl_str u <> usl_str v /\ item_lt (Plain u) (Plain v) = Ok true /\ item_lt (Plain v) (Plain u) = Ok false
  | _, _ => True
  end.
Proof.
  intros u v Gu Gv. pose proof (texts_apart u v Gu Gv) as T. destruct u, v; auto; cbn in T; (split; [|auto]); intros E; specialize (T eq_refl eq_refl E); discriminate T.
Qed.
Print Assumptions C82_kinds.
Theorem C82_usl_order : forall u v w, good_usl u -> good_usl v -> good_usl w -> is_script u = false -> is_script v = false -> is_script w = false ->
  (usl_str u = usl_str v -> item_lt (Plain u) (Plain v) = Ok false) /\
  (item_lt (Plain u) (Plain v) = Ok true -> item_lt (Plain v) (Plain u) = Ok false) /\
  (item_lt (Plain u) (Plain v) = Ok true -> item_lt (Plain v) (Plain w) = Ok true -> item_lt (Plain u) (Plain w) = Ok true) /\
  (usl_str u <> usl_str v -> item_lt (Plain u) (Plain v) = Ok true \/ item_lt (Plain v) (Plain u) = Ok true \/
     exists a b r e, u = UWord a /\ v = UWord b /\ clash_at a b r e /\ item_lt (Plain u) (Plain v) = Err e).
Proof.
  intros u v w Gu Gv Gw Su Sv Sw. pose proof (texts_apart u v Gu Gv Su Sv) as T.
  destruct u as [s|p|l|a], v as [s'|p'|l'|b]; try discriminate Su; try discriminate Sv; cbn [usl_str syntactic_level] in *;
    try solve [split; [intros E; specialize (T E); discriminate T|]; cbn; split; [discriminate || auto|]; (split; [|intros _; auto]); try discriminate; intros _; destruct w; try discriminate Sw; cbn; try discriminate; auto].
  - cbn [good_usl] in Gu, Gv. apply built_ok in Gu, Gv. pose proof order_pm as O. cbn [item_lt plain_lt]. split; [intros E; f_equal; now apply (o_irr _ _ _ _ O)|]. split; [intros [= L]; f_equal; now apply (o_asym O)|]. split.
    + intros [= L]. destruct w as [?|q|?|?]; try discriminate Sw; cbn; auto. intros [= M]. f_equal. cbn in Gw. apply built_ok in Gw. now apply (o_trans _ _ _ _ O p p' q).
    + intros N. destruct (o_total _ _ _ _ O p p' Gu Gv N) as [L|L]; rewrite L; auto.
  - cbn [good_usl] in Gu, Gv. apply built_lexeme_ok in Gu, Gv. pose proof order_lexeme as O. cbn [item_lt plain_lt]. split; [intros E; f_equal; now apply (o_irr _ _ _ _ O)|]. split; [intros [= L]; f_equal; now apply (o_asym O)|]. split.
    + intros [= L]. destruct w as [?|?|q|?]; try discriminate Sw; cbn; auto; try discriminate. intros [= M]. f_equal. cbn in Gw. apply built_lexeme_ok in Gw. now apply (o_trans _ _ _ _ O l l' q).
    + intros N. destruct (o_total _ _ _ _ O l l' Gu Gv N) as [L|L]; rewrite L; auto.
  - cbn [good_usl] in Gu, Gv. destruct Gu as [Ba Oa], Gv as [Bb Ob]. pose proof (built_fok a Ba) as Fa. pose proof (built_fok b Bb) as Fb. pose proof (word_key a b (built_wok a Ba Oa) (built_wok b Bb Ob)) as K. cbn [item_lt plain_lt].
    split; [intros E; apply K in E; now apply word_lt_irr|]. split; [now apply word_lt_asym|]. split.
    + intros L. destruct w as [?|?|?|q]; try discriminate Sw; cbn; try discriminate. intros M. destruct Gw as [Bq _]. apply (word_lt_trans a b q); auto. now apply built_fok.
    + intros N. assert (P : ~ (pk (w_fun a) = pk (w_fun b) /\ w_role a = w_role b)) by (intros P; now apply N, K).
      destruct (word_lt_total a b Fa Fb P) as [(e & X)|[X|X]]; auto. right. right. assert (X' := X). apply (C82_when_a_comparison_raises a b e Ba Bb) in X'. destruct X' as (r & X'). exists a, b, r, e. auto.
Qed.
Print Assumptions C82_usl_order.

Definition V82 := "E:T:.".
Definition L82a : addressed := [([V82], Some X1); ([INITIATOR], Some X2)].
Definition L82b : addressed := [([V82], Some X1); ([INITIATOR], Some X1)].
Definition L82j : addressed := [([V82], Some X1); ([INITIATOR; AND_; I0], Some X2); ([INITIATOR; AND_; I1], Some X1)].
Definition L82s : addressed := [([V82], Some X1); ([INITIATOR; AND_; I0], Some X2)].
Definition the_word (r : res word) : word := match r with Ok w => w | Err _ => {| w_fun := Indep None; w_role := []; w_context := CProcess; w_str := ""; w_class := ProcessWord |} end.
Definition A82 := Eval vm_compute in the_word (word_of L82a [V82]).
Definition A82i := Eval vm_compute in the_word (word_of L82a [INITIATOR]).
Definition B82 := Eval vm_compute in the_word (word_of L82b [V82]).
Definition J82 := Eval vm_compute in the_word (word_of L82j [V82]).
Lemma built_82 (l : addressed) r w : word_of l r = Ok w -> (forall x, In x (present l) -> In x [X1; X2; X3]) -> built_word w.
Proof. intros H K. exists l, r. split; auto. apply Forall_forall. intros x Hx. now apply built_X, K. Qed.
Ltac in_X := let x := fresh "x" in let H := fresh "H" in intros x; cbn; intros H; repeat destruct H as [<-|H]; auto; destruct H.
Lemma A82_built : built_word A82. Proof. apply (built_82 L82a [V82]); [vm_compute; reflexivity|in_X]. Qed.
Lemma A82i_built : built_word A82i. Proof. apply (built_82 L82a [INITIATOR]); [vm_compute; reflexivity|in_X]. Qed.
Lemma B82_built : built_word B82. Proof. apply (built_82 L82b [V82]); [vm_compute; reflexivity|in_X]. Qed.
Lemma J82_built : built_word J82. Proof. apply (built_82 L82j [V82]); [vm_compute; reflexivity|in_X]. Qed.
Ltac focus := vm_compute; repeat (first [left; reflexivity|right]).
Example C82_case : built_word A82 /\ built_word A82i /\ built_word B82 /\ on_lexeme A82 /\ on_lexeme A82i /\ on_lexeme B82 /\
  w_str A82 = "[! E:T:. (wa.)(b.) > E:.n.- (wa.)(i.)]" /\ w_str A82i = "[E:T:. (wa.)(b.) > ! E:.n.- (wa.)(i.)]" /\ w_str B82 = "[! E:T:. (wa.)(b.) > E:.n.- (wa.)(b.)]" /\
  word_lt A82 A82i = Ok true /\ word_lt A82i B82 = Ok true /\ (forall r e, ~ clash_at A82 B82 r e) /\
  item_lt (Plain (ULexeme X1)) (Plain (UWord A82)) = Ok true.
Proof.
  pose proof A82_built as HA. pose proof B82_built as HB. split; [exact HA|]. split; [exact A82i_built|]. split; [exact HB|]. split; [focus|]. split; [focus|]. split; [focus|]. do 5 (split; [vm_compute; reflexivity|]). split; [|reflexivity].
  intros r e H. assert (X : word_lt A82 B82 = Err e) by (apply C82_when_a_comparison_raises; eauto). vm_compute in X. discriminate X.
Qed.

(** Two words of the parser that cannot be compared, nor sorted: one has a lexeme where the other
    one has a junction. *)
Theorem C82_words_raise_refuted : exists so t u v w, set_order so /\
  usl_parse so t = Ok (UWord v, []) /\ usl_parse so u = Ok (UWord w, []) /\ built_word v /\ built_word w /\ on_lexeme v /\ on_lexeme w /\
  word_lt v w = Err AttributeError /\ word_lt w v = Err TypeError /\ clash_at v w [INITIATOR] AttributeError.
Proof.
  exists ident, (w_str A82), (w_str J82), A82, J82. split; [intros l; apply Permutation_refl|]. split; [vm_compute; reflexivity|]. split; [vm_compute; reflexivity|]. split; [exact A82_built|]. split; [exact J82_built|]. split; [focus|]. split; [focus|].
  split; [vm_compute; reflexivity|]. split; [vm_compute; reflexivity|].
  assert (X : word_lt A82 J82 = Err AttributeError) by (vm_compute; reflexivity). apply C82_when_a_comparison_raises in X; [|exact A82_built|exact J82_built]. destruct X as (r & B & H). enough (r = [INITIATOR]) by (subst r; split; auto).
  destruct H as [(l & H & _)|(l & _ & H & _)].
  - apply has_pairs in H. vm_compute in H. repeat destruct H as [H|H]; try discriminate H. destruct H.
  - apply has_pairs in H. vm_compute in H. destruct H as [H|[H|H]]; [discriminate H|injection H as <-; reflexivity|]. repeat destruct H as [H|H]; try discriminate H; destruct H.
Qed.
Print Assumptions C82_words_raise_refuted.

(** Two equal words, one smaller than the other: the focus of the first one is a junction of one
    lexeme, that of the second one is this lexeme. *)
Theorem C82_equal_words_refuted : exists v w, built_word v /\ built_word w /\ ~ on_lexeme v /\ on_lexeme w /\ w_str v = w_str w /\ word_lt v w = Ok true.
Proof.
  exists (the_word (word_of L82s [INITIATOR])), (the_word (word_of L82s [INITIATOR; AND_; I0])).
  split; [apply (built_82 L82s [INITIATOR]); [vm_compute; reflexivity|in_X]|]. split; [apply (built_82 L82s [INITIATOR; AND_; I0]); [vm_compute; reflexivity|in_X]|].
  split; [|split; [focus|split; vm_compute; reflexivity]]. vm_compute. intros H. repeat destruct H as [H|H]; try discriminate H; destruct H.
Qed.
Print Assumptions C82_equal_words_refuted.

(** A script and a USL: the order is False in one direction and raises in the other one. Two
    decorated USLs which differ: neither is smaller; a USL smaller than another one is not smaller
    any more once it is decorated. *)
Theorem C82_all_kinds_refuted : exists s p q d, regular s /\ built p /\ built q /\ d <> "" /\
  item_lt (Plain (UScript s)) (Plain (UPm p)) = Err TypeError /\ item_lt (Plain (UPm p)) (Plain (UScript s)) = Ok false /\
  item_lt (Plain (UPm p)) (Plain (UPm q)) = Ok true /\ item_lt (Plain (UPm p)) (Decorated (UPm q) d) = Ok true /\
  item_str (Decorated (UPm p) d) <> item_str (Decorated (UPm q) d) /\
  item_lt (Decorated (UPm p) d) (Decorated (UPm q) d) = Ok false /\ item_lt (Decorated (UPm q) d) (Decorated (UPm p) d) = Ok false /\
  item_lt (Decorated (UPm p) d) (Plain (UPm q)) = Ok false.
Proof.
  assert (S : forall s, regular s -> built (mk_pm [s] [])) by (intros s Hs; exists [s], []; split; [good|split; [constructor|reflexivity]]).
  exists A_, (mk_pm [C_] []), (mk_pm [B_] []), " [>constant>i. ""x""]". split; [auto|]. split; [apply S; auto|]. split; [apply S; auto|]. split; [discriminate|].
  split; [reflexivity|]. split; [reflexivity|]. split; [vm_compute; reflexivity|]. split; [vm_compute; reflexivity|]. split; [vm_compute; discriminate|]. repeat split.
Qed.
Print Assumptions C82_all_kinds_refuted.
