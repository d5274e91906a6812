(** C84: lookups with some parts of the key left out; the descriptors of an expression. *)
From Coq Require Import List String Ascii Bool NArith Arith Lia Permutation Sorted.
From Verif Require Import Base Script Cache Dictionary Database DatabaseSpec DatabaseRefine DatabaseProofs DatabasePath DatabasePathProofs Pull Paradigms Query QuerySpec QueryProofs Properties3.
Import ListNotations.
Local Open Scope string_scope.

(** * C84 *)
Lemma partial_key parse s o1 o2 : normalize_key parse false s o1 o2 true false =
  if (truthy o1 && negb (inb (match o1 with Some k => k | None => "" end) LANGUAGES))%bool then Err ValueError
  else if (truthy o2 && negb (inb (match o2 with Some v => v | None => "" end) DESCRIPTORS_CLASS))%bool then Err ValueError else Ok (s, o1, o2).
Proof. unfold normalize_key. cbn [orb negb]. rewrite andb_false_r. reflexivity. Qed.
Lemma partial_skey parse s o : normalize_key parse false s o None true true =
  if (truthy o && negb (inb (match o with Some k => k | None => "" end) STRUCTURE_KEYS))%bool then Err ValueError else Ok (s, o, None).
Proof. unfold normalize_key. cbn [orb negb]. rewrite andb_false_r. cbn. reflexivity. Qed.
Lemma legal_part_b o L : legal_part o L <-> (truthy o && negb (inb (match o with Some k => k | None => "" end) L))%bool = false.
Proof.
  destruct o as [x|]; cbn; [|tauto]. destruct (String.eqb_spec x "") as [->|N]; cbn; [tauto|]. destruct (inb x L) eqn:E; cbn.
  - apply inb_In in E. tauto.
  - split; [intros [H| ->]; [apply inb_In in H; congruence|congruence]|discriminate].
Qed.

(** A lookup raises exactly on an unknown language or class, or without any part of the key. *)
Theorem C84_lookup_outcome : forall parse rows i l d,
  ((exists ans, get_values_partial parse rows i l d = Ok ans) <->
     legal_part l LANGUAGES /\ legal_part d DESCRIPTORS_CLASS /\ ~ (i = None /\ l = None /\ d = None)) /\
  (get_values_partial parse rows i l d = Err ValueError <-> ~ (legal_part l LANGUAGES /\ legal_part d DESCRIPTORS_CLASS)) /\
  (get_values_partial parse rows i l d = Err KeyError <-> i = None /\ l = None /\ d = None).
Proof.
  intros parse rows i l d. unfold get_values_partial. rewrite partial_key, !legal_part_b.
  destruct (truthy l && _)%bool eqn:A; [|destruct (truthy d && _)%bool eqn:B]; cbn [bind].
  - split; [split; [intros [? H]; discriminate|intros [H _]; discriminate]|]. split; [split; [intros _ [H _]; discriminate|auto]|split; [discriminate|intros (_ & -> & _); discriminate]].
  - split; [split; [intros [? H]; discriminate|intros (_ & H & _); discriminate]|]. split; [split; [intros _ [_ H]; discriminate|auto]|split; [discriminate|intros (_ & _ & ->); discriminate]].
  - assert (D : (i = None /\ l = None /\ d = None) \/ ~ (i = None /\ l = None /\ d = None)) by (destruct i, l, d; auto; right; intros (? & ? & ?); discriminate).
    destruct D as [(-> & -> & ->)|D].
    + split; [split; [intros [? H]; discriminate|intros (_ & _ & H); destruct H; auto]|]. split; [split; [discriminate|intros H; destruct H; auto]|tauto].
    + destruct i, l, d; try (destruct D; auto; fail); (split; [split; [auto|intros _; eexists; reflexivity]|]; split; [split; [discriminate|intros H; destruct H; auto]|split; [discriminate|intros H; destruct (D H)]]).
Qed.
Print Assumptions C84_lookup_outcome.

Lemma lookup_dans parse rows i l d ans : get_values_partial parse rows i l d = Ok ans -> ans = dans rows i l d.
Proof.
  unfold get_values_partial. destruct (normalize_key _ _ _ _ _ _ _); [|discriminate]. cbn [bind]. unfold dans, dsel, dcell. destruct i, l, d; intros [= <-]; reflexivity.
Qed.
(** The answer lists, once each and in the order of the keys, the keys with the given parts
    that have values, with all their values in the order of the table. *)
Theorem C84_lookup : forall parse rows i l d ans, get_values_partial parse rows i l d = Ok ans ->
  StronglySorted dkey_before (map fst ans) /\ NoDup (map fst ans) /\
  forall k vs, In (k, vs) ans <-> asked i l d k /\ vs = row_values rows k /\ vs <> [].
Proof. intros parse rows i l d ans H. apply lookup_dans in H. subst ans. apply dans_spec. Qed.
Print Assumptions C84_lookup.

(** With the whole key it answers as get_values. *)
Theorem C84_agrees_with_get_values : forall parse rows i l d w, get_values parse rows i l d = Ok w ->
  get_values_partial parse rows (Some i) (Some l) (Some d) = Ok (match w with [] => [] | _ => [((i, l, d), w)] end).
Proof.
  intros parse rows i l d w H. assert (Hw : w = row_values rows (i, l, d) /\ exists ans, get_values_partial parse rows (Some i) (Some l) (Some d) = Ok ans).
  { unfold get_values, normalize_key in H. rewrite andb_false_r in H. cbn [orb] in H. destruct (negb (truthy (Some l) && truthy (Some d))) eqn:T; [discriminate|]. cbn [bind] in H.
    destruct (truthy (Some l) && _)%bool eqn:A in H; [discriminate|]. destruct (truthy (Some d) && _)%bool eqn:B in H; [discriminate|]. cbn [bind] in H. injection H as <-. split; [unfold row_values, values_of; now rewrite map_map|].
    apply C84_lookup_outcome. rewrite !legal_part_b. split; [exact A|]. split; [exact B|]. intros (X & _). discriminate. }
  destruct Hw as (-> & ans & E). rewrite E. f_equal. destruct (C84_lookup _ _ _ _ _ _ E) as (_ & N & C).
  assert (K : forall e, In e ans -> e = ((i, l, d), row_values rows (i, l, d)) /\ row_values rows (i, l, d) <> []).
  { intros [[[i' l'] d'] vs] Hk. apply C in Hk. destruct Hk as (Hk & E1 & E2). unfold asked, has_part in Hk. destruct Hk as ([X|[= <-]] & [Y|[= <-]] & [Z|[= <-]]); try discriminate. subst vs. auto. }
  assert (P : row_values rows (i, l, d) <> [] -> In ((i, l, d), row_values rows (i, l, d)) ans) by (intros X; apply C; unfold asked, has_part; auto).
  destruct (row_values rows (i, l, d)) as [|v vs].
  - destruct ans as [|e ans]; [reflexivity|]. destruct (K e (or_introl eq_refl)) as [_ X]. now destruct X.
  - specialize (P ltac:(discriminate)). destruct ans as [|e [|e' ans]]; [destruct P| |].
    + destruct (K e (or_introl eq_refl)) as [-> _]. reflexivity.
    + destruct (K e (or_introl eq_refl)) as [-> _], (K e' (or_intror (or_introl eq_refl))) as [-> _]. cbn [map fst] in N. apply NoDup_cons_iff in N. destruct N as [N _]. destruct N. now left.
Qed.
Print Assumptions C84_agrees_with_get_values.

(** ** The descriptors of an expression *)
Lemma descriptor_dans parse rows ieml : get_descriptor parse rows ieml =
  fold_left (fun acc e => descriptor_item acc ieml e) (dans rows (Some ieml) None None) (Ok (map (fun d => (d, map (fun l => (l, [])) LANGUAGES)) DESCRIPTORS_CLASS)).
Proof. unfold get_descriptor. destruct (get_values_partial parse rows (Some ieml) None None) as [ans|e] eqn:E; [apply lookup_dans in E; subst ans; reflexivity|]. unfold get_values_partial in E. rewrite partial_key in E. discriminate. Qed.
Definition known_classes (rows : list (string * string * string * string)) (ieml : string) : Prop := forall l d v, In (ieml, l, d, v) rows -> In d DESCRIPTORS_CLASS.
Lemma row_values_some rows k : row_values rows k <> [] <-> exists v, In (k, v) rows.
Proof.
  destruct k as [[i l] d]. unfold row_values, values_of. rewrite map_map. split.
  - intros H. destruct (filter _ rows) as [|[[[i' l'] d'] v] r] eqn:E; [now destruct H|]. assert (X : In (i', l', d', v) (filter (fun r => let '(i', l', d', _) := r in (String.eqb i' i && String.eqb l' l && String.eqb d' d)%bool) rows)) by (rewrite E; now left).
    apply filter_In in X. destruct X as [X Y]. rewrite !andb_true_iff, !String.eqb_eq in Y. destruct Y as [[-> ->] ->]. now exists v.
  - intros [v H] E. apply map_eq_nil in E. assert (X : In (i, l, d, v) (filter (fun r => let '(i', l', d', _) := r in (String.eqb i' i && String.eqb l' l && String.eqb d' d)%bool) rows)) by (apply filter_In; split; auto; now rewrite !String.eqb_refl). rewrite E in X. destruct X.
Qed.
Lemma item_in rows ieml i l d vs : In (i, l, d, vs) (dans rows (Some ieml) None None) <-> i = ieml /\ vs = row_values rows (ieml, l, d) /\ vs <> [].
Proof.
  destruct (dans_spec rows (Some ieml) None None) as (_ & _ & C). rewrite C. unfold asked, has_part. split; [intros (([X|[= ->]] & _) & Y); [discriminate|auto]|intros (-> & X); auto].
Qed.
Lemma class_part rows ieml d : In d DESCRIPTORS_CLASS ->
  let its := filter (fun e : dkey * list (option string) => String.eqb (snd (fst e)) d) (dans rows (Some ieml) None None) in
  NoDup (map (fun e => snd (fst (fst e))) its) /\ forall l vs, (exists e, In e its /\ snd (fst (fst e)) = l /\ snd e = vs) <-> vs = row_values rows (ieml, l, d) /\ vs <> [].
Proof.
  intros Hd its. destruct (dans_spec rows (Some ieml) None None) as (_ & N & _). split.
  - assert (A : forall e, In e its -> fst (fst (fst e)) = ieml /\ snd (fst e) = d). { intros [[[i l] d'] vs] He. apply filter_In in He. destruct He as [He X]. apply item_in in He. apply String.eqb_eq in X. cbn in *. tauto. }
    assert (N' : NoDup (map fst its)). { unfold its. clear -N. induction (dans rows (Some ieml) None None) as [|e t IH]; [constructor|]. cbn [map] in N. apply NoDup_cons_iff in N. destruct N as [N1 N]. cbn [filter]. destruct (String.eqb _ d); [|auto]. cbn [map]. constructor; auto. intros X. apply N1. apply in_map_iff in X. destruct X as (y & E & X). apply filter_In in X. rewrite <- E. apply in_map, X. }
    clear -A N'. induction its as [|e t IH]; [constructor|]. cbn [map] in *. apply NoDup_cons_iff in N'. destruct N' as [N1 N]. constructor; [|apply IH; auto; intros; apply A; now right]. intros X. apply N1. apply in_map_iff in X. destruct X as (y & E & X). destruct (A e (or_introl eq_refl)) as [A1 A2], (A y (or_intror X)) as [B1 B2]. apply in_map_iff. exists y. split; auto. destruct e as [[[a b] c] u], y as [[[a' b'] c'] u']. cbn in *. congruence.
  - intros l vs. split.
    + intros ([[[i l'] d'] ws] & He & E1 & E2). cbn in E1, E2. subst l' ws. apply filter_In in He. destruct He as [He X]. apply String.eqb_eq in X. cbn in X. subst d'. apply item_in in He. tauto.
    + intros [E X]. exists (ieml, l, d, vs). split; auto. apply filter_In. split; [now apply item_in|apply String.eqb_refl].
Qed.
Lemma init_get l vs : dict_get (map (fun l => (l, [] : list (option string))) LANGUAGES) l = Some vs <-> In l LANGUAGES /\ vs = [].
Proof.
  unfold LANGUAGES, dict_get. cbn [map find fst]. destruct (String.eqb_spec l "fr") as [->|N1]; [cbn; split; [intros [= <-]; auto|intros [_ ->]; auto]|]. destruct (String.eqb_spec l "en") as [->|N2]; [cbn; split; [intros [= <-]; auto|intros [_ ->]; auto]|]. cbn. split; [discriminate|intros [[H|[H|[]]] _]; congruence].
Qed.
(** The descriptors of an expression: one entry per class, and under it the values of every
    language known or met in the table. A row of the expression with an unknown class is a
    KeyError, and nothing else is. *)
Theorem C84_descriptor : forall parse rows ieml,
  (known_classes rows ieml -> exists D, get_descriptor parse rows ieml = Ok D /\ map fst D = DESCRIPTORS_CLASS /\
     forall d c, In (d, c) D -> forall l vs, dict_get c l = Some vs <-> vs = row_values rows (ieml, l, d) /\ (In l LANGUAGES \/ vs <> [])) /\
  (~ known_classes rows ieml -> get_descriptor parse rows ieml = Err KeyError).
Proof.
  intros parse rows ieml. rewrite descriptor_dans. split; intros H.
  - rewrite (descriptor_fold ieml (dans rows (Some ieml) None None) (fun _ => map (fun l => (l, [])) LANGUAGES)).
    2:{ intros [[[i l] d] vs] He. apply item_in in He. destruct He as (-> & -> & He). split; [reflexivity|]. apply row_values_some in He. destruct He as [v He]. apply (H _ _ _ He). }
    eexists. split; [reflexivity|]. split; [rewrite map_map; apply map_id|]. intros d c Hc l vs. apply in_map_iff in Hc. destruct Hc as (d' & [= <- <-] & Hd). destruct (class_part rows ieml d' Hd) as [N C]. rewrite (set_langs_get _ _ l N vs), (C l vs), init_get. split.
    + intros [[-> X]|[X [Hl ->]]]; [auto|]. split; auto. destruct (row_values rows (ieml, l, d')) as [|v r] eqn:E; [reflexivity|]. destruct X. specialize (C l (v :: r)). rewrite E in C. assert (Z : v :: r <> []) by discriminate. destruct (proj2 C (conj eq_refl Z)) as (e & He & <- & _). now apply (in_map (fun e => snd (fst (fst e)))).
    + intros [-> X]. destruct (row_values rows (ieml, l, d')) as [|v r] eqn:E; [|left; split; [reflexivity|discriminate]]. right. destruct X as [X|X]; [|now destruct X]. split; auto. intros Y. apply in_map_iff in Y. destruct Y as (e & Ee & He). destruct (proj1 (C l (snd e)) (ex_intro _ e (conj He (conj Ee eq_refl)))) as [Z1 Z2]. congruence.
  - apply (descriptor_fold_err ieml (dans rows (Some ieml) None None) (fun _ => map (fun l => (l, [])) LANGUAGES)).
    + intros [[[i l] d] vs] He. apply item_in in He. tauto.
    + assert (X : exists e, In e (dans rows (Some ieml) None None) /\ inb (snd (fst e)) DESCRIPTORS_CLASS = false).
      { destruct (forallb (fun e => inb (snd (fst e)) DESCRIPTORS_CLASS) (dans rows (Some ieml) None None)) eqn:F.
        - destruct H. intros l d v Hin. rewrite forallb_forall in F. apply inb_In. specialize (F (ieml, l, d, row_values rows (ieml, l, d))). apply F. apply item_in. split; [reflexivity|]. split; [reflexivity|]. apply row_values_some. now exists v.
        - clear -F. induction (dans rows (Some ieml) None None) as [|e t IH]; [discriminate|]. cbn [forallb] in F. apply andb_false_iff in F. destruct F as [F|F]; [exists e; split; auto; now left|destruct (IH F) as (x & Hx & X); exists x; split; auto; now right]. }
      destruct X as (e & He & X). exists e. split; auto. intros Y. apply inb_In in Y. unfold dkey in *. rewrite Y in X. discriminate.
Qed.
Print Assumptions C84_descriptor.

(** When the rows are legal, it is the table of the values of all classes and languages. *)
Definition descriptor_table (values : string -> string -> list (option string)) : list (string * list (string * list (option string))) :=
  map (fun d => (d, map (fun l => (l, values l d)) LANGUAGES)) DESCRIPTORS_CLASS.
Theorem C84_descriptor_of_legal_rows : forall parse rows ieml,
  (forall l d v, In (ieml, l, d, v) rows -> In l LANGUAGES /\ In d DESCRIPTORS_CLASS) ->
  get_descriptor parse rows ieml = Ok (descriptor_table (fun l d => row_values rows (ieml, l, d))).
Proof.
  intros parse rows ieml H. rewrite descriptor_dans, (descriptor_fold ieml (dans rows (Some ieml) None None) (fun _ => map (fun l => (l, [])) LANGUAGES)).
  2:{ intros [[[i l] d] vs] He. apply item_in in He. destruct He as (-> & -> & He). split; [reflexivity|]. apply row_values_some in He. destruct He as [v He]. apply (H _ _ _ He). }
  f_equal. unfold descriptor_table. apply map_ext_in. intros d Hd. f_equal. destruct (class_part rows ieml d Hd) as [N C].
  set (its := filter _ _) in *.
  assert (Ke : map fst (set_langs its (map (fun l => (l, [])) LANGUAGES)) = LANGUAGES).
  { rewrite set_langs_keys; [reflexivity|]. intros [[[i l] d'] vs] He. apply filter_In in He. destruct He as [He X]. apply item_in in He. destruct He as (-> & -> & He). apply row_values_some in He. destruct He as [v He]. cbn. apply (H _ _ _ He). }
  apply dict_eq; rewrite Ke.
  - repeat constructor; cbn; intuition discriminate.
  - reflexivity.
  - intros l Hl. assert (dict_get (map (fun l => (l, row_values rows (ieml, l, d))) LANGUAGES) l = Some (row_values rows (ieml, l, d))) as -> by (destruct Hl as [<-|[<-|[]]]; reflexivity).
    apply (set_langs_get its _ l N). rewrite (C l _), init_get. destruct (row_values rows (ieml, l, d)) as [|v r] eqn:E; [|left; split; [reflexivity|discriminate]]. right. split; auto. intros Y. apply in_map_iff in Y. destruct Y as (e & Ee & He). destruct (proj1 (C l (snd e)) (ex_intro _ e (conj He (conj Ee eq_refl)))) as [Z1 Z2]. congruence.
Qed.
Print Assumptions C84_descriptor_of_legal_rows.

(** The table of the multimap of C40, after any history of calls. *)
Theorem C84_descriptor_after_calls : forall parse path is_desc fo ops ieml,
  folder_ok parse path is_desc -> file_order fo -> Forall (plain_op parse) ops ->
  exists rows, get_descriptors is_desc fo (run parse path [] ops) = Ok rows /\
    get_descriptor parse rows ieml = Ok (descriptor_table (fun l d => map Some (values_of (fst (multimap parse ops)) ieml l d))).
Proof.
  intros parse path is_desc fo ops ieml ok Hfo Hops.
  assert (Hok : Forall (op_ok parse) ops) by (eapply Forall_impl; [|exact Hops]; intros o [H _]; exact H).
  destruct (C44_stored_rows_are_legal parse path is_desc fo ops ok Hfo Hok) as (rows & E & L). exists rows. split; [exact E|].
  rewrite C84_descriptor_of_legal_rows by (intros l d v H; apply L in H; tauto). f_equal. unfold descriptor_table. apply map_ext_in. intros d Hd. f_equal. apply map_ext_in. intros l Hl. f_equal.
  pose proof (C40_database_is_a_multimap_partial parse path is_desc fo ops ok Hfo Hops ieml l d Hl Hd) as X. unfold descriptor_values in X. rewrite E in X. cbn [bind] in X.
  apply (C84_agrees_with_get_values parse rows ieml l d) in X. apply C84_lookup in X. destruct X as (_ & _ & C).
  destruct (values_of (fst (multimap parse ops)) ieml l d) as [|v vs] eqn:V; cbn [map] in C |- *.
  - destruct (row_values rows (ieml, l, d)) as [|w ws] eqn:R; [reflexivity|]. destruct (proj2 (C (ieml, l, d) (w :: ws))). unfold asked, has_part. rewrite R. split; auto. split; [reflexivity|discriminate].
  - symmetry. destruct (proj1 (C (ieml, l, d) (Some v :: map Some vs)) (or_introl eq_refl)) as (_ & X & _). exact X.
Qed.
Print Assumptions C84_descriptor_after_calls.

(** A file of descriptors read alone (from_csv_string) gives the same table, up to the cells
    that pandas reads as missing. *)
Theorem C84_descriptor_of_a_file : forall parse s rows i D, mapM row4 (csv_rows s) = Ok rows -> from_csv_string s = Ok (i, D) ->
  get_descriptor parse rows i = Ok (map (fun c => (fst c, map (fun e => (fst e, map pandas_cell (snd e))) (snd c))) D).
Proof.
  intros parse s rows i D E. unfold from_csv_string. rewrite E. cbn [bind]. destruct (forallb _ rows) eqn:F; [|discriminate]. cbn [negb]. destruct (dedup String.eqb _) as [|j [|? ?]]; try discriminate. intros [= -> <-].
  rewrite C84_descriptor_of_legal_rows.
  - reflexivity.
  - intros l d v H. rewrite forallb_forall in F. specialize (F _ H). apply andb_true_iff in F. destruct F as [F1 F2]. now apply inb_In in F1, F2.
Qed.
Print Assumptions C84_descriptor_of_a_file.

(** ** Structure *)
Theorem C84_structure_outcome : forall parse rows i k,
  ((exists ans, structure_values_partial parse rows i k = Ok ans) <-> legal_part k STRUCTURE_KEYS /\ ~ (i = None /\ k = None)) /\
  (structure_values_partial parse rows i k = Err ValueError <-> ~ legal_part k STRUCTURE_KEYS) /\
  (structure_values_partial parse rows i k = Err KeyError <-> i = None /\ k = None).
Proof.
  intros parse rows i k. unfold structure_values_partial. rewrite partial_skey, legal_part_b.
  destruct (truthy k && _)%bool eqn:A; cbn [bind].
  - split; [split; [intros [? H]; discriminate|intros [H _]; discriminate]|]. split; [split; [intros _ H; discriminate|auto]|split; [discriminate|intros (_ & ->); discriminate]].
  - assert (D : (i = None /\ k = None) \/ ~ (i = None /\ k = None)) by (destruct i, k; auto; right; intros (? & ?); discriminate).
    destruct D as [(-> & ->)|D].
    + split; [split; [intros [? H]; discriminate|intros (_ & H); destruct H; auto]|]. split; [split; [discriminate|intros H; destruct H; auto]|tauto].
    + destruct i, k; try (destruct D; auto; fail); (split; [split; [auto|intros _; eexists; reflexivity]|]; split; [split; [discriminate|intros H; destruct H; auto]|split; [discriminate|intros H; destruct (D H)]]).
Qed.
Print Assumptions C84_structure_outcome.
Lemma lookup_sans parse rows i k ans : structure_values_partial parse rows i k = Ok ans -> ans = sans rows i k.
Proof.
  unfold structure_values_partial. destruct (normalize_key _ _ _ _ _ _ _); [|discriminate]. cbn [bind]. unfold sans, ssel, scell. destruct i, k; intros [= <-]; reflexivity.
Qed.
Theorem C84_structure_lookup : forall parse rows i k ans, structure_values_partial parse rows i k = Ok ans ->
  StronglySorted skey_before (map fst ans) /\ NoDup (map fst ans) /\
  forall q vs, In (q, vs) ans <-> sasked i k q /\ vs = srow_values rows q /\ vs <> [].
Proof. intros parse rows i k ans H. apply lookup_sans in H. subst ans. apply sans_spec. Qed.
Print Assumptions C84_structure_lookup.
(** After any history of calls it gives the values of the multimap of C40, also where
    Structure.get_values raises (C40_structure_get_values_refuted). *)
Theorem C84_structure_after_calls : forall parse path is_desc fo ops rows ieml,
  folder_ok parse path is_desc -> file_order fo -> Forall (plain_op parse) ops ->
  get_structure is_desc fo (run parse path [] ops) = Ok rows ->
  exists ans, structure_values_partial parse rows (Some ieml) None = Ok ans /\
    forall i k vs, In ((i, k), vs) ans <-> i = ieml /\ vs = svalues_of (snd (multimap parse ops)) i k /\ vs <> [].
Proof.
  intros parse path is_desc fo ops rows ieml ok Hfo Hops E. pose proof (C40_structure_is_a_multimap parse path is_desc fo ops ok Hfo Hops) as H. rewrite E in H. destruct H as [_ H].
  destruct (proj1 (C84_structure_outcome parse rows (Some ieml) None)) as [_ X]. destruct X as [ans X]; [split; [exact I|intros [? _]; discriminate]|]. exists ans. split; [exact X|]. apply C84_structure_lookup in X. destruct X as (_ & _ & C). intros i k vs. rewrite C. unfold sasked, has_part, srow_values. cbn [fst snd]. rewrite <- H.
  split; [intros (([Y|[= ->]] & _) & Y'); [discriminate|auto]|intros (-> & Y); auto].
Qed.
Print Assumptions C84_structure_after_calls.

(** ** Claims that fail *)
(** "Without any part of the key, everything is listed": it raises. *)
Theorem C84_everything_refuted : forall parse rows, get_values_partial parse rows None None None = Err KeyError.
Proof. reflexivity. Qed.
Print Assumptions C84_everything_refuted.
(** "An empty language is no condition" (normalize_key accepts it): it selects no row. *)
Theorem C84_empty_language_refuted : exists rows i, rows <> [] /\
  get_values_partial script_text rows (Some i) (Some "") None = Ok [] /\ get_values_partial script_text rows (Some i) None None <> Ok [].
Proof. exists [("wa.", "en", "tags", "act")], "wa.". split; [discriminate|]. split; [reflexivity|]. vm_compute. discriminate. Qed.
Print Assumptions C84_empty_language_refuted.
(** "The lookup accepts what the database stores under another spelling": the key is not parsed. *)
Theorem C84_other_spelling_refuted : exists ops rows,
  get_descriptors is_desc_file (fun l => l) (run script_text simple_path [] ops) = Ok rows /\
  (exists n, script_text "wa.+wo." = Ok n /\ get_values_partial script_text rows (Some n) None None = Ok [((n, "en", "translations"), [Some "second"])]) /\
  get_values_partial script_text rows (Some "wa.+wo.") None None = Ok [].
Proof.
  exists [AddDescriptor "wa.+wo." "en" "translations" "second"]. eexists. split; [vm_compute; reflexivity|]. split; [eexists; split; vm_compute; reflexivity|vm_compute; reflexivity].
Qed.
Print Assumptions C84_other_spelling_refuted.
Example C84_example :
  match get_descriptors is_desc_file (fun l => l) (run script_text simple_path [] history) with
  | Ok rows => get_values_partial script_text rows (Some "wa.") None None = Ok [(("wa.", "en", "translations"), [Some "to act"]); (("wa.", "fr", "tags"), [Some "agir"])] /\
               get_values_partial script_text rows None (Some "en") None = Ok [(("wa.", "en", "translations"), [Some "to act"]); (("wo.+wa.", "en", "translations"), [Some "third"])] /\
               get_descriptor script_text rows "wa." = Ok [("translations", [("fr", []); ("en", [Some "to act"])]); ("tags", [("fr", [Some "agir"]); ("en", [])]);
                 ("comments", [("fr", []); ("en", [])]); ("rdf_repositories", [("fr", []); ("en", [])])] /\
               get_values_partial script_text rows None (Some "de") None = Err ValueError
  | Err _ => False
  end.
Proof. vm_compute. repeat split. Qed.
