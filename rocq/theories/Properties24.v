(** Property C78: the list of all described expressions. *)
From Coq Require Import List String Ascii Bool NArith Arith Lia Permutation Sorted.
From Verif Require Import Base Script ScriptParser Commons CommonsProofs Tables Factor Dictionary Database Git Cache TransactionsProofs Usl Sfun UslParser
  Paradigms SortProofs TablesGridProofs DictLoadProofs Listing ListingSpec ListingProofs DatabasePath ScriptCtorProofs Properties1 Properties2 Properties3 Properties22.
Import ListNotations.
Local Open Scope string_scope.

Section List.
  Variable so : list script -> list script.
  Variables is_desc listed : string -> bool.
  Variable fo : fsys -> fsys.
  Variable decorated : dictionary -> string -> usl -> list (string * string) -> res entry.
  (** A folder, its dictionary and the rows of its descriptors *)
  Variable fs : fsys.
  Variable d : dictionary.
  Variable rows : list (string * string * string * string).
  Hypothesis DEC : decorated_ok (decorated d).
  Hypothesis Hd : get_dictionary so is_desc fo listed fs = Ok d.
  Hypothesis Hr : get_descriptors is_desc fo fs = Ok rows.
  Notation get_list := (get_list so is_desc listed fo decorated fs).

  Lemma sound_nil : sound so d (decorated d) [].
  Proof. split; [constructor|intros t e []]. Qed.
  Lemma listed_acc l : get_list = Ok l -> exists acc, list_rows so d (decorated d) [] (sort row4_lt rows) = Ok acc /\ l = sort entry_lt (map snd acc).
  Proof.
    unfold Listing.get_list, list_described. rewrite Hd. cbn [bind]. rewrite Hr. cbn [bind].
    destruct (list_rows so d (decorated d) [] (sort row4_lt rows)) as [acc|x]; cbn [bind]; [|discriminate]. intros H. apply Ok_inj in H. eauto.
  Qed.
  Lemma rows_in r : In r (sort row4_lt rows) <-> In r rows.
  Proof. split; apply Permutation_in; [|apply Permutation_sym]; apply sort_perm. Qed.
  Lemma started_text t e : started so d (decorated d) t e -> e_ieml e = t.
  Proof. intros (u & ds & e0 & Hp & Hn & (H & _)). rewrite H. apply (new_entry_head so d (decorated d) DEC t u ds e0 Hp Hn). Qed.
  Lemma acc_texts acc : sound so d (decorated d) acc -> map e_ieml (map snd acc) = map fst acc.
  Proof.
    intros (_ & S). rewrite map_map. apply map_ext_in. intros [t e] I. cbn [fst snd]. apply started_text. apply (S t e I).
  Qed.
  Lemma list_facts l : get_list = Ok l -> exists acc, sound so d (decorated d) acc /\ Permutation l (map snd acc) /\
    StronglySorted (fun a b => string_lt a b = true) (map fst acc) /\ l = sort entry_lt (map snd acc) /\
    (forall t, In t (map fst acc) <-> (described rows t /\ exists x, readable so d t x)) /\
    (forall t, In t (map fst acc) -> forall c l, values_in acc t c l = described_by (sort row4_lt rows) t l c) /\
    (forall t, In t (map fst acc) -> forall c, has_class acc t c <-> exists l v, In (t, l, c, v) rows).
  Proof.
    intros H. apply listed_acc in H as (acc & H & ->). exists acc.
    destruct (proj1 (rows_spec so d (decorated d) DEC (sort row4_lt rows) [] sound_nil) acc H) as (S & K & V & C).
    split; [exact S|]. split; [apply sort_perm|]. split.
    { eapply (rows_keys so d (decorated d) DEC); [apply sound_nil|apply rows_sorted| |exact H]. split; [constructor|intros r k _ []]. }
    split; [reflexivity|]. split; [|split].
    - intros t. rewrite K. cbn [map In]. setoid_rewrite parse_in_ok. unfold described. setoid_rewrite rows_in. tauto.
    - intros t I c l. rewrite (V t I). reflexivity.
    - intros t I c. rewrite (C t I). setoid_rewrite rows_in. split; [|auto]. intros [(e & E & _)|X]; [discriminate|exact X].
  Qed.
  Lemma entry_in l acc e : sound so d (decorated d) acc -> Permutation l (map snd acc) -> In e l -> In (e_ieml e, e) acc /\ get_key (e_ieml e) acc = Some e.
  Proof.
    intros S P I. apply (Permutation_in _ P) in I. apply in_map_iff in I as ([t e'] & E & I). cbn [snd] in E. subst e'.
    assert (E : e_ieml e = t) by (apply started_text; apply (proj2 S t e I)). rewrite E. split; [exact I|].
    destruct (get_key t acc) as [e'|] eqn:G.
    - f_equal. apply get_key_in in G. pose proof (nodup_inj fst acc (t, e') (t, e) (proj1 S) G I eq_refl) as X. congruence.
    - apply get_key_none in G. exfalso. apply G. change t with (fst (t, e)). now apply in_map.
  Qed.

  (** Each described expression that can be read with the dictionary is listed once, and nothing else. *)
  Theorem C78_lists_exactly_the_readable_descriptions : forall l, get_list = Ok l ->
    NoDup (map e_ieml l) /\ forall t, In t (map e_ieml l) <-> (described rows t /\ exists x, readable so d t x).
  Proof.
    intros l H. destruct (list_facts l H) as (acc & S & P & _ & _ & K & _).
    assert (P' : Permutation (map e_ieml l) (map fst acc)). { rewrite <- (acc_texts acc S). apply Permutation_map, P. }
    split; [eapply Permutation_NoDup; [apply Permutation_sym, P'|apply S]|]. intros t. rewrite <- K. split; apply Permutation_in; [|apply Permutation_sym]; exact P'.
  Qed.

  (** Each element has the values that the descriptors of the folder give, in the same order, and a key
      for each class of descriptors of the expression. *)
  Theorem C78_values_are_those_of_the_descriptors : forall l e, get_list = Ok l -> In e l ->
    (forall c lang, listed_values e c lang = described_by rows (e_ieml e) lang c) /\
    (forall c x, get_key c (e_values e) = Some x -> map fst x = LANGUAGES) /\
    (forall c, get_key c (e_values e) <> None <-> exists lang v, In (e_ieml e, lang, c, v) rows).
  Proof.
    intros l e H I. destruct (list_facts l H) as (acc & S & P & _ & _ & K & V & C). destruct (entry_in l acc e S P I) as (I' & G).
    assert (It : In (e_ieml e) (map fst acc)). { change (e_ieml e) with (fst (e_ieml e, e)). now apply in_map. }
    split; [|split].
    - intros c lang. specialize (V _ It c lang). unfold values_in in V. rewrite G in V. rewrite V. unfold described_by. f_equal.
      apply filter_sort. intros [[[t1 l1] c1] v1] [[[t2 l2] c2] v2] E1 E2. rewrite !andb_true_iff, !String.eqb_eq in E1, E2. destruct E1 as ((-> & ->) & ->), E2 as ((-> & ->) & ->).
      unfold row4_lt. rewrite !string_lt_irrefl, !andb_false_r. reflexivity.
    - apply (proj2 S _ _ I').
    - intros c. rewrite <- (C _ It c). unfold has_class. rewrite G. split; [eauto|]. intros (e' & E & X). congruence.
  Qed.
  (** The same values as [get_descriptors().get_values(...)] *)
  Theorem C78_values_agree_with_get_values : forall parse_ieml l e c lang, get_list = Ok l -> In e l -> In lang LANGUAGES -> In c DESCRIPTORS_CLASS ->
    get_values parse_ieml rows (e_ieml e) lang c = Ok (listed_values e c lang).
  Proof.
    intros parse_ieml l e c lang H I Hl Hc. rewrite (proj1 (C78_values_are_those_of_the_descriptors l e H I)). unfold get_values, normalize_key. 
    rewrite andb_false_r. destruct Hl as [<-|[<-|[]]]; repeat (destruct Hc as [<-|Hc]; [reflexivity|]); destruct Hc.
  Qed.

  (** The list is sorted by key, and by text for the same key. *)
  Theorem C78_list_is_sorted : forall l, get_list = Ok l -> StronglySorted before l.
  Proof.
    intros l H. destruct (list_facts l H) as (acc & S & _ & K & -> & _).
    apply (stable_lex e_index (fun a b => string_lt (e_ieml a) (e_ieml b) = true)).
    rewrite <- (acc_texts acc S) in K. revert K. generalize (map snd acc) as m. clear. intros m. induction m as [|x m IH]; intros K; [constructor|].
    cbn [map] in K. inversion K as [|? ? K' F]; subst. constructor; [apply IH, K'|]. apply Forall_map in F. exact F.
  Qed.

  Lemma sorted_before {A} (R : A -> A -> Prop) l1 a l2 b l3 : StronglySorted R (l1 ++ a :: l2 ++ b :: l3) -> R a b.
  Proof.
    induction l1 as [|x l1 IH]; cbn [app]; intros S; inversion S as [|? ? S' F]; subst; [|apply IH, S'].
    rewrite Forall_forall in F. apply F. apply in_or_app. right. now left.
  Qed.
  Lemma string_lt_head c s s' : string_lt (String c s) (String c s') = string_lt s s'.
  Proof. unfold string_lt. cbn [list_ascii_of_string map bytes_lt]. rewrite N.ltb_irrefl, N.eqb_refl. reflexivity. Qed.

  (** The morphemes come first, in the order of the dictionary. *)
  Theorem C78_morphemes_come_first_in_dictionary_order : forall l1 a l2 b l3,
    (N.of_nat (List.length (d_scripts d)) <= 62 ^ 30)%N ->
    get_list = Ok (l1 ++ a :: l2 ++ b :: l3)%list -> e_type b = "morpheme" ->
    e_type a = "morpheme" /\ exists i j x y, i < j /\ nth_error (d_scripts d) i = Some x /\ nth_error (d_scripts d) j = Some y /\ e_ieml a = str x /\ e_ieml b = str y.
  Proof.
    intros l1 a l2 b l3 Hn H Tb. pose proof (sorted_before _ _ _ _ _ _ (C78_list_is_sorted _ H)) as B.
    destruct (C78_lists_exactly_the_readable_descriptions _ H) as (ND & _).
    destruct (list_facts _ H) as (acc & S & P & _).
    assert (Ia : In a (l1 ++ a :: l2 ++ b :: l3)) by (apply in_or_app; right; now left).
    assert (Ib : In b (l1 ++ a :: l2 ++ b :: l3)) by (apply in_or_app; right; right; apply in_or_app; right; now left).
    assert (Dab : e_ieml a <> e_ieml b).
    { intros E. rewrite map_app in ND. cbn [map] in ND. rewrite map_app in ND. cbn [map] in ND. apply NoDup_remove_2 in ND. apply ND. apply in_or_app. right.
      apply in_or_app. right. left. congruence. }
    destruct (entry_in _ acc a S P Ia) as (Ja & _). destruct (entry_in _ acc b S P Ib) as (Jb & _).
    destruct (started_kind so d (decorated d) DEC _ _ (proj1 (proj2 S _ _ Ja))) as (ua & dsa & _ & Ka).
    destruct (started_kind so d (decorated d) DEC _ _ (proj1 (proj2 S _ _ Jb))) as (ub & dsb & _ & Kb).
    destruct Kb as [(_ & sb & j & Sb & Xb & Eb)|[(T & _)|(T & _)]]; [|congruence|congruence].
    assert (Hj : j < List.length (d_scripts d) /\ exists y, nth_error (d_scripts d) j = Some y /\ str y = str sb) by (apply index_some, Xb).
    destruct Ka as [(Ta & sa & i & Sa & Xa & Ea)|[(Ta & p & n & _ & _ & _ & _ & Ea)|(Ta & Ea)]].
    - split; [exact Ta|]. destruct (index_some _ _ _ Xa) as (Hi & x & Nx & Ex). destruct Hj as (Hj & y & Ny & Ey).
      exists i, j, x, y. split; [|rewrite Ex, Ey; auto]. unfold before in B. rewrite Ea, Eb in B.
      assert (Li : (N.of_nat i < 62 ^ 30)%N) by lia. assert (Lj : (N.of_nat j < 62 ^ 30)%N) by lia.
      destruct (C35_index_keys_sort_like_indices (N.of_nat i) (N.of_nat j) Li Lj) as (O & Inj).
      destruct B as [B|(B & _)].
      + change ("0" ++ int2base (N.of_nat i)) with (String "0" (int2base (N.of_nat i))) in B. change ("0" ++ int2base (N.of_nat j)) with (String "0" (int2base (N.of_nat j))) in B.
        rewrite string_lt_head in B. change (string_lt (int2base (N.of_nat i)) (int2base (N.of_nat j))) with (str_lt (int2base (N.of_nat i)) (int2base (N.of_nat j))) in B.
        apply (proj1 O) in B. lia.
      + exfalso. apply Dab. assert (X : int2base (N.of_nat i) = int2base (N.of_nat j)). { cbn [append] in B. injection B as B. exact B. }
        apply (proj1 Inj) in X. assert (i = j) by lia. subst j. congruence.
    - exfalso. unfold before in B. rewrite Ea, Eb in B. destruct B as [B|(B & _)]; discriminate B.
    - exfalso. unfold before in B. rewrite Ea, Eb in B. destruct B as [B|(B & _)]; discriminate B.
  Qed.

  Lemma constants_full t p ds : usl_parse so t = Ok (UPm p, ds) -> 2 <= List.length (constant p) -> filter_empty (constant p) = constant p.
  Proof.
    unfold usl_parse. destruct (String.eqb t ""); [discriminate|]. destruct (p_proposition (ulex 0 false t)) as [[u ds']|]; [|discriminate].
    destruct (e_usl so u) as [x|e] eqn:E; [|destruct e; discriminate]. intros H. apply Ok_inj in H. injection H as -> ->.
    assert (X : exists cs gs, p = mk_pm cs gs).
    { destruct u as [s|p'|l'|es]; cbn [e_usl] in E.
      - destruct (parse so s); discriminate.
      - unfold e_pm in E. destruct (e_morphemes so (raw_constant p')) as [cs|]; cbn [bind] in E; [|discriminate].
        match type of E with context [mapM ?f ?l] => destruct (mapM f l) as [gs|] end; cbn [bind] in E; [|discriminate]. apply Ok_inj in E. injection E as <-. eauto.
      - destruct (e_lexeme so l'); discriminate.
      - destruct (e_word so es); discriminate. }
    destruct X as (cs & gs & ->). cbn [mk_pm constant]. destruct (isort (filter_empty cs)) as [|x m] eqn:Ei; [cbn; lia|]. intros _.
    assert (F : Forall (fun s => negb (is_empty s) = true) (x :: m)).
    { rewrite <- Ei. apply (Permutation_Forall (Permutation_sym (isort_perm _))). apply Forall_forall. intros s I. apply filter_In in I. apply I. }
    unfold filter_empty. clear Ei. induction F as [|y k Fy F IH]; [reflexivity|]. cbn [filter]. rewrite Fy, IH. reflexivity.
  Qed.
  (** Polymorphemes with the same number of morphemes and no groups have distinct keys. *)
  Theorem C78_keys_of_polymorphemes_partial : forall l a b p q, get_list = Ok l -> In a l -> In b l ->
    readable so d (e_ieml a) (UPm p, []) -> readable so d (e_ieml b) (UPm q, []) -> groups p = [] -> groups q = [] ->
    List.length (constant p) = List.length (constant q) -> 2 <= List.length (constant p) ->
    (N.of_nat (List.length (d_scripts d)) ^ N.of_nat (List.length (constant p)) <= 62 ^ 30)%N ->
    e_index a = e_index b -> a = b.
  Proof.
    intros l a b p q H Ia Ib Ra Rb Gp Gq L L2 Hn E. destruct (list_facts _ H) as (acc & S & P & _).
    destruct (entry_in _ acc a S P Ia) as (Ja & Ga). destruct (entry_in _ acc b S P Ib) as (Jb & Gb).
    destruct (proj1 (proj2 S _ _ Ja)) as (ua & dsa & ea & Pa & Na & Ha). destruct (proj1 (proj2 S _ _ Jb)) as (ub & dsb & eb & Pb & Nb & Hb).
    apply parse_in_ok in Ra, Rb. rewrite Ra in Pa. apply Ok_inj in Pa. rewrite Rb in Pb. apply Ok_inj in Pb. injection Pa as <- <-. injection Pb as <- <-.
    assert (X : forall t r e0, parse_in so d t = Ok (UPm r, []) -> new_entry so d (decorated d) t (UPm r) [] = Ok e0 -> groups r = [] -> 2 <= List.length (constant r) ->
      pm_str r = t /\ exists k, mapM (Dictionary.idx (d_scripts d)) (constant r) = Ok k /\ e_index e0 = "1" ++ int2base (number (N.of_nat (List.length (d_scripts d))) k)).
    { intros t r e0 Pr Nr Gr Lr. destruct (new_entry_plain so d (decorated d) t (UPm r) e0 Pr Nr) as (T & _ & _ & (k & Hk & He)). split; [exact T|].
      rewrite get_index_pm in Hk. assert (Es : single r = false). { unfold single. destruct (constant r) as [|x [|y m]]; cbn in Lr; try lia; reflexivity. }
      rewrite Es in Hk. unfold polymorph_idx in Hk. destruct (mapM (Dictionary.idx (d_scripts d)) (constant r)) as [m|] eqn:Em; cbn [bind] in Hk; [|discriminate].
      apply Ok_inj in Hk. subst k. cbn [fst snd unwrap] in He. exists m. split; [reflexivity|]. unfold entry_of in He. destruct (usl_cardinal so (UPm r)); cbn [bind] in He; [|discriminate].
      destruct (class_name (UPm r)); cbn [bind] in He; [|discriminate]. apply Ok_inj in He. subst e0. reflexivity. }
    destruct (X _ _ _ Ra Na Gp L2) as (Ta & ka & Ka & Xa). rewrite L in L2, Hn. destruct (X _ _ _ Rb Nb Gq L2) as (Tb & kb & Kb & Xb).
    destruct Ha as (_ & _ & _ & _ & Ha & _). destruct Hb as (_ & _ & _ & _ & Hb & _). rewrite Ha, Hb, Xa, Xb in E.
    assert (Bd : forall r k, mapM (Dictionary.idx (d_scripts d)) r = Ok k -> List.length k = List.length r /\ Forall (fun i => (N.of_nat i < N.of_nat (List.length (d_scripts d)))%N) k /\
       map str r = map (fun i => match nth_error (d_scripts d) i with Some x => str x | None => "" end) k).
    { induction r as [|x r IH]; intros k Hk; [apply Ok_inj in Hk; subst k; cbn; auto|]. cbn [mapM] in Hk. destruct (Dictionary.idx (d_scripts d) x) as [i|] eqn:Ei; cbn [bind] in Hk; [|discriminate].
      destruct (mapM (Dictionary.idx (d_scripts d)) r) as [k'|] eqn:Er; cbn [bind] in Hk; [|discriminate]. apply Ok_inj in Hk. subst k.
      destruct (IH k' eq_refl) as (A & B & C). destruct (index_some _ _ _ Ei) as (Li & y & Ny & Ey). split; [cbn; lia|]. split; [constructor; [lia|exact B]|].
      cbn [map]. rewrite Ny, Ey, C. reflexivity. }
    destruct (Bd _ _ Ka) as (La & Fa & Sa). destruct (Bd _ _ Kb) as (Lb & Fb & Sb).
    assert (Y : ka = kb).
    { apply (number_inj (N.of_nat (List.length (d_scripts d)))); [exact Fa|exact Fb|congruence|].
      assert (E' : int2base (number (N.of_nat (List.length (d_scripts d))) ka) = int2base (number (N.of_nat (List.length (d_scripts d))) kb)). { cbn [append] in E. injection E as E. exact E. }
      assert (Na' : (number (N.of_nat (List.length (d_scripts d))) ka < 62 ^ 30)%N). { destruct (number_bound _ _ Fa) as [Z|Z]; [rewrite La, L in Z; lia|subst ka; cbn in La; lia]. }
      assert (Nb' : (number (N.of_nat (List.length (d_scripts d))) kb < 62 ^ 30)%N). { destruct (number_bound _ _ Fb) as [Z|Z]; [rewrite Lb in Z; lia|subst kb; cbn in Lb; lia]. }
      apply (proj2 (C35_index_keys_sort_like_indices _ _ Na' Nb')). exact E'. }
    assert (Sc : map str (constant p) = map str (constant q)) by congruence.
    assert (Et : e_ieml a = e_ieml b).
    { rewrite <- Ta, <- Tb. unfold pm_str. rewrite Gp, Gq. cbn [map]. rewrite !app_nil_r. f_equal.
      rewrite (constants_full (e_ieml a) p []), (constants_full (e_ieml b) q []); [exact Sc|apply parse_in_ok in Rb; apply Rb|lia|apply parse_in_ok in Ra; apply Ra|lia]. }
    congruence.
  Qed.

  (** When the list is returned: every row of an expression that can be read has a known language and a
      class of descriptors that is not the name of another key, and its expression, if it has no
      decorations, is written as it prints and is no word, and its constants are in the dictionary. *)
  Definition row_fits (t lang c : string) : Prop :=
    (parse_in so d t = Err CannotParse) \/
    (exists u ds, readable so d t (u, ds) /\ In lang LANGUAGES /\ ~ In c RESERVED /\
       match ds with [] => usl_str u = t /\ listable d u | _ => exists e, decorated d t u ds = Ok e end).
  Theorem C78_when_the_list_is_returned : (exists l, get_list = Ok l) <-> forall t lang c v, In (t, lang, c, v) rows -> row_fits t lang c.
  Proof.
    assert (A : (exists l, get_list = Ok l) <-> exists acc, list_rows so d (decorated d) [] (sort row4_lt rows) = Ok acc).
    { split; [intros (l & H); apply listed_acc in H as (acc & H & _); eauto|]. intros (acc & H). unfold Listing.get_list, list_described.
      rewrite Hd. cbn [bind]. rewrite Hr. cbn [bind]. rewrite H. cbn [bind]. eauto. }
    rewrite A, (proj2 (rows_spec so d (decorated d) DEC (sort row4_lt rows) [] sound_nil)). clear A.
    assert (R : forall t lang c v, row_ok so d (decorated d) (t, lang, c, v) <-> row_fits t lang c).
    { intros t lang c v. cbn [row_ok]. unfold row_fits. destruct (parse_in so d t) as [[u ds]|x] eqn:Hp.
      - split.
        + intros (E & Hl & Hc). right. exists u, ds. split; [apply parse_in_ok, Hp|]. split; [exact Hl|]. split; [exact Hc|]. destruct ds; [apply (proj1 (new_entry_ok so d (decorated d) t u)), E|exact E].
        + intros [H|(u' & ds' & H & Hl & Hc & E)]; [discriminate|]. apply parse_in_ok in H. rewrite Hp in H. apply Ok_inj in H. injection H as <- <-.
          split; [|auto]. destruct ds; [apply (proj2 (new_entry_ok so d (decorated d) t u)), E|exact E].
      - split.
        + intros H. left. destruct x; try contradiction. reflexivity.
        + intros [H|(u' & ds' & H & _)]; [injection H as ->; exact Logic.I|]. apply parse_in_ok in H. congruence. }
    rewrite Forall_forall. split.
    - intros H t lang c v I. apply (R t lang c v), H, rows_in, I.
    - intros H [[[t lang] c] v] I. apply R. eapply H. apply rows_in, I.
  Qed.

  (** As soon as a word is described the list cannot be computed. *)
  Theorem C78_a_described_word_breaks_the_list : forall t w, described rows t -> readable so d t (UWord w, []) -> forall l, get_list <> Ok l.
  Proof.
    intros t w (lang & c & v & I) R l H. destruct (proj1 C78_when_the_list_is_returned (ex_intro _ l H) t lang c v I) as [E|(u & ds & R' & _ & _ & F)].
    - apply parse_in_ok in R. congruence.
    - apply parse_in_ok in R, R'. rewrite R in R'. apply Ok_inj in R'. injection R' as <- <-. destruct F as (_ & []).
  Qed.

  (** The other fields of a morpheme, a polymorpheme, a lexeme *)
  Theorem C78_fields : forall l e u, get_list = Ok l -> In e l -> readable so d (e_ieml e) (u, []) ->
    match u with
    | UScript s =>
      e_type e = "morpheme" /\ (e_paradigm e = true <-> cardinal s <> 1%N) /\ nth_error CLASS_NAMES (script_class s) = Some (e_class e) /\
      e_cardinality e = (if N.eqb (cardinal s) 1 then "singular_sequence" else if memb script_eqb s (map fst (d_forest d)) then "root_paradigm" else "paradigm")
    | UPm p => 2 <= List.length (constant p) + List.length (groups p) ->
      e_type e = "polymorpheme" /\ (e_paradigm e = true <-> List.length (pm_ss so p) <> 1) /\ nth_error CLASS_NAMES (pm_class p) = Some (e_class e) /\
      e_cardinality e = (if Nat.eqb (List.length (pm_ss so p)) 1 then "singular_sequence" else "paradigm")
    | ULexeme x =>
      (e_paradigm e = true <-> List.length (lexeme_ss so x) <> 1) /\ nth_error CLASS_NAMES (pm_class (pm_content x)) = Some (e_class e) /\
      e_cardinality e = (if Nat.eqb (List.length (lexeme_ss so x)) 1 then "singular_sequence" else "paradigm")
    | UWord _ => False
    end.
  Proof.
    intros l e u H I R. destruct (list_facts _ H) as (acc & S & P & _). destruct (entry_in _ acc e S P I) as (J & _).
    destruct (proj1 (proj2 S _ _ J)) as (u' & ds & e0 & Hp & Hn & (_ & H2 & H3 & H4 & _ & H6)). apply parse_in_ok in R. rewrite R in Hp. apply Ok_inj in Hp. injection Hp as <- <-.
    rewrite H2, H3, H4, H6. clear H2 H3 H4 H6. destruct (new_entry_plain so d (decorated d) _ u e0 R Hn) as (_ & _ & _ & (k & Hk & He)).
    assert (B : forall n : nat, negb (N.eqb (N.of_nat n) 1) = true <-> n <> 1).
    { intros n. rewrite negb_true_iff, N.eqb_neq. lia. }
    assert (B' : forall n : nat, N.eqb (N.of_nat n) 1 = Nat.eqb n 1).
    { intros n. destruct (Nat.eqb_spec n 1) as [->|N]; [reflexivity|]. apply N.eqb_neq. lia. }
    assert (Nm : forall n, match nth_error CLASS_NAMES n with Some x => Ok x | None => Err KeyError end = Ok (e_class e0) -> nth_error CLASS_NAMES n = Some (e_class e0)).
    { intros n. destruct (nth_error CLASS_NAMES n); [intros Q; apply Ok_inj in Q; congruence|discriminate]. }
    destruct u as [s|p|x|w].
    - cbn [get_index] in Hk. destruct (Dictionary.idx (d_scripts d) s); cbn [bind] in Hk; [|discriminate]. apply Ok_inj in Hk. subst k. cbn [fst snd unwrap] in He.
      unfold entry_of in He. cbn [usl_cardinal bind] in He. destruct (class_name (UScript s)) as [c|] eqn:Ec; cbn [bind] in He; [|discriminate]. apply Ok_inj in He. subst e0. cbn [e_type e_paradigm e_class e_cardinality] in *.
      split; [reflexivity|]. split; [rewrite negb_true_iff, N.eqb_neq; tauto|]. split; [apply Nm, Ec|]. reflexivity.
    - intros L. rewrite get_index_pm in Hk. assert (Es : single p = false). { unfold single. destruct (constant p) as [|a [|b m]], (groups p); cbn in L; try lia; reflexivity. }
      rewrite Es in Hk. destruct (polymorph_idx d p); cbn [bind] in Hk; [|discriminate]. apply Ok_inj in Hk. subst k. cbn [fst snd unwrap] in He.
      unfold entry_of in He. cbn [usl_cardinal bind] in He. destruct (class_name (UPm p)) as [c|] eqn:Ec; cbn [bind] in He; [|discriminate]. apply Ok_inj in He. subst e0. cbn [e_type e_paradigm e_class e_cardinality is_root] in *.
      split; [reflexivity|]. split; [apply B|]. split; [apply Nm, Ec|]. rewrite B'. reflexivity.
    - cbn [get_index] in Hk. apply Ok_inj in Hk. subst k. cbn [fst snd unwrap] in He.
      unfold entry_of in He. cbn [usl_cardinal bind] in He. destruct (class_name (ULexeme x)) as [c|] eqn:Ec; cbn [bind] in He; [|discriminate]. apply Ok_inj in He. subst e0. cbn [e_type e_paradigm e_class e_cardinality is_root] in *.
      split; [apply B|]. split; [apply Nm, Ec|]. rewrite B'. reflexivity.
    - cbn [get_index] in Hk. apply Ok_inj in Hk. subst k. apply (proj1 (entry_ok so d 2 ("2" ++ int2base 0) (UWord w))). eauto.
  Qed.
End List.
Print Assumptions C78_lists_exactly_the_readable_descriptions.
Print Assumptions C78_values_are_those_of_the_descriptors.
Print Assumptions C78_values_agree_with_get_values.
Print Assumptions C78_list_is_sorted.
Print Assumptions C78_morphemes_come_first_in_dictionary_order.
Print Assumptions C78_keys_of_polymorphemes_partial.
Print Assumptions C78_when_the_list_is_returned.
Print Assumptions C78_a_described_word_breaks_the_list.
Print Assumptions C78_fields.

(** * A folder with four paradigms, of which three are roots, and other described expressions *)
Definition usl_text (t : string) : res string := do x <- usl_parse ident t; Ok (usl_str (fst x)).
Definition no_decorations (d : dictionary) (t : string) (u : usl) (ds : list (string * string)) : res entry := Err NotImplementedError.
Definition folder_of (l : list string) : fsys := run usl_text simple_path [] (history71 ++ AddStructure "E:F:." "is_root" "True" :: named ("E:F:." :: l)).
Definition list_of (l : list string) : res (list entry) := get_list ident is_desc_file listed_file (fun l => l) no_decorations (folder_of l).
Definition shown (r : res (list entry)) : res (list (string * (string * bool) * (string * string))) :=
  do l <- r; Ok (map (fun e => (e_ieml e, (e_type e, e_paradigm e), (e_class e, e_cardinality e))) l).
Definition folder_dictionary (l : list string) : res dictionary := get_dictionary ident is_desc_file (fun l => l) listed_file (folder_of l).
Definition folder_rows (l : list string) : res (list (string * string * string * string)) := get_descriptors is_desc_file (fun l => l) (folder_of l).
Lemma no_decorations_ok d : decorated_ok (no_decorations d).
Proof. intros t u ds e H. discriminate. Qed.

Example C78_case :
  shown (list_of ["t."; "s. b."; "s. t."; "b. m1(k. m.)"; "(s.)(b.)"; "wa."; "b."]) = Ok
  [("b.", ("morpheme", false), ("Noun", "singular_sequence"));
   ("t.", ("morpheme", false), ("Noun", "singular_sequence"));
   ("S:M:.", ("morpheme", true), ("Noun", "paradigm"));
   ("E:F:.", ("morpheme", true), ("Auxiliary", "root_paradigm"));
   ("O:M:.", ("morpheme", true), ("Verb", "root_paradigm"));
   ("M:M:.", ("morpheme", true), ("Noun", "root_paradigm"));
   ("b. m1(k. m.)", ("polymorpheme", true), ("Noun", "paradigm"));
   ("s. b.", ("polymorpheme", false), ("Noun", "singular_sequence"));
   ("s. t.", ("polymorpheme", false), ("Noun", "singular_sequence"));
   ("(s.)(b.)", ("word", false), ("Noun", "singular_sequence"))] /\
  (exists d rows, folder_dictionary ["t."; "s. b."] = Ok d /\ folder_rows ["t."; "s. b."] = Ok rows /\ decorated_ok (no_decorations d) /\
     (N.of_nat (List.length (d_scripts d)) ^ 2 <= 62 ^ 30)%N /\ readable ident d "s. b." (UPm (mk_pm [text "b."; text "s."] []), [])).
Proof.
  split; [vm_compute; reflexivity|].
  assert (X : exists d rows, folder_dictionary ["t."; "s. b."] = Ok d /\ folder_rows ["t."; "s. b."] = Ok rows /\
    (N.of_nat (List.length (d_scripts d)) ^ 2 <=? 62 ^ 30)%N = true /\ parse_in ident d "s. b." = Ok (UPm (mk_pm [text "b."; text "s."] []), [])).
  { eexists. eexists. split; [vm_compute; reflexivity|]. split; [vm_compute; reflexivity|]. split; vm_compute; reflexivity. }
  destruct X as (d & rows & A & B & C & D). exists d, rows. split; [exact A|]. split; [exact B|]. split; [apply no_decorations_ok|].
  split; [apply N.leb_le, C|apply parse_in_ok, D].
Qed.

(** A word is a described expression like the others: the list raises KeyError. *)
Theorem C78_words_refuted : exists w, usl_text w = Ok w /\ list_of [w] = Err KeyError /\ list_of [] <> Err KeyError.
Proof. exists "[! E:S:. (b.)(t.)]". split; [vm_compute; reflexivity|]. split; [vm_compute; reflexivity|]. vm_compute. discriminate. Qed.
Print Assumptions C78_words_refuted.
(** A lexeme is shown as a word. *)
Theorem C78_types_refuted : exists e, list_of ["(s.)(b.)"] = Ok (removelast (match list_of ["(s.)(b.)"] with Ok l => l | _ => [] end) ++ [e])%list /\
  e_ieml e = "(s.)(b.)" /\ e_type e = "word" /\ exists x, usl_parse ident (e_ieml e) = Ok (ULexeme x, []).
Proof. eexists. split; [vm_compute; reflexivity|]. split; [reflexivity|]. split; [reflexivity|]. eexists. vm_compute. reflexivity. Qed.
Print Assumptions C78_types_refuted.
(** The key of a polymorpheme leaves out its groups. *)
Theorem C78_keys_refuted : exists t t' l a b, list_of [t; t'] = Ok l /\ In a l /\ In b l /\ e_ieml a = t /\ e_ieml b = t' /\ t <> t' /\ e_type a = "polymorpheme" /\ e_index a = e_index b.
Proof.
  exists "b. t.", "b. t. m1(k. m.)".
  assert (X : exists l, list_of ["b. t."; "b. t. m1(k. m.)"] = Ok l /\
    existsb (fun a => existsb (fun b => String.eqb (e_ieml a) "b. t." && String.eqb (e_ieml b) "b. t. m1(k. m.)" && String.eqb (e_type a) "polymorpheme" && String.eqb (e_index a) (e_index b)) l)%bool l = true).
  { eexists. split; vm_compute; reflexivity. }
  destruct X as (l & H & X). apply existsb_exists in X as (a & Ia & X). apply existsb_exists in X as (b & Ib & X). rewrite !andb_true_iff, !String.eqb_eq in X.
  exists l, a, b. intuition discriminate.
Qed.
Print Assumptions C78_keys_refuted.
(** A polymorpheme that has only groups is written with morphemes of the dictionary: the list raises KeyError. *)
Theorem C78_groups_refuted : exists p d, usl_text p = Ok p /\ folder_dictionary [p] = Ok d /\ (exists x, readable ident d p x) /\ list_of [p] = Err KeyError.
Proof.
  exists "m1(k. m.)".
  assert (X : exists d x, folder_dictionary ["m1(k. m.)"] = Ok d /\ parse_in ident d "m1(k. m.)" = Ok x).
  { eexists. eexists. split; vm_compute; reflexivity. }
  destruct X as (d & x & A & B). exists d. split; [vm_compute; reflexivity|]. split; [exact A|]. split; [exists x; apply parse_in_ok, B|vm_compute; reflexivity].
Qed.
Print Assumptions C78_groups_refuted.
