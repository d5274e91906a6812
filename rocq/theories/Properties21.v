(** Properties C71 to C75: the transactions on paradigms. *)
From Coq Require Import List String Ascii Bool NArith Arith Lia Permutation.
From Verif Require Import Base Script ScriptParser ScriptSpec ScriptWf ScriptCtorProofs ScriptParseProofs ScriptEqProofs ScriptMoreProofs ScriptSeqProofs TablesProofs TablesGridProofs UslProofs SortProofs Tables Factor
  Dictionary DictionarySpec DictTableProofs DictLoadProofs DictTopProofs
  Database DatabaseSpec DatabasePath DatabasePathProofs DatabaseProofs DatabaseRefine Git GitProofs Cache Transactions TransactionsProofs Properties1 Properties3 Properties4 Properties6 Properties16
  Paradigms ParadigmsSpec ParadigmsProofs ParadigmsDictProofs ParadigmsStepProofs ParadigmsUpdateProofs.
Import ListNotations.
Local Open Scope string_scope.

Section Transactions.
  Variable so : list script -> list script.
  Hypothesis SO : set_order so.
  Variable parse_ieml : string -> res string.
  Variable path : bool -> string -> string.
  Variables is_desc listed : string -> bool.
  Variable fo : fsys -> fsys.
  Hypothesis ok : paradigms_folder so parse_ieml path is_desc listed.
  Hypothesis Fo : file_order fo.
  (** The folder was made by plain calls, nothing is to be committed and its dictionary is [d]. *)
  Variable ops : list op.
  Hypothesis Hops : Forall (plain_op parse_ieml) ops.
  Variable r : repo.
  Hypothesis Hw : work r = run parse_ieml path [] ops.
  Hypothesis Hc : nothing_to_commit r.
  Variable d : dictionary.
  Hypothesis Hd : get_dictionary so is_desc fo listed (work r) = Ok d.
  Let fok := pf_folder _ _ _ _ _ ok.
  Let D := fst (multimap parse_ieml ops).
  Let T := snd (multimap parse_ieml ops).

  (** The descriptors and the structure of an expression in a repository *)
  Definition descriptors_in (q : repo) (i l c : string) : res (list (option string)) := descriptor_values parse_ieml is_desc fo (work q) i l c.
  Definition structure_in (q : repo) (i k : string) : list string := structure_of is_desc fo (work q) i k.
  Definition dictionary_in (q : repo) : res dictionary := get_dictionary so is_desc fo listed (work q).

  Lemma descriptors_after new q : work q = run parse_ieml path [] (ops ++ new) -> Forall (plain_op parse_ieml) (ops ++ new) ->
    forall i l c, In l LANGUAGES -> In c DESCRIPTORS_CLASS -> descriptors_in q i l c = Ok (map Some (values_of (fst (multimap parse_ieml (ops ++ new))) i l c)).
  Proof. intros W H i l c Hl Hc'. unfold descriptors_in. rewrite W. apply (C40_database_is_a_multimap_partial parse_ieml path is_desc fo (ops ++ new)); auto. Qed.
  Lemma descriptors_before i l c : In l LANGUAGES -> In c DESCRIPTORS_CLASS -> descriptors_in r i l c = Ok (map Some (values_of D i l c)).
  Proof. intros Hl Hc'. unfold descriptors_in. rewrite Hw. apply (C40_database_is_a_multimap_partial parse_ieml path is_desc fo ops); auto. Qed.
  Lemma structure_after new q : work q = run parse_ieml path [] (ops ++ new) -> Forall (plain_op parse_ieml) (ops ++ new) ->
    forall i k, structure_in q i k = svalues_of (snd (multimap parse_ieml (ops ++ new))) i k.
  Proof. intros W H i k. unfold structure_in. rewrite W. apply (structure_of_spec so parse_ieml path is_desc listed fo ok Fo); auto. Qed.
  Lemma structure_before i k : structure_in r i k = svalues_of T i k.
  Proof. unfold structure_in. rewrite Hw. apply (structure_of_spec so parse_ieml path is_desc listed fo ok Fo); auto. Qed.
  Lemma inv_before : Inv parse_ieml path (work r) (D, T).
  Proof. rewrite Hw. pose proof (history_inv so parse_ieml path is_desc listed ok ops Hops) as H. unfold D, T. destruct (multimap parse_ieml ops); exact H. Qed.
  Lemma inv_after new q : work q = run parse_ieml path [] (ops ++ new) -> Forall (plain_op parse_ieml) (ops ++ new) -> Inv parse_ieml path (work q) (multimap parse_ieml (ops ++ new)).
  Proof. intros W H. rewrite W. apply (history_inv so parse_ieml path is_desc listed ok _ H). Qed.

  Lemma check_script_ok s : check_script so s = Ok tt <-> factorised so s.
  Proof.
    unfold check_script, factorised. destruct (factorize so false (inl s)) as [f|e]; cbn [bind].
    - unfold script_eqb. destruct (String.eqb_spec (str f) (str s)) as [E|N]; split; try discriminate; eauto. intros (f' & E' & X). apply Ok_inj in E'. congruence.
    - split; [discriminate|]. intros (f & E & _). discriminate.
  Qed.
  Lemma normal s : constructible s -> parse_ieml (str s) = Ok (str s) /\ plain (str s).
  Proof. intros C. apply constructible_wf in C. split; [apply (script_normal so SO parse_ieml path is_desc listed ok s C)|apply script_plain, C]. Qed.
  Lemma messages i : message_of parse_ieml is_desc fo (work r) i = Ok tt.
  Proof. rewrite Hw. apply (message_ok so parse_ieml path is_desc listed fo ok Fo ops i Hops). Qed.

  (** * C71: add_morpheme_paradigm *)
  (** The script is its own factorisation, it is plural, it is not in the dictionary and it is inside a root. *)
  Definition can_be_added (s : script) : Prop :=
    factorised so s /\ cardinal s <> 1%N /\ ~ member d s /\ exists root, In root (d_root_scripts d) /\ included s root.

  Lemma add_plan_ok s : constructible s -> (add_plan so parse_ieml is_desc fo listed (work r) s = Ok tt <-> can_be_added s) /\
    (exists e, add_plan so parse_ieml is_desc fo listed (work r) s = Err e) \/ (add_plan so parse_ieml is_desc fo listed (work r) s = Ok tt /\ can_be_added s).
  Proof.
    intros C. pose proof (constructible_wf _ C) as W. destruct (dict_state so SO parse_ieml path is_desc listed fo ok Fo _ _ d inv_before Hd) as (P & rows & M & _).
    unfold add_plan, can_be_added. rewrite Hd. cbn [bind]. pose proof (check_script_ok s) as CS.
    destruct (check_script so s) as [[]|e]; cbn [bind].
    2: { left. split; [|eauto]. split; [discriminate|]. intros (F & _). apply CS in F. discriminate. }
    destruct (N.eqb_spec (cardinal s) 1) as [E|NE]; [left; split; [|eauto]; split; [discriminate|tauto]|].
    pose proof (C51_lookup d s) as (I & _). destruct (in_dictionary d s) eqn:Ei; [left; split; [|eauto]; split; [discriminate|tauto]|].
    assert (NM : ~ member d s) by (intros X; apply I in X; discriminate).
    destruct (roots_met_total d s W) as [c Ec]. rewrite Ec. cbn [bind].
    pose proof (roots_met_inv so SO P rows d M s) as RI. pose proof (roots_met_some so SO P rows d M s) as RS.
    destruct c as [|x [|y c]].
    - left. split; [|eauto]. split; [discriminate|]. intros (_ & _ & _ & q & Hq & Iq). rewrite (RS q W Hq Iq) in Ec. discriminate.
    - rewrite messages. cbn [bind]. destruct x as [x|]; cbn [message_of_root].
      + rewrite messages. right. split; [reflexivity|]. split; [now apply CS|]. split; [exact NE|]. split; [exact NM|]. exists x. now apply RI.
      + left. split; [|eauto]. split; [discriminate|]. intros (_ & _ & _ & q & Hq & Iq). rewrite (RS q W Hq Iq) in Ec. discriminate.
    - left. split; [|eauto]. split; [discriminate|]. intros (_ & _ & _ & q & Hq & Iq). rewrite (RS q W Hq Iq) in Ec. discriminate.
  Qed.

  Section Add.
    Variable s : script.
    Hypothesis Cs : constructible s.
    Variables translations comments : string -> list string.
    Definition plain_texts (t : string -> list string) : Prop :=
      forall l v, In v (t l) -> plain v /\ ~ In (normalize_value v) NA_VALUES.
    Hypothesis Ht : plain_texts translations.
    Hypothesis Hcm : plain_texts comments.
    Let added := add_morpheme_paradigm so parse_ieml path is_desc fo listed r s (fun l => Some (translations l)) (fun l => Some (comments l)) NoAccident.

    Let calls : list op := (RemoveDescriptor (str s) None None None :: RemoveStructure (str s) None None :: AddStructure (str s) "is_root" "False" :: text_calls (str s) translations comments)%list.
    Lemma add_feasible : Forall (feasible parse_ieml) calls.
    Proof.
      destruct (normal s Cs) as [N1 N2]. subst calls. constructor; [cbn; auto|]. constructor; [cbn; auto|]. constructor; [cbn; split; [auto|split; [auto|vm_compute; discriminate]]|].
      apply Forall_forall. intros o Ho. apply in_flat_map in Ho as (l & Hl & Ho). apply in_app_iff in Ho as [Ho|Ho]; apply in_map_iff in Ho as (v & <- & Hv).
      - destruct (Ht l v Hv). cbn. repeat split; auto; try apply N2; apply H.
      - destruct (Hcm l v Hv). cbn. repeat split; auto; try apply N2; apply H.
    Qed.
    Lemma add_records : multimap parse_ieml (ops ++ calls) = ((keep_d (str s) D ++ text_records (str s) translations comments)%list, (keep_s (str s) T ++ [(str s, "is_root", "False")])%list).
    Proof.
      destruct (normal s Cs) as [N1 _]. rewrite multimap_app. unfold D, T. destruct (multimap parse_ieml ops) as [D0 T0]. subst calls. cbn [fold_left fst snd].
      rewrite step_remove_d, step_remove_s by assumption. rewrite (step_add_s _ _ _ _ "False"); [|assumption|reflexivity]. apply text_calls_spec. assumption.
    Qed.
    Lemma add_run : can_be_added s -> exists r', added = (Ok tt, r') /\ work r' = run parse_ieml path [] (ops ++ calls) /\ nothing_to_commit r' /\ one_commit r r' /\ Forall (plain_op parse_ieml) (ops ++ calls).
    Proof.
      intros A. destruct (add_plan_ok s Cs) as [[E [e X]]|[E _]]; [apply E in A; congruence|]. unfold added, add_morpheme_paradigm. rewrite E. unfold add_calls. rewrite add_texts_given.
      apply (run_calls so parse_ieml path is_desc listed ok ops Hops r calls Hw Hc add_feasible).
    Qed.

    (** It succeeds exactly on the scripts which can be added, and otherwise nothing changes. *)
    Theorem C71_add_accepts : (can_be_added s -> exists r', added = (Ok tt, r')) /\ (~ can_be_added s -> exists e, added = (Err e, r)).
    Proof.
      split; [intros A; destruct (add_run A) as (r' & E & _); eauto|]. intros A. destruct (add_plan_ok s Cs) as [[_ [e X]]|[_ X]]; [|contradiction]. unfold added, add_morpheme_paradigm. rewrite X. eauto.
    Qed.
    (** Then the paradigm has the translations and comments which are given and nothing else, it is not a
        root, nothing else changes, in one commit. *)
    Theorem C71_add_effect_partial r' : added = (Ok tt, r') ->
      (forall l, In l LANGUAGES -> descriptors_in r' (str s) l "translations" = Ok (map Some (clean_texts (translations l))) /\
                                   descriptors_in r' (str s) l "comments" = Ok (map Some (clean_texts (comments l))) /\
                                   forall c, In c DESCRIPTORS_CLASS -> c <> "translations" -> c <> "comments" -> descriptors_in r' (str s) l c = Ok []) /\
      structure_in r' (str s) "is_root" = ["False"] /\ structure_in r' (str s) "is_ignored" = [] /\ structure_in r' (str s) "inhibition" = [] /\
      (forall i l c, In l LANGUAGES -> In c DESCRIPTORS_CLASS -> i <> str s -> descriptors_in r' i l c = descriptors_in r i l c) /\
      (forall i k, i <> str s -> structure_in r' i k = structure_in r i k) /\
      nothing_to_commit r' /\ one_commit r r'.
    Proof.
      intros E. assert (A : can_be_added s).
      { destruct (add_plan_ok s Cs) as [[_ [e X]]|[_ X]]; [|exact X]. unfold added, add_morpheme_paradigm in E. rewrite X in E. discriminate. }
      destruct (add_run A) as (q & E' & W & N & O & Pl). rewrite E in E'. injection E' as <-.
      pose proof (descriptors_after calls r' W Pl) as DA. pose proof (structure_after calls r' W Pl) as SA. rewrite add_records in DA, SA. cbn [fst snd] in DA, SA.
      split; [|split; [|split; [|split; [|split; [|split; [|split; [exact N|exact O]]]]]]].
      - intros l Hl. assert (K : forall c, In c DESCRIPTORS_CLASS -> descriptors_in r' (str s) l c = Ok (map Some (if String.eqb "translations" c then clean_texts (translations l) else if String.eqb "comments" c then clean_texts (comments l) else []))).
        { intros c Hc'. rewrite DA by auto. rewrite values_of_app, keep_d_values, text_records_values, !String.eqb_refl by exact Hl. reflexivity. }
        split; [rewrite K by (simpl; auto); reflexivity|]. split; [rewrite K by (simpl; auto); reflexivity|]. intros c Hc' N1 N2. rewrite K by exact Hc'. apply not_eq_sym, String.eqb_neq in N1, N2. rewrite N1, N2. reflexivity.
      - rewrite SA, svalues_of_app, keep_s_values, svalues_of_one, !String.eqb_refl. reflexivity.
      - rewrite SA, svalues_of_app, keep_s_values, svalues_of_one, !String.eqb_refl. reflexivity.
      - rewrite SA, svalues_of_app, keep_s_values, svalues_of_one, !String.eqb_refl. reflexivity.
      - intros i l c Hl Hc' Ni. rewrite DA by auto. rewrite descriptors_before by auto. rewrite values_of_app, keep_d_values, text_records_values by exact Hl.
        assert (String.eqb (str s) i = false) as -> by (apply String.eqb_neq; auto). rewrite app_nil_r. reflexivity.
      - intros i k Ni. rewrite SA, structure_before, svalues_of_app, keep_s_values, svalues_of_one.
        assert (String.eqb (str s) i = false) as -> by (apply String.eqb_neq; auto). cbn [andb]. rewrite app_nil_r. reflexivity.
    Qed.
    (** The roots of the dictionary which is read afterwards, if one is, are the same. *)
    Theorem C71_add_roots r' d' : added = (Ok tt, r') -> dictionary_in r' = Ok d' -> forall i, In i (roots_of d') <-> In i (roots_of d).
    Proof.
      intros E Ed. assert (A : can_be_added s).
      { destruct (add_plan_ok s Cs) as [[_ [e X]]|[_ X]]; [|exact X]. unfold added, add_morpheme_paradigm in E. rewrite X in E. discriminate. }
      destruct (add_run A) as (q & E' & W & N & O & Pl). rewrite E in E'. injection E' as <-.
      pose proof (inv_after calls r' W Pl) as IA. pose proof (roots_exact so SO parse_ieml path is_desc listed fo ok Fo _ _ d' IA Ed) as RA.
      pose proof (roots_exact so SO parse_ieml path is_desc listed fo ok Fo _ _ d inv_before Hd) as RB.
      rewrite add_records in RA. cbn [fst snd] in RA, RB. intros i. destruct (string_dec i (str s)) as [->|Ni].
      - split; intros H.
        + exfalso. apply RA in H as (_ & _ & H & _). apply states_values in H as (v & Tv & H). rewrite svalues_of_app, keep_s_values, svalues_of_one, !String.eqb_refl in H. cbn in H. destruct H as [<-|[]]. destruct Tv as (w & [X|X]); discriminate.
        + exfalso. apply in_map_iff in H as (x & Ex & Hx). destruct A as (_ & _ & NM & _). apply NM.
          destruct (dict_state so SO parse_ieml path is_desc listed fo ok Fo _ _ d inv_before Hd) as (P & rows & M & _).
          destruct (C65_roots_inside so SO P rows d M x Hx) as [(y & Hy & Ey) _]. exists y. split; [exact Hy|congruence].
      - rewrite RA, RB. unfold described.
        assert (X : (exists x, In x (keep_d (str s) D ++ text_records (str s) translations comments) /\ dieml x = i) <-> (exists x, In x D /\ dieml x = i)).
        { split; intros (x & Hx & Ex); exists x; (split; [|exact Ex]).
          - apply in_app_iff in Hx as [Hx|Hx]; [apply keep_d_in in Hx; tauto|]. apply text_records_ieml in Hx. congruence.
          - apply in_app_iff. left. apply keep_d_in. split; [exact Hx|congruence]. }
        assert (Y : forall k, states (keep_s (str s) T ++ [(str s, "is_root", "False")]) i k <-> states T i k).
        { intros k. rewrite !states_values, svalues_of_app, keep_s_values, svalues_of_one. assert (String.eqb (str s) i = false) as -> by (apply String.eqb_neq; auto). cbn [andb]. rewrite app_nil_r. reflexivity. }
        rewrite X, !Y. reflexivity.
    Qed.
  End Add.

  (** * C72: create_root_paradigm *)
  (** It never succeeds: [TableStructure.root] has no KeyError for a script which is in no root, so that the
      first singular sequence is always taken for one of another root. *)
  Theorem C72_create_never : forall q s inhibitions translations comments a, constructible s ->
    exists e, create_root_paradigm so parse_ieml path is_desc fo listed q s inhibitions translations comments a = (Err e, q).
  Proof.
    intros q s inh tr co a C. pose proof (constructible_wf _ C) as W. unfold create_root_paradigm.
    assert (E : exists e, create_plan so parse_ieml is_desc fo listed (work q) s = Err e).
    { unfold create_plan. destruct (check_script so s) as [[]|e]; cbn [bind]; [|eauto]. destruct (N.eqb _ _); [eauto|].
      destruct (get_descriptors is_desc fo (work q)) as [rows|e]; cbn [bind]; [|eauto]. destruct (existsb _ rows); [eauto|].
      destruct (get_dictionary so is_desc fo listed (work q)) as [d0|e]; cbn [bind]; [|eauto].
      destruct (ss s) as [l|e] eqn:El; cbn [bind]; [|eauto]. pose proof (ss_some s l W El) as N. destruct l as [|x l]; [congruence|]. cbn [mapM]. destruct (root_of d0 x); cbn [bind]; eauto. }
    destruct E as [e ->]. eauto.
  Qed.

  Lemma idx_text l x y : str x = str y -> idx l x = idx l y.
  Proof.
    intros E. unfold idx, index_of, script_eqb. rewrite E. reflexivity.
  Qed.

  (** * C74: delete_morpheme_root_paradigm *)
  Lemma dict_made : exists P rows, make_dictionary so P rows = Ok d.
  Proof. destruct (dict_state so SO parse_ieml path is_desc listed fo ok Fo _ _ d inv_before Hd) as (P & rows & M & _). eauto. Qed.
  Lemma member_wf s : constructible s -> member d s -> exists x, In x (d_scripts d) /\ str x = str s /\ wf x /\ (forall u, included u x <-> included u s) /\ (forall u, included x u <-> included s u).
  Proof.
    intros C (x & Hx & Ex). destruct dict_made as (P & rows & M). destruct (make_spec so SO _ _ _ M) as (all & A). pose proof (scripts_wf so _ _ _ _ A x Hx) as Wx.
    destruct (eq_attributes x s Wx (constructible_wf _ C) Ex) as [_ [L Me]]. exists x. repeat split; auto; unfold included in *; try (destruct H; congruence); intros w Hm; destruct H as [_ H]; try (apply Me; auto; fail); try (apply H, Me; auto).
  Qed.

  Section DeleteRoot.
    Variable s : script.
    Hypothesis Cs : constructible s.
    Variable empty : bool.
    Let deleted := delete_morpheme_root_paradigm so parse_ieml path is_desc fo listed r s empty NoAccident.
    Definition can_be_deleted_root : Prop := factorised so s /\ In (str s) (roots_of d).
    (** The scripts of the dictionary inside [s] *)
    Definition inside (i : string) : Prop := exists x, In x (d_scripts d) /\ str x = i /\ included x s.

    Lemma forest_texts : memb script_eqb s (map fst (d_forest d)) = true <-> In (str s) (roots_of d).
    Proof.
      destruct dict_made as (P & rows & M). rewrite (forest_roots so SO P rows d M). unfold memb, roots_of. rewrite existsb_exists, in_map_iff. split.
      - intros (x & Hx & E). apply script_eqb_str in E. eauto.
      - intros (x & E & Hx). exists x. split; [exact Hx|]. apply script_eqb_str. congruence.
    Qed.
    Lemma delete_root_plan_ok : (can_be_deleted_root /\ delete_root_plan so parse_ieml is_desc fo listed (work r) s = Ok d) \/
      (~ can_be_deleted_root /\ exists e, delete_root_plan so parse_ieml is_desc fo listed (work r) s = Err e).
    Proof.
      unfold delete_root_plan, can_be_deleted_root. rewrite Hd. cbn [bind]. pose proof (check_script_ok s) as CS. destruct (check_script so s) as [[]|e]; cbn [bind].
      2: { right. split; [|eauto]. intros [F _]. apply CS in F. discriminate. }
      pose proof forest_texts as FT. destruct (memb script_eqb s (map fst (d_forest d))); cbn [negb].
      - left. split; [split; [now apply CS|now apply FT]|]. rewrite messages. reflexivity.
      - right. split; [|eauto]. intros [_ H]. apply FT in H. discriminate.
    Qed.
    Lemma contents : In (str s) (roots_of d) -> exists l, object d s "contains" = Ok l /\ (forall x, In x l -> In x (d_scripts d)) /\ forall i, In i (map str l) <-> inside i.
    Proof.
      intros H. apply in_map_iff in H as (q & Eq & Hq). destruct dict_made as (P & rows & M). destruct (C65_roots_inside so SO P rows d M q Hq) as [(y & Hy & Ey) _].
      assert (Ms : member d s) by (exists y; split; [exact Hy|congruence]). destruct (member_wf s Cs Ms) as (z & Hz & Ez & Wz & Inc & _).
      pose proof (C54_contains so SO P rows d M z) as CC. destruct (C54_order so SO P rows d M z z z) as [Refl _]. destruct Refl as (l & El & _); [exists z; auto|].
      assert (Eo : object d s "contains" = Ok l). { rewrite <- El. unfold object. destruct (get_key _ _); [|reflexivity]. rewrite (idx_text (d_scripts d) s z) by congruence. reflexivity. }
      exists l. split; [exact Eo|].
      assert (Sub : forall x, In x l -> In x (d_scripts d)).
      { clear -El. unfold object in El. destruct (get_key _ _) as [m|]; [|discriminate]. destruct (idx (d_scripts d) z) as [n|]; cbn [bind] in El; [|discriminate]. apply Ok_inj in El. subst l. intros x Hx. apply in_flat_map in Hx as (j & _ & Hx). destruct (nth_error (d_scripts d) j) as [y|] eqn:N; [|destruct Hx]. destruct Hx as [<-|[]]. eapply nth_error_In; eauto. }
      split; [exact Sub|]. intros i. unfold inside. rewrite in_map_iff. split.
      - intros (x & <- & Hx). exists x. split; [auto|]. split; [reflexivity|]. apply Inc. apply (CC x Hz (Sub x Hx)). exists l. split; [exact El|]. eauto.
      - intros (x & Hx & <- & I). apply Inc in I. apply (CC x Hz Hx) in I as (l' & El' & y' & Hy' & Ey'). rewrite El in El'. apply Ok_inj in El'. subst l'. eauto.
    Qed.
    Lemma inside_normal i : inside i -> parse_ieml i = Ok i /\ plain i.
    Proof.
      intros (x & Hx & <- & _). destruct dict_made as (P & rows & M). destruct (make_spec so SO _ _ _ M) as (all & A). pose proof (scripts_wf so _ _ _ _ A x Hx) as Wx.
      split; [apply (script_normal so SO parse_ieml path is_desc listed ok x Wx)|apply script_plain, Wx].
    Qed.
    Lemma delete_root_run : can_be_deleted_root -> exists l r', (forall i, In i l <-> empty = true /\ inside i) /\
      let calls := (RemoveStructure (str s) None None :: map (fun i => RemoveDescriptor i None None None) l)%list in
      deleted = (Ok tt, r') /\ work r' = run parse_ieml path [] (ops ++ calls) /\ nothing_to_commit r' /\ one_commit r r' /\ Forall (plain_op parse_ieml) (ops ++ calls) /\
      multimap parse_ieml (ops ++ calls) = (fold_left (fun D i => keep_d i D) l D, keep_s (str s) T).
    Proof.
      intros A. destruct delete_root_plan_ok as [[_ E]|[N _]]; [|contradiction]. destruct A as [F Hs]. destruct (contents Hs) as (l & El & Sub & In_l). destruct (normal s Cs) as [N1 N2].
      assert (X : exists l', delete_root_calls d s empty = map (@Ok op) (RemoveStructure (str s) None None :: map (fun i => RemoveDescriptor i None None None) l') /\ forall i, In i l' <-> empty = true /\ inside i).
      { unfold delete_root_calls. destruct empty.
        - exists (map str l). rewrite El. split; [cbn [map]; rewrite !map_map; reflexivity|]. intros i. rewrite In_l. tauto.
        - exists []. split; [reflexivity|]. intros i. split; [intros []|intros [X _]; discriminate]. }
      destruct X as (l' & Ec & Il).
      assert (Fe : Forall (feasible parse_ieml) (RemoveStructure (str s) None None :: map (fun i => RemoveDescriptor i None None None) l')).
      { constructor; [cbn; auto|]. apply Forall_forall. intros o Ho. apply in_map_iff in Ho as (i & <- & Hi). apply Il in Hi as [_ Hi]. apply (inside_normal i Hi). }
      destruct (run_calls so parse_ieml path is_desc listed ok ops Hops r _ Hw Hc Fe) as (r' & E' & W & Nc & O & Pl).
      exists l', r'. split; [exact Il|]. cbv zeta. split; [|split; [exact W|split; [exact Nc|split; [exact O|split; [exact Pl|]]]]].
      - unfold deleted, delete_morpheme_root_paradigm. rewrite E, Ec. exact E'.
      - assert (NF : Forall (fun i => parse_ieml i = Ok i) l') by (apply Forall_forall; intros i Hi; apply Il in Hi as [_ Hi]; apply (inside_normal i Hi)).
        rewrite multimap_app. unfold D, T. destruct (multimap parse_ieml ops) as [D0 T0]. cbn [fold_left fst snd]. rewrite step_remove_s by assumption. apply steps_remove_d. exact NF.
    Qed.
    (** It succeeds exactly on the roots, and otherwise nothing changes. *)
    Theorem C74_delete_root_accepts : (can_be_deleted_root -> exists r', deleted = (Ok tt, r')) /\ (~ can_be_deleted_root -> exists e, deleted = (Err e, r)).
    Proof.
      split; [intros A; destruct (delete_root_run A) as (l & r' & _ & E & _); eauto|]. intros A. destruct delete_root_plan_ok as [[X _]|[_ [e X]]]; [contradiction|]. unfold deleted, delete_morpheme_root_paradigm. rewrite X. eauto.
    Qed.
    (** The structure says nothing any more of the root. The scripts of the dictionary which are inside
        it lose their descriptors when the paradigm is emptied. Nothing else changes, in one commit. *)
    Theorem C74_delete_root_effect_partial r' : deleted = (Ok tt, r') ->
      (forall k, structure_in r' (str s) k = []) /\
      (forall i k, i <> str s -> structure_in r' i k = structure_in r i k) /\
      (forall i l c, In l LANGUAGES -> In c DESCRIPTORS_CLASS -> empty = true /\ inside i -> descriptors_in r' i l c = Ok []) /\
      (forall i l c, In l LANGUAGES -> In c DESCRIPTORS_CLASS -> ~ (empty = true /\ inside i) -> descriptors_in r' i l c = descriptors_in r i l c) /\
      nothing_to_commit r' /\ one_commit r r'.
    Proof.
      intros E. assert (A : can_be_deleted_root). { destruct delete_root_plan_ok as [[X _]|[_ [e X]]]; [exact X|]. unfold deleted, delete_morpheme_root_paradigm in E. rewrite X in E. discriminate. }
      destruct (delete_root_run A) as (l & q & Il & E' & W & N & O & Pl & Ma). rewrite E in E'. injection E' as <-.
      pose proof (descriptors_after _ r' W Pl) as DA. pose proof (structure_after _ r' W Pl) as SA. rewrite Ma in DA, SA. cbn [fst snd] in DA, SA.
      split; [|split; [|split; [|split; [|split; [exact N|exact O]]]]].
      - intros k. rewrite SA, keep_s_values, String.eqb_refl. reflexivity.
      - intros i k Ni. rewrite SA, structure_before, keep_s_values. assert (String.eqb (str s) i = false) as -> by (apply String.eqb_neq; auto). reflexivity.
      - intros i m c Hm Hc' Hi. apply Il in Hi. rewrite DA by auto. rewrite keeps_values. apply inb_In in Hi. rewrite Hi. reflexivity.
      - intros i m c Hm Hc' Hi. rewrite DA by auto. rewrite descriptors_before by auto. rewrite keeps_values. destruct (inb i l) eqn:Ei; [apply inb_In, Il in Ei; contradiction|reflexivity].
    Qed.
    (** The roots of the dictionary which is read afterwards, if one is, are the other ones. *)
    Theorem C74_delete_root_roots r' d' : deleted = (Ok tt, r') -> dictionary_in r' = Ok d' -> forall i, In i (roots_of d') <-> In i (roots_of d) /\ i <> str s.
    Proof.
      intros E Ed. assert (A : can_be_deleted_root). { destruct delete_root_plan_ok as [[X _]|[_ [e X]]]; [exact X|]. unfold deleted, delete_morpheme_root_paradigm in E. rewrite X in E. discriminate. }
      destruct (delete_root_run A) as (l & q & Il & E' & W & N & O & Pl & Ma). rewrite E in E'. injection E' as <-.
      pose proof (inv_after _ r' W Pl) as IA. pose proof (roots_exact so SO parse_ieml path is_desc listed fo ok Fo _ _ d' IA Ed) as RA.
      pose proof (roots_exact so SO parse_ieml path is_desc listed fo ok Fo _ _ d inv_before Hd) as RB.
      rewrite Ma in RA. cbn [fst snd] in RA, RB. intros i. destruct (string_dec i (str s)) as [->|Ni].
      - split; [|tauto]. intros H. apply RA in H as (_ & _ & H & _). apply states_values in H as (v & _ & H). rewrite keep_s_values, String.eqb_refl in H. destruct H.
      - assert (Y : forall k, states (keep_s (str s) T) i k <-> states T i k).
        { intros k. rewrite !states_values, keep_s_values. assert (String.eqb (str s) i = false) as -> by (apply String.eqb_neq; auto). reflexivity. }
        rewrite RA, !Y. split.
        + intros (H1 & (x & Hx & Ex) & H3 & H4). split; [|exact Ni]. apply RB. split; [exact H1|]. split; [|split; [exact H3|exact H4]]. apply keeps_in in Hx as [Hx _]. exists x. auto.
        + intros [H _]. pose proof H as H'. apply RB in H as (H1 & (x & Hx & Ex) & H3 & H4). split; [exact H1|]. split; [|split; [exact H3|exact H4]]. exists x. split; [|exact Ex]. apply keeps_in. split; [exact Hx|].
          rewrite Ex. intros Hi. apply Il in Hi as [_ (y & Hy & Ey & Iy)]. apply Ni. destruct A as [_ A]. apply in_map_iff in H' as (p & Ep & Hp). apply in_map_iff in A as (p' & Ep' & Hp').
          destruct dict_made as (P & rows & M). destruct (make_spec so SO _ _ _ M) as (all & An). pose proof (Wroots so _ _ _ _ An) as Wr. rewrite Forall_forall in Wr. pose proof (scripts_wf so _ _ _ _ An y Hy) as Wy.
          destruct (eq_attributes y p Wy (Wr p Hp)) as [_ [L1 M1]]; [congruence|]. destruct (eq_attributes p' s (Wr p' Hp') (constructible_wf _ Cs) Ep') as [_ [L2 M2]].
          assert (R1 : root_of d y = Some p) by (apply (C52_root_of so SO P rows d M y Hy); split; [exact Hp|split; [exact L1|intros w; apply M1]]).
          assert (R2 : root_of d y = Some p') by (apply (C52_root_of so SO P rows d M y Hy); split; [exact Hp'|split; [destruct Iy; congruence|intros w Hm; apply M2, Iy, Hm]]).
          congruence.
    Qed.
  End DeleteRoot.

  (** * C75: delete_morpheme_paradigm *)
  Section Delete.
    Variable s : script.
    Hypothesis Cs : constructible s.
    Let deleted := delete_morpheme_paradigm so parse_ieml path is_desc fo listed r s NoAccident.
    Definition can_be_deleted : Prop := factorised so s /\ member d s /\ cardinal s <> 1%N.
    Let calls : list op := [RemoveStructure (str s) None None; RemoveDescriptor (str s) None None None].

    Lemma plural_root : member d s -> cardinal s <> 1%N -> exists q, root_of d s = Some q.
    Proof.
      intros Ms N. destruct dict_made as (P & rows & M). destruct (make_spec so SO _ _ _ M) as (all & A). destruct (member_wf s Cs Ms) as (x & Hx & Ex & Wx & _).
      destruct (eq_attributes x s Wx (constructible_wf _ Cs) Ex) as [(_ & _ & Ca & _) _]. destruct (scripts_all so _ _ _ _ A x Hx) as [_ [C|[t Et]]]; [congruence|].
      unfold root_of. rewrite (table_of_text _ s x) by congruence. rewrite Et. destruct (table_of_some _ _ _ Et) as (e & He & Ht & E). destruct (find _ _) as [e'|] eqn:F; [cbn; eauto|]. exfalso.
      apply in_rev in He. apply (find_none _ _ F) in He. assert (existsb (fun t0 => script_eqb (tscript t0) s) (snd e) = true); [|congruence]. apply existsb_exists. exists t. split; [exact Ht|]. apply script_eqb_str. congruence.
    Qed.
    Lemma root_member q : root_of d s = Some q -> member d s.
    Proof.
      intros H. destruct dict_made as (P & rows & M). destruct (make_spec so SO _ _ _ M) as (all & A). unfold root_of in H. destruct (table_of (d_forest d) s) as [t|] eqn:Et; [|discriminate].
      destruct (table_of_some _ _ _ Et) as ([p ts] & He & Ht & E). destruct (tables_member so SO _ _ _ _ A p ts t He Ht) as (y & Hy & Ey). exists y. split; [exact Hy|congruence].
    Qed.
    Lemma delete_plan_ok : (can_be_deleted /\ delete_plan so parse_ieml is_desc fo listed (work r) s = Ok tt) \/
      (~ can_be_deleted /\ exists e, delete_plan so parse_ieml is_desc fo listed (work r) s = Err e).
    Proof.
      unfold delete_plan, can_be_deleted. rewrite Hd. cbn [bind]. pose proof (check_script_ok s) as CS. destruct (check_script so s) as [[]|e]; cbn [bind].
      2: { right. split; [|eauto]. intros [F _]. apply CS in F. discriminate. }
      pose proof (C51_lookup d s) as (I & _). destruct (in_dictionary d s) eqn:Ei; cbn [andb].
      - destruct (N.eqb_spec (cardinal s) 1) as [E|NE]; [right; split; [tauto|eauto]|]. rewrite messages. cbn [bind]. destruct (plural_root (proj1 I eq_refl) NE) as [q Eq]. rewrite Eq. cbn [message_of_root]. rewrite messages. left. split; [|reflexivity]. split; [now apply CS|]. split; [now apply I|exact NE].
      - assert (NM : ~ member d s) by (intros X; apply I in X; discriminate). rewrite messages. cbn [bind]. destruct (root_of d s) as [q|] eqn:Eq; [exfalso; apply NM; eapply root_member; eauto|]. right. split; [tauto|]. cbn. eauto.
    Qed.
    Lemma delete_run : can_be_deleted -> exists r', deleted = (Ok tt, r') /\ work r' = run parse_ieml path [] (ops ++ calls) /\ nothing_to_commit r' /\ one_commit r r' /\ Forall (plain_op parse_ieml) (ops ++ calls) /\
      multimap parse_ieml (ops ++ calls) = (keep_d (str s) D, keep_s (str s) T).
    Proof.
      intros A. destruct delete_plan_ok as [[_ E]|[N _]]; [|contradiction]. destruct (normal s Cs) as [N1 N2].
      assert (Fe : Forall (feasible parse_ieml) calls) by (constructor; [cbn; auto|]; constructor; [cbn; auto|constructor]).
      destruct (run_calls so parse_ieml path is_desc listed ok ops Hops r _ Hw Hc Fe) as (r' & E' & W & Nc & O & Pl). exists r'. split; [|split; [exact W|split; [exact Nc|split; [exact O|split; [exact Pl|]]]]].
      - unfold deleted, delete_morpheme_paradigm. rewrite E. exact E'.
      - rewrite multimap_app. unfold D, T. destruct (multimap parse_ieml ops) as [D0 T0]. subst calls. cbn [fold_left fst snd]. rewrite step_remove_s, step_remove_d by assumption. reflexivity.
    Qed.
    (** It succeeds exactly on the paradigms of the dictionary, roots included, and otherwise nothing changes. *)
    Theorem C75_delete_accepts : (can_be_deleted -> exists r', deleted = (Ok tt, r')) /\ (~ can_be_deleted -> exists e, deleted = (Err e, r)).
    Proof.
      split; [intros A; destruct (delete_run A) as (r' & E & _); eauto|]. intros A. destruct delete_plan_ok as [[X _]|[_ [e X]]]; [contradiction|]. unfold deleted, delete_morpheme_paradigm. rewrite X. eauto.
    Qed.
    (** The paradigm has no descriptor and no structure any more, nothing else changes, in one commit. *)
    Theorem C75_delete_effect_partial r' : deleted = (Ok tt, r') ->
      (forall l c, In l LANGUAGES -> In c DESCRIPTORS_CLASS -> descriptors_in r' (str s) l c = Ok []) /\ (forall k, structure_in r' (str s) k = []) /\
      (forall i l c, In l LANGUAGES -> In c DESCRIPTORS_CLASS -> i <> str s -> descriptors_in r' i l c = descriptors_in r i l c) /\
      (forall i k, i <> str s -> structure_in r' i k = structure_in r i k) /\
      nothing_to_commit r' /\ one_commit r r'.
    Proof.
      intros E. assert (A : can_be_deleted). { destruct delete_plan_ok as [[X _]|[_ [e X]]]; [exact X|]. unfold deleted, delete_morpheme_paradigm in E. rewrite X in E. discriminate. }
      destruct (delete_run A) as (q & E' & W & N & O & Pl & Ma). rewrite E in E'. injection E' as <-.
      pose proof (descriptors_after _ r' W Pl) as DA. pose proof (structure_after _ r' W Pl) as SA. rewrite Ma in DA, SA. cbn [fst snd] in DA, SA.
      split; [|split; [|split; [|split; [|split; [exact N|exact O]]]]].
      - intros l c Hl Hc'. rewrite DA by auto. rewrite keep_d_values, String.eqb_refl. reflexivity.
      - intros k. rewrite SA, keep_s_values, String.eqb_refl. reflexivity.
      - intros i l c Hl Hc' Ni. rewrite DA by auto. rewrite descriptors_before by auto. rewrite keep_d_values. assert (String.eqb (str s) i = false) as -> by (apply String.eqb_neq; auto). reflexivity.
      - intros i k Ni. rewrite SA, structure_before, keep_s_values. assert (String.eqb (str s) i = false) as -> by (apply String.eqb_neq; auto). reflexivity.
    Qed.
    (** It is not in the dictionary which is read afterwards, if one is, and the roots are the other ones. *)
    Theorem C75_delete_dictionary r' d' : deleted = (Ok tt, r') -> dictionary_in r' = Ok d' ->
      ~ member d' s /\ forall i, In i (roots_of d') <-> In i (roots_of d) /\ i <> str s.
    Proof.
      intros E Ed. assert (A : can_be_deleted). { destruct delete_plan_ok as [[X _]|[_ [e X]]]; [exact X|]. unfold deleted, delete_morpheme_paradigm in E. rewrite X in E. discriminate. }
      destruct (delete_run A) as (q & E' & W & N & O & Pl & Ma). rewrite E in E'. injection E' as <-.
      pose proof (inv_after _ r' W Pl) as IA. rewrite Ma in IA. split.
      - destruct (dict_state so SO parse_ieml path is_desc listed fo ok Fo _ _ d' IA Ed) as (P & rows & M & Ti & HP & _). intros Me. destruct A as (_ & _ & Ca).
        pose proof (member_plural so SO P rows d' M s Ti (constructible_wf _ Cs) Me Ca) as H. apply HP in H as (_ & x & Hx & Ex). cbn [fst] in Hx. apply keep_d_in in Hx as [_ Hx]. contradiction.
      - pose proof (roots_exact so SO parse_ieml path is_desc listed fo ok Fo _ _ d' IA Ed) as RA.
        pose proof (roots_exact so SO parse_ieml path is_desc listed fo ok Fo _ _ d inv_before Hd) as RB. cbn [fst snd] in RA, RB. intros i. destruct (string_dec i (str s)) as [->|Ni].
        + split; [|tauto]. intros H. apply RA in H as (_ & _ & H & _). apply states_values in H as (v & _ & H). rewrite keep_s_values, String.eqb_refl in H. destruct H.
        + assert (Y : forall k, states (keep_s (str s) T) i k <-> states T i k).
          { intros k. rewrite !states_values, keep_s_values. assert (String.eqb (str s) i = false) as -> by (apply String.eqb_neq; auto). reflexivity. }
          assert (X : described (keep_d (str s) D) i <-> described D i).
          { unfold described. split; intros (x & Hx & Ex); exists x; (split; [|exact Ex]); [apply keep_d_in in Hx; tauto|apply keep_d_in; split; [exact Hx|congruence]]. }
          rewrite RA, RB, X, !Y. tauto.
    Qed.
  End Delete.

  (** * C73: update_morpheme_paradigm *)
  Section Update.
    Variables old new : script.
    Hypothesis Co : constructible old.
    Hypothesis Cn : constructible new.
    Let updated := update_morpheme_paradigm so parse_ieml path is_desc fo listed r old new NoAccident.
    Let plan := update_plan so parse_ieml is_desc fo listed (work r) old new.
    (** It is inside a root, or has no word in common with any. *)
    Definition placed : Prop := (exists q, In q (d_root_scripts d) /\ included new q) \/ forall q, In q (d_root_scripts d) -> disjoint new q.
    (** The structure does not say whether the paradigm is a root, or a key of the structure has several
        values: in all the other cases the structure cannot be asked (C40_structure_get_values_refuted). *)
    Definition answers : Prop := structure_in r (str old) "is_root" = [] \/ exists i k, 2 <= List.length (structure_in r i k).
    Definition said_root : Prop := exists v rest, structure_in r (str old) "is_root" = v :: rest /\ true_value v.
    Definition can_be_moved : Prop :=
      factorised so old /\ factorised so new /\ str old <> str new /\ (cardinal old <> 1%N \/ cardinal new <> 1%N) /\
      member d old /\ ~ member d new /\ placed /\ answers /\ (said_root -> included old new).
    Definition unchanged : Prop := factorised so old /\ factorised so new /\ str old = str new.
    (** The descriptors of the old paradigm *)
    Definition texts_of_old (vals : list (string * string * string)) : Prop :=
      (forall l c v, In (l, c, v) vals <-> In (str old, l, c, v) D) /\
      forall i l c, values_of (map (fun e => let '(l, c, v) := e in (i, l, c, v)) vals) i l c = values_of D (str old) l c.

    Lemma answers_spec rows : get_structure is_desc fo (work r) = Ok rows ->
      (answers /\ structure_get_values rows (str old) "is_root" = Ok (structure_in r (str old) "is_root")) \/ (~ answers /\ structure_get_values rows (str old) "is_root" = Err TypeError).
    Proof.
      intros E. unfold answers. assert (K : forall i k, structure_values rows i k = structure_in r i k) by (intros i k; unfold structure_in, structure_of; rewrite E; reflexivity).
      unfold structure_get_values. rewrite K. destruct (structure_in r (str old) "is_root") as [|v vs] eqn:Ev; [left; auto|].
      destruct (forallb _ rows) eqn:F.
      - right. split; [|reflexivity]. intros [X|(i & k & L)]; [discriminate|]. rewrite forallb_forall in F. rewrite <- K in L. unfold structure_values in L.
        assert (X : exists row, In row (filter (fun r0 => let '(i0, k0, _) := r0 in (String.eqb i0 i && String.eqb k0 k)%bool) rows)).
        { rewrite map_length in L. destruct (filter _ rows) as [|row t]; [cbn in L; lia|]. exists row. simpl; auto. }
        destruct X as (((i0, k0), v0) & X). apply filter_In in X as [X Y]. apply andb_true_iff in Y as [Y1 Y2]. apply String.eqb_eq in Y1, Y2. subst i0 k0. specialize (F _ X). apply Nat.eqb_eq in F. cbn [fst snd] in F. unfold structure_values in F. lia.
      - left. split; [|reflexivity]. right. assert (X : exists row, In row rows /\ Nat.eqb (List.length (structure_values rows (fst (fst row)) (snd (fst row)))) 1 = false).
        { apply forallb_false in F. exact F. }
        destruct X as (((i, k), v0) & X & N). exists i, k. rewrite <- K. apply Nat.eqb_neq in N. cbn [fst snd] in N. assert (Y : In v0 (structure_values rows i k)).
        { unfold structure_values. apply in_map_iff. exists (i, k, v0). split; [reflexivity|]. apply filter_In. rewrite !String.eqb_refl. auto. }
        destruct (structure_values rows i k) as [|a [|b t]]; [destruct Y|cbn in N; lia|cbn; lia].
    Qed.
    Lemma met_length c : roots_met d new = Ok c -> (Nat.eqb (List.length c) 1 = true <-> placed).
    Proof.
      intros E. pose proof (constructible_wf _ Cn) as W. destruct dict_made as (P & rows & M). unfold placed. split.
      - intros H. apply Nat.eqb_eq in H. destruct c as [|x [|y c]]; try (cbn in H; lia). destruct x as [q|].
        + left. exists q. apply (roots_met_inv so SO P rows d M new q W E).
        + right. apply (roots_met_none so SO P rows d M new W). exact E.
      - intros [(q & Hq & I)|H].
        + rewrite (roots_met_some so SO P rows d M new q W Hq I) in E. apply Ok_inj in E. subst c. reflexivity.
        + apply (roots_met_none so SO P rows d M new W) in H. rewrite H in E. apply Ok_inj in E. subst c. reflexivity.
    Qed.
    Lemma old_texts rows : get_descriptors is_desc fo (work r) = Ok rows -> exists vals, texts_of_old vals /\
      map (fun row => let '(_, l, c, v) := row in (l, c, pandas_cell v)) (filter (fun row => String.eqb (fst (fst (fst row))) (str old)) (sort row4_lt rows)) = map (fun e => let '(l, c, v) := e in (l, c, Some v)) vals.
    Proof.
      intros E. destruct (read_d parse_ieml path is_desc fok _ _ fo inv_before Fo) as (rows' & E' & Pe & F). rewrite E in E'. apply Ok_inj in E'. subst rows'. cbn [fst] in Pe, F.
      set (mine := filter (fun row => String.eqb (fst (fst (fst row))) (str old)) (sort row4_lt rows)).
      assert (In_mine : forall x, In x mine <-> In x D /\ dieml x = str old).
      { intros x. unfold mine. rewrite filter_In, String.eqb_eq. assert (X : In x (sort row4_lt rows) <-> In x D).
        { split; apply Permutation_in; [|apply Permutation_sym]; (eapply Permutation_trans; [apply sort_perm|exact Pe]). }
        rewrite X. destruct x as [[[i l] c] v]. reflexivity. }
      exists (map (fun x => let '(_, l, c, v) := x in (l, c, v)) mine). split; [split|].
      - intros l c v. rewrite in_map_iff. split.
        + intros ([[[i l'] c'] v'] & X & H). injection X as -> -> ->. apply In_mine in H as [H Ei]. cbn in Ei. subst i. exact H.
        + intros H. exists (str old, l, c, v). split; [reflexivity|]. apply In_mine. auto.
      - intros i l c. rewrite map_map. transitivity (values_of mine (str old) l c).
        + unfold values_of. assert (All : forall x, In x mine -> dieml x = str old) by (intros x Hx; apply In_mine in Hx; tauto). clear -All. induction mine as [|[[[j l'] c'] v'] m IH]; [reflexivity|].
          cbn [map filter]. pose proof (All _ (or_introl eq_refl)) as Ej. cbn in Ej. subst j. rewrite !String.eqb_refl. cbn [andb]. assert (IH' := IH (fun x Hx => All x (or_intror Hx))). destruct (String.eqb l' l && String.eqb c' c)%bool; cbn [map]; rewrite IH'; reflexivity.
        + unfold values_of, mine. rewrite filter_filter.
          rewrite (filter_ext_in_ (fun x => (_ && _)%bool) (fun x => let '(i', l', d', _) := x in (String.eqb i' (str old) && String.eqb l' l && String.eqb d' c)%bool) _) by (intros [[[i' l'] c'] v'] _; cbn; destruct (String.eqb i' (str old)); reflexivity).
          rewrite filter_sort.
          * f_equal. specialize (F (str old) (fun x => let '(_, l', d', _) := x in (String.eqb l' l && String.eqb d' c)%bool)). etransitivity; [|etransitivity; [exact F|]]; apply filter_ext_in_; intros [[[i' l'] c'] v'] _; unfold dieml; cbn; rewrite andb_assoc; reflexivity.
          * intros [[[i1 l1] c1] v1] [[[i2 l2] c2] v2] X Y. apply andb_true_iff in X as [X X3]. apply andb_true_iff in X as [X1 X2]. apply andb_true_iff in Y as [Y Y3]. apply andb_true_iff in Y as [Y1 Y2]. apply String.eqb_eq in X1, X2, X3, Y1, Y2, Y3. subst. apply row4_same.
      - rewrite map_map. apply map_ext_in. intros [[[i l] c] v] H. apply In_mine in H as [H _]. pose proof (records_ok parse_ieml ops Hops) as R. rewrite Forall_forall in R. specialize (R _ H). destruct R as (_ & _ & _ & _ & _ & Na). unfold pandas_cell. rewrite inb_false by exact Na. reflexivity.
    Qed.
    Lemma plan_cases : (unchanged /\ plan = Ok None) \/ (~ unchanged /\ ~ can_be_moved /\ exists e, plan = Err e) \/
      (can_be_moved /\ exists b st vals, (b = true <-> said_root) /\ texts_of_old vals /\ plan = Ok (Some (b, st, map (fun e => let '(l, c, v) := e in (l, c, Some v)) vals))).
    Proof.
      pose proof (constructible_wf _ Co) as Wo. pose proof (constructible_wf _ Cn) as Wn. subst plan. unfold update_plan, unchanged, can_be_moved.
      pose proof (check_script_ok old) as CO. destruct (check_script so old) as [[]|e]; cbn [bind]. 2: { right; left. split; [intros (X & _); apply CO in X; discriminate|]. split; [intros (X & _); apply CO in X; discriminate|eauto]. }
      pose proof (check_script_ok new) as CN. destruct (check_script so new) as [[]|e]; cbn [bind]. 2: { right; left. split; [intros (_ & X & _); apply CN in X; discriminate|]. split; [intros (_ & X & _); apply CN in X; discriminate|eauto]. }
      unfold script_eqb. destruct (String.eqb_spec (str old) (str new)) as [E|NE]; [left; split; [|reflexivity]; split; [now apply CO|]; split; [now apply CN|exact E]|].
      right. destruct (N.eqb (cardinal old) 1 && N.eqb (cardinal new) 1)%bool eqn:Ec.
      { left. apply andb_true_iff in Ec as [X Y]. apply N.eqb_eq in X, Y. split; [tauto|]. split; [|eauto]. tauto. }
      assert (Ca : cardinal old <> 1%N \/ cardinal new <> 1%N). { apply andb_false_iff in Ec as [X|X]; apply N.eqb_neq in X; auto. }
      rewrite Hd. cbn [bind]. destruct (read_d parse_ieml path is_desc fok _ _ fo inv_before Fo) as (rows & Er & _). rewrite Er. cbn [bind].
      assert (Es : exists srows, get_structure is_desc fo (work r) = Ok srows). { unfold get_dictionary in Hd. destruct (get_structure is_desc fo (work r)) as [srows|]; [eauto|discriminate]. }
      destruct Es as [srows Es]. rewrite Es. cbn [bind].
      pose proof (C51_lookup d old) as (IO & _). destruct (in_dictionary d old); cbn [negb]. 2: { left. split; [tauto|]. split; [|eauto]. intros X. assert (false = true) by (apply IO; tauto). discriminate. }
      pose proof (C51_lookup d new) as (IN & _). destruct (in_dictionary d new). { left. split; [tauto|]. split; [|eauto]. intros X. apply X. now apply IN. }
      destruct (answers_spec srows Es) as [[An ->]|[An ->]]; cbn [bind]. 2: { left. split; [tauto|]. split; [tauto|eauto]. }
      assert (X : exists b, match structure_in r (str old) "is_root" with [] => Ok false | v :: _ => Dictionary.truthy v end = Ok b /\ (b = true <-> said_root)).
      { unfold said_root. pose proof (structure_before (str old) "is_root") as SB. destruct (structure_in r (str old) "is_root") as [|v vs]; [exists false; split; [reflexivity|]; split; [discriminate|intros (? & ? & X & _); discriminate]|].
        assert (Nv : v <> "").
        { assert (H : In (str old, "is_root", v) T) by (apply said_values; rewrite <- SB; simpl; auto). pose proof (structure_ok parse_ieml ops) as G. rewrite Forall_forall in G. specialize (G _ H). cbn [fst snd] in G. apply (svalue_nonempty "is_root" v). congruence. }
        destruct v as [|c v]; [congruence|]. eexists. split; [reflexivity|]. pose proof (truthy_value (String c v)) as TV. cbn [Dictionary.truthy] in TV. split.
        - intros X. exists (String c v), vs. split; [reflexivity|]. apply TV. congruence.
        - intros (v' & vs' & X & Tv). injection X as <- <-. apply TV in Tv. congruence. }
      destruct X as (b & -> & Hb). cbn [bind]. destruct (roots_met_total d new Wn) as [c Em]. rewrite Em. cbn [bind]. pose proof (met_length c Em) as ML. destruct (Nat.eqb (List.length c) 1); cbn [negb]. 2: { left. split; [tauto|]. split; [|eauto]. intros X. assert (false = true) by (apply ML; tauto). discriminate. }
      assert (Ed : exists u, mapM (fun l => descriptor_values parse_ieml is_desc fo (work r) (str new) l "translations") LANGUAGES = Ok u).
      { unfold LANGUAGES. cbn [mapM]. pose proof (descriptors_before (str new)) as DB. unfold descriptors_in in DB. rewrite !DB by (simpl; auto). cbn [bind]. eauto. }
      destruct Ed as [u ->]. cbn [bind].
      assert (Ei : exists i, (if b then script_in old new else Ok true) = Ok i /\ (i = true <-> (said_root -> included old new))).
      { destruct b.
        - destruct (C09_in_is_inclusion old new Co Cn) as (i & Ei & Hi). exists i. split; [exact Ei|]. rewrite Hi. unfold included. assert (said_root) by (now apply Hb). tauto.
        - exists true. split; [reflexivity|]. split; [|reflexivity]. intros _ X. apply Hb in X. discriminate. }
      destruct Ei as (i & -> & Hi). cbn [bind]. destruct i; cbn [negb]. 2: { left. split; [tauto|]. split; [|eauto]. intros X. assert (false = true) by (apply Hi; tauto). discriminate. }
      destruct (old_texts rows Er) as (vals & Tv & Ev). rewrite Ev. right. split; [|exists b; eexists; exists vals; split; [exact Hb|]; split; [exact Tv|reflexivity]].
      split; [now apply CO|]. split; [now apply CN|]. split; [exact NE|]. split; [exact Ca|]. split; [now apply IO|]. split; [intros X; apply IN in X; discriminate|]. split; [now apply ML|]. split; [exact An|]. now apply Hi.
    Qed.

    Let calls (vals : list (string * string * string)) : list op :=
      (RemoveStructure (str old) None None :: AddStructure (str new) "is_root" "False" :: RemoveDescriptor (str old) None None None :: map (fun e => let '(l, c, v) := e in AddDescriptor (str new) l c v) vals)%list.
    Lemma moved_feasible vals : texts_of_old vals -> Forall (feasible parse_ieml) (calls vals).
    Proof.
      intros [Tv _]. destruct (normal old Co) as [O1 O2]. destruct (normal new Cn) as [N1 N2]. subst calls. cbv beta. constructor; [cbn; auto|]. constructor; [cbn; split; [auto|split; [auto|vm_compute; discriminate]]|]. constructor; [cbn; auto|].
      apply Forall_forall. intros o Ho. apply in_map_iff in Ho as ([[l c] v] & <- & H). apply Tv in H. pose proof (records_ok parse_ieml ops Hops) as R. rewrite Forall_forall in R. specialize (R _ H). destruct R as (Hl & Hc' & Hp & Hn & _ & Na).
      cbn. split; [exact N1|]. split; [exact N2|]. split; [exact Hl|]. split; [exact Hc'|]. split; [exact Hp|]. rewrite Hn. exact Na.
    Qed.
    Lemma moved_records vals : texts_of_old vals ->
      multimap parse_ieml (ops ++ calls vals) = ((keep_d (str old) D ++ map (fun e => let '(l, c, v) := e in (str new, l, c, v)) vals)%list, (keep_s (str old) T ++ [(str new, "is_root", "False")])%list).
    Proof.
      intros [Tv _]. assert (R : forall l c v, In (l, c, v) vals -> In l LANGUAGES /\ In c DESCRIPTORS_CLASS /\ normalize_value v = v /\ v <> "").
      { intros l c v H. apply Tv in H. pose proof (records_ok parse_ieml ops Hops) as R. rewrite Forall_forall in R. specialize (R _ H). destruct R as (Hl & Hc' & _ & Hn & Ne & _). auto. }
      destruct (normal old Co) as [O1 _]. destruct (normal new Cn) as [N1 _]. clear Tv. rewrite multimap_app. unfold D, T. destruct (multimap parse_ieml ops) as [D0 T0]. subst calls. cbn [fold_left fst snd].
      rewrite step_remove_s by assumption. rewrite (step_add_s _ _ _ _ "False"); [|assumption|reflexivity]. rewrite step_remove_d by assumption.
      generalize (keep_d (str old) D0). generalize (keep_s (str old) T0 ++ [(str new, "is_root", "False")])%list. intros TT. revert R. induction vals as [|[[l c] v] vals IH]; intros R DD; [cbn; rewrite app_nil_r; reflexivity|].
      cbn [map fold_left]. destruct (R l c v (or_introl eq_refl)) as (Hl & Hc' & Hn & Ne). cbn [spec_step]. rewrite N1, Hn. apply inb_In in Hl, Hc'. change (mem l LANGUAGES) with (inb l LANGUAGES). change (mem c DESCRIPTORS_CLASS) with (inb c DESCRIPTORS_CLASS). rewrite Hl, Hc'. apply String.eqb_neq in Ne. rewrite Ne. cbn [andb negb].
      rewrite IH by (intros; apply R; simpl; auto). rewrite <- app_assoc. reflexivity.
    Qed.
    Lemma moved_run : ~ said_root -> can_be_moved -> exists vals r', texts_of_old vals /\ updated = (Ok tt, r') /\ work r' = run parse_ieml path [] (ops ++ calls vals) /\ nothing_to_commit r' /\ one_commit r r' /\ Forall (plain_op parse_ieml) (ops ++ calls vals).
    Proof.
      intros NR A. destruct plan_cases as [[(_ & _ & E) _]|[(_ & X & _)|(_ & b & st & vals & Hb & Tv & E)]]; [destruct A as (_ & _ & X & _); contradiction|contradiction|].
      assert (b = false) as -> by (destruct b; [exfalso; apply NR, Hb; reflexivity|reflexivity]).
      destruct (run_calls so parse_ieml path is_desc listed ok ops Hops r _ Hw Hc (moved_feasible vals Tv)) as (r' & E' & W & Nc & O & Pl). exists vals, r'. split; [exact Tv|]. split; [|auto].
      unfold updated, update_morpheme_paradigm. fold plan. rewrite E. rewrite <- E'. f_equal. f_equal. unfold update_calls, calls. cbn [map app]. do 3 f_equal. clear. induction vals as [|[[l c] v] vals IH]; [reflexivity|]. cbn [map flat_map app]. rewrite IH. reflexivity.
    Qed.

    (** The same script twice changes nothing. A paradigm which is not said to be a root is moved exactly
        when it can be, and otherwise nothing changes. *)
    Theorem C73_update_accepts : (unchanged -> updated = (Ok tt, r)) /\ (~ said_root -> can_be_moved -> exists r', updated = (Ok tt, r')) /\
      (~ unchanged -> ~ can_be_moved -> exists e, updated = (Err e, r)).
    Proof.
      split; [|split].
      - intros U. unfold updated, update_morpheme_paradigm. fold plan. destruct plan_cases as [[_ ->]|[(X & _)|((_ & _ & X & _) & _)]]; [reflexivity|contradiction|]. destruct U as (_ & _ & U). contradiction.
      - intros NR A. destruct (moved_run NR A) as (vals & r' & _ & E & _). eauto.
      - intros NU NA. destruct plan_cases as [[X _]|[(_ & _ & e & E)|(X & _)]]; [contradiction| |contradiction]. unfold updated, update_morpheme_paradigm. fold plan. rewrite E. eauto.
    Qed.
    (** The new paradigm gets the descriptors of the old one after its own ones, and one more line which says that
        it is not a root; the old one has nothing any more; nothing else changes, in one commit. *)
    Theorem C73_update_effect_partial r' : ~ said_root -> str old <> str new -> updated = (Ok tt, r') ->
      (forall l c, In l LANGUAGES -> In c DESCRIPTORS_CLASS -> exists mine given, descriptors_in r (str new) l c = Ok mine /\ descriptors_in r (str old) l c = Ok given /\
         descriptors_in r' (str new) l c = Ok (mine ++ given)%list /\ descriptors_in r' (str old) l c = Ok []) /\
      (forall k, structure_in r' (str new) k = (structure_in r (str new) k ++ if String.eqb k "is_root" then ["False"] else [])%list /\ structure_in r' (str old) k = []) /\
      (forall i l c, In l LANGUAGES -> In c DESCRIPTORS_CLASS -> i <> str old -> i <> str new -> descriptors_in r' i l c = descriptors_in r i l c) /\
      (forall i k, i <> str old -> i <> str new -> structure_in r' i k = structure_in r i k) /\
      nothing_to_commit r' /\ one_commit r r'.
    Proof.
      intros NR NE E. assert (A : can_be_moved). { unfold updated, update_morpheme_paradigm in E. fold plan in E. destruct plan_cases as [[(_ & _ & X) _]|[(_ & _ & e & X)|(X & _)]]; [contradiction|rewrite X in E; discriminate|exact X]. }
      destruct (moved_run NR A) as (vals & q & Tv & E' & W & N & O & Pl). rewrite E in E'. injection E' as <-.
      pose proof (descriptors_after _ r' W Pl) as DA. pose proof (structure_after _ r' W Pl) as SA. rewrite (moved_records vals Tv) in DA, SA. cbn [fst snd] in DA, SA. destruct Tv as [Tv Vv].
      assert (Other : forall i l c, i <> str new -> values_of (map (fun e => let '(l, c, v) := e in (str new, l, c, v)) vals) i l c = []).
      { intros i l c Ni. clear -Ni. unfold values_of. induction vals as [|[[l' c'] v'] vals IH]; [reflexivity|]. cbn [map filter]. assert (String.eqb (str new) i = false) as -> by (apply String.eqb_neq; auto). exact IH. }
      split; [|split; [|split; [|split; [|split; [exact N|exact O]]]]].
      - intros l c Hl Hc'. eexists. eexists. split; [apply descriptors_before; auto|]. split; [apply descriptors_before; auto|]. split.
        + rewrite DA by auto. rewrite values_of_app, keep_d_values, Vv. assert (String.eqb (str old) (str new) = false) as -> by (apply String.eqb_neq; auto). rewrite map_app. reflexivity.
        + rewrite DA by auto. rewrite values_of_app, keep_d_values, String.eqb_refl, Other by auto. reflexivity.
      - intros k. rewrite !SA, structure_before, !svalues_of_app, !keep_s_values, !svalues_of_one, !String.eqb_refl. assert (String.eqb (str old) (str new) = false) as -> by (apply String.eqb_neq; auto). assert (String.eqb (str new) (str old) = false) as -> by (apply String.eqb_neq; auto). cbn [andb app]. split; [|reflexivity]. rewrite (String.eqb_sym "is_root" k). reflexivity.
      - intros i l c Hl Hc' No Nn. rewrite DA by auto. rewrite descriptors_before by auto. rewrite values_of_app, keep_d_values, Other by auto. assert (String.eqb (str old) i = false) as -> by (apply String.eqb_neq; auto). rewrite app_nil_r. reflexivity.
      - intros i k No Nn. rewrite SA, structure_before, svalues_of_app, keep_s_values, svalues_of_one. assert (String.eqb (str old) i = false) as -> by (apply String.eqb_neq; auto). assert (String.eqb (str new) i = false) as -> by (apply String.eqb_neq; auto). cbn [andb]. rewrite app_nil_r. reflexivity.
    Qed.
    (** A root is only updated to a script which has the same words, not to a bigger one. *)
    Theorem C73_update_root r' : In (str old) (roots_of d) -> said_root -> updated = (Ok tt, r') -> same_meaning old new.
    Proof.
      intros Hr SR E. pose proof (constructible_wf _ Co) as Wo. pose proof (constructible_wf _ Cn) as Wn. unfold updated, update_morpheme_paradigm in E. fold plan in E. destruct plan_cases as [[(_ & _ & X) _]|[(_ & _ & e & X)|(A & _)]].
      - apply (eq_attributes old new Wo Wn X).
      - rewrite X in E. discriminate.
      - destruct A as (_ & _ & _ & _ & _ & _ & Pl & _ & I). specialize (I SR). apply in_map_iff in Hr as (p & Ep & Hp). destruct dict_made as (P & rows & M). destruct (make_spec so SO _ _ _ M) as (all & An). pose proof (Wroots so _ _ _ _ An) as Wr. rewrite Forall_forall in Wr.
        destruct (eq_attributes p old (Wr p Hp) Wo Ep) as [_ [Lp Mp]]. destruct (some_word old Wo) as [w Hw'].
        destruct Pl as [(q & Hq & [Lq Iq])|Di]; [|exfalso; apply (Di p Hp w); [apply I, Hw'|apply Mp, Hw']].
        assert (p = q) as <-.
        { pose proof (roots_met_some so SO P rows d M old p Wo Hp) as R1. pose proof (roots_met_some so SO P rows d M old q Wo Hq) as R2.
          assert (I1 : included old p) by (split; [congruence|intros x; apply Mp]). assert (I2 : included old q) by (destruct I as [Li Ii]; split; [congruence|intros x Hx; apply Iq, Ii, Hx]). specialize (R1 I1). specialize (R2 I2). congruence. }
        destruct I as [Li Ii]. split; [exact Li|]. intros x. split; [apply Ii|]. intros Hx. apply Mp, Iq, Hx.
    Qed.
  End Update.
End Transactions.

Print Assumptions C71_add_accepts.
Print Assumptions C71_add_effect_partial.
Print Assumptions C71_add_roots.
Print Assumptions C72_create_never.
Print Assumptions C73_update_accepts.
Print Assumptions C73_update_effect_partial.
Print Assumptions C73_update_root.
Print Assumptions C74_delete_root_accepts.
Print Assumptions C74_delete_root_effect_partial.
Print Assumptions C74_delete_root_roots.
Print Assumptions C75_delete_accepts.
Print Assumptions C75_delete_effect_partial.
Print Assumptions C75_delete_dictionary.

(** * Failures, in any folder *)
Lemma failed_step (so_far : res unit) r b a e r' : nothing_to_commit r ->
  match so_far with Err e => (Err e, r) | Ok _ => transaction r b a end = (Err e, r') -> rolled_back r r'.
Proof.
  intros H. assert (R : rolled_back r r) by (split; [reflexivity|]; split; [reflexivity|]; split; [intros ? ?; reflexivity|exact H]).
  destruct so_far as [[]|e']; [|intros [= <- <-]; exact R]. pose proof (transaction_error r b a) as K. destruct (transaction r b a) as [[[]|e'] r1]; [discriminate|]. intros [= <- <-]. exact (K e' H eq_refl).
Qed.
Theorem C71_failure_changes_nothing : forall so parse_ieml path is_desc fo listed r s translations comments a e r', nothing_to_commit r ->
  add_morpheme_paradigm so parse_ieml path is_desc fo listed r s translations comments a = (Err e, r') -> rolled_back r r'.
Proof. intros. unfold add_morpheme_paradigm in *. eapply failed_step; eauto. Qed.
Print Assumptions C71_failure_changes_nothing.
Theorem C73_failure_changes_nothing : forall so parse_ieml path is_desc fo listed r old new a e r', nothing_to_commit r ->
  update_morpheme_paradigm so parse_ieml path is_desc fo listed r old new a = (Err e, r') -> rolled_back r r'.
Proof.
  intros until r'. intros H E. unfold update_morpheme_paradigm in E. destruct (update_plan _ _ _ _ _ _ _ _) as [[[[b st] v]|]|e'].
  - apply (failed_step (Ok tt) r _ a e r' H E).
  - discriminate.
  - apply (failed_step (Err e') r (fun fs => (Ok tt, fs)) a e r' H E).
Qed.
Print Assumptions C73_failure_changes_nothing.
Theorem C74_failure_changes_nothing : forall so parse_ieml path is_desc fo listed r s empty a e r', nothing_to_commit r ->
  delete_morpheme_root_paradigm so parse_ieml path is_desc fo listed r s empty a = (Err e, r') -> rolled_back r r'.
Proof.
  intros until r'. intros H E. unfold delete_morpheme_root_paradigm in E. destruct (delete_root_plan _ _ _ _ _ _ _) as [d|e'].
  - apply (failed_step (Ok tt) r _ a e r' H E).
  - apply (failed_step (Err e') r (fun fs => (Ok tt, fs)) a e r' H E).
Qed.
Print Assumptions C74_failure_changes_nothing.
Theorem C75_failure_changes_nothing : forall so parse_ieml path is_desc fo listed r s a e r', nothing_to_commit r ->
  delete_morpheme_paradigm so parse_ieml path is_desc fo listed r s a = (Err e, r') -> rolled_back r r'.
Proof. intros. unfold delete_morpheme_paradigm in *. eapply failed_step; eauto. Qed.
Print Assumptions C75_failure_changes_nothing.
