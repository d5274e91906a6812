(** Proofs about the USL rebuilt from the paths of its morphemes. *)
From Coq Require Import List String Ascii Bool Arith Lia Permutation.
From Verif Require Import Base Script ScriptParser SortProofs ScriptWf ScriptStrProofs ScriptOrderProofs ScriptSpec ScriptCtorProofs ScriptParseProofs Commons Usl UslProofs UslSpec
  Sfun SfunProofs SfunListProofs SfunWordProofs SfunSpec UslParser UslParserProofs UslRoundProofs Path PathLexProofs PathSpec PathProofs PathAlgProofs PathTextProofs PathDerefProofs.
Import ListNotations.
Local Open Scope string_scope.

(** ** Lists *)
Lemma NoDup_map_via {A B C} (f : A -> B) (g : A -> C) l : (forall x y, In x l -> In y l -> f x = f y -> g x = g y) -> NoDup (map g l) -> NoDup (map f l).
Proof.
  induction l as [|x l IH]; cbn; [constructor|]. intros H N. apply NoDup_cons_iff in N. destruct N as [N1 N2]. constructor; [|apply IH; auto].
  intros I. apply in_map_iff in I. destruct I as (y & E & Hy). apply N1. apply in_map_iff. exists y. split; [|auto]. apply H; auto.
Qed.
Lemma NoDup_map_inj {A B} (f : A -> B) l : (forall x y, f x = f y -> x = y) -> NoDup l -> NoDup (map f l).
Proof. intros H N. apply (NoDup_map_via f (fun x => x)); [auto|now rewrite map_id]. Qed.
Lemma NoDup_app_both {A} (a b : list A) : NoDup a -> NoDup b -> (forall x, In x a -> ~ In x b) -> NoDup (a ++ b).
Proof.
  intros Na Nb D. induction Na as [|x a Hx Na IH]; [exact Nb|]. cbn. constructor.
  - intros H. apply in_app_or in H. destruct H as [H|H]; [auto|]. apply (D x); [now left|auto].
  - apply IH. intros y Hy. apply D. now right.
Qed.

(** ** The parser as a function of the path *)
Section Build.
  Variable so : list script -> list script.
  Hypothesis SO : set_order so.
  Definition P (s : script) : script := match parse so (str s) with Ok x => x | Err _ => s end.
  Lemma P_ok s : nf s -> parse so (str s) = Ok (P s) /\ nf (P s) /\ str (P s) = str s.
  Proof. intros H. destruct (parse_str_nf so s SO H) as (r & E & N & Sr). unfold P. rewrite E. auto. Qed.
  Lemma P_empty s : nf s -> is_empty (P s) = is_empty s.
  Proof. intros H. destruct (P_ok s H) as (_ & N & E). apply is_empty_str; auto using nf_wf. Qed.

  Definition canon_part (p : path) : path :=
    match p with
    | PPoly g m k c => PPoly g (option_map P m) (mult_of g k) c
    | PFlex m c => PFlex (P m) c
    | _ => p
    end.
  Definition canon_lex (p : path) : path := match p with PLex i c => PLex i (option_map canon_part c) | _ => p end.
  Definition canon (p : path) : path :=
    match p with
    | PLex _ _ => canon_lex p
    | PRole r f c => PRole r f (option_map canon_lex c)
    | _ => canon_part p
    end.
  Lemma v_part_canon p : place nf p -> v_part so (match p with PPoly g m k _ => raw_pos_of g m k | _ => RwMorpheme "" end) = Ok (canon_part p).
  Proof.
    intros [g m k Hm]. cbn [v_part raw_pos_of rp_pos rp_mult rp_morpheme].
    assert (G : group_index (group_name g) = Ok g) by (destruct g; reflexivity). rewrite G. cbn [bind].
    destruct m as [m|]; cbn [option_map v_opt]; [destruct (P_ok m Hm) as (-> & _); cbn [bind]|cbn [bind]]; destruct g, k; reflexivity.
  Qed.
  Lemma v_lex_canon p : lexeme_place nf p -> v_lex so (raw_lex_of p) = Ok (canon_lex p).
  Proof.
    intros [i|p' [g m k Hm]|m Hm]; [reflexivity| |].
    - cbn [raw_lex_of v_lex rl_child rl_index]. pose proof (v_part_canon _ (place_ _ g m k Hm)) as E. cbn beta iota in E. rewrite E. reflexivity.
    - cbn [raw_lex_of v_lex rl_child rl_index v_part]. destruct (P_ok m Hm) as (-> & _). reflexivity.
  Qed.
  Lemma path_parse_canon p : proper nf p -> one_digit p -> path_parse so (path_str p) = Ok (canon p).
  Proof.
    intros H D. unfold path_parse. destruct H as [|p [g m k Hm]|m Hm|p L|r f N V|r f p N V L].
    - reflexivity.
    - rewrite plex_part; [|auto|destruct g; exact D].
      assert (Q : q_path (KSep :: part_toks g m k) = Some (RwPart (raw_pos_of g m k))).
      { change (q_path (KSep :: part_toks g m k)) with (match q_part (part_toks g m k) with Some (p, []) => Some (RwPart p) | _ => None end). now rewrite q_part_ok. }
      rewrite Q. cbn [v_path]. pose proof (v_part_canon _ (place_ _ g m k Hm)) as E. cbn beta iota in E. rewrite E. reflexivity.
    - rewrite plex_flex, q_part_flex by auto. cbn [v_path v_part]. destruct (P_ok m Hm) as (-> & _). reflexivity.
    - rewrite plex_lex by auto.
      assert (Q : q_path (KSep :: lex_toks p) = Some (RwLex (raw_lex_of p))).
      { assert (X : q_path (KSep :: lex_toks p) = match q_lex (lex_toks p) with Some (p, []) => Some (RwLex p) | _ => None end) by (destruct L as [i|p' [g m k Hm]|m Hm]; reflexivity).
        rewrite X, (q_lex_ok nf) by auto. reflexivity. }
      rewrite Q. cbn [v_path]. rewrite v_lex_canon by auto. destruct L; reflexivity.
    - rewrite plex_prole by auto.
      assert (Q : q_path (KSep :: KRole :: KSep :: (if f then [KBang] else []) ++ map KMorpheme r ++ opt_toks None)%list = Some (RwRole f r None)).
      { match goal with |- q_path (KSep :: ?w) = _ => change (q_path (KSep :: w)) with (match q_role w with Some (p, []) => Some p | _ => None end) end.
        rewrite (q_role_ok nf) by auto. reflexivity. }
      rewrite Q. cbn [v_path]. rewrite v_names_ok by auto. cbn [bind]. rewrite mk_role_ok by auto. reflexivity.
    - rewrite plex_prole by (auto; split; auto; destruct L as [|p' [g m k Hm]|]; exact D).
      assert (Q : q_path (KSep :: KRole :: KSep :: (if f then [KBang] else []) ++ map KMorpheme r ++ opt_toks (Some p))%list = Some (RwRole f r (Some (raw_lex_of p)))).
      { match goal with |- q_path (KSep :: ?w) = _ => change (q_path (KSep :: w)) with (match q_role w with Some (p, []) => Some p | _ => None end) end.
        rewrite (q_role_ok nf) by auto. reflexivity. }
      rewrite Q. cbn [v_path]. rewrite v_names_ok by auto. cbn [bind]. rewrite mk_role_ok by auto. cbn [bind]. rewrite v_lex_canon by auto. cbn [bind option_map].
      destruct L; reflexivity.
  Qed.
  Lemma canon_str p : proper nf p -> one_digit p -> path_str (canon p) = path_str p.
  Proof.
    intros H D. destruct (path_parse_alike so SO p H D) as (q & E & A). rewrite path_parse_canon in E by auto. injection E as <-. now apply alike_str.
  Qed.
  Lemma value_ok s : nf s -> old_class (str s) = None -> value_of so s = Ok (P s).
  Proof.
    intros N O. destruct (P_ok s N) as (E & _ & _). unfold value_of.
    assert (W : script_word (str s)) by (apply str_word; now apply nf_wf).
    rewrite (parse_text so (str s) (RMorpheme (str s)) (UScript (P s))); [reflexivity| | |].
    - intros X. destruct W as [_ (? & ? & ? & W & _)]. congruence.
    - assert (T : ulex 0 false (str s) = [UMorpheme (str s)]).
      { apply (ulex_words _ _ _ _ (le_n _)); [|discriminate]. rewrite split_end by (apply script_word_wordy; exact W).
        apply (tok_words [str s]). constructor; [split; auto|constructor]. }
      rewrite T. reflexivity.
    - cbn. rewrite E. reflexivity.
  Qed.

  (** ** Values of distinct paths *)
  Lemma add_value_new p v l : Forall (fun e => path_str (fst e) <> path_str p) l -> add_value p v l = (l ++ [(p, [v])])%list.
  Proof.
    induction 1 as [|[q vs] l H F IH]; [reflexivity|]. cbn [add_value app]. unfold path_eqb. cbn [fst] in H. apply String.eqb_neq in H. now rewrite H, IH.
  Qed.
  Lemma path_to_value_distinct l : NoDup (map path_str (map fst l)) -> path_to_value l = map (fun e => (fst e, [snd e])) l.
  Proof.
    intros N. unfold path_to_value.
    enough (X : forall acc, NoDup (map path_str (map fst (acc ++ l))) -> fold_left (fun a e => add_value (fst e) (snd e) a) l (map (fun e => (fst e, [snd e])) acc) = map (fun e => (fst e, [snd e])) (acc ++ l)).
    { now apply (X []). }
    clear N. induction l as [|[p v] l IH]; intros acc N; cbn [fold_left fst snd]; [now rewrite app_nil_r|].
    rewrite add_value_new.
    - change ([(p, [v])]) with (map (fun e : path * script => (fst e, [snd e])) [(p, v)]). rewrite <- map_app, IH; rewrite <- app_assoc; [reflexivity|exact N].
    - rewrite Forall_map. cbn [fst]. apply Forall_forall. intros [q w] Hq E. cbn [fst] in E. rewrite !map_app in N. cbn [map fst] in N.
      apply NoDup_remove_2 in N. apply N. apply in_or_app. left. rewrite <- E. apply in_map. change q with (fst (q, w)). now apply in_map.
  Qed.

  (** ** Bins *)
  Lemma update_new key f l : Forall (fun e => path_str (fst e) <> path_str key) l -> update key f l = do b <- f new_bin; Ok (l ++ [(key, b)])%list.
  Proof.
    induction 1 as [|[k b] l H F IH]; [cbn [update]; destruct (f new_bin); reflexivity|]. cbn [update]. unfold path_eqb. cbn [fst] in H. apply String.eqb_neq in H. rewrite H, IH.
    destruct (f new_bin); reflexivity.
  Qed.
  Lemma update_last key f l b : Forall (fun e => path_str (fst e) <> path_str key) l -> update key f (l ++ [(key, b)])%list = do b <- f b; Ok (l ++ [(key, b)])%list.
  Proof.
    induction 1 as [|[k b'] l H F IH]; cbn [update app].
    - unfold path_eqb. rewrite String.eqb_refl. reflexivity.
    - unfold path_eqb. cbn [fst] in H. apply String.eqb_neq in H. rewrite H, IH. destruct (f b); reflexivity.
  Qed.
  Lemma group_by_eq p vs ty nd kids : group_by p vs (Bin ty nd kids) =
    do ty <- match ty with Some c => if isinstance p c then Ok c else Err ValueError | None => Ok (class_of p) end;
    do kids <- update (alone p) (fun b => match child_of p with Some c => group_by c vs b | None => match b with Bin t _ ks => Ok (Bin t (Some vs) ks) end end) kids;
    Ok (Bin (Some ty) nd kids).
  Proof. destruct p as [[]|? ? ? []|? []|? []|? ? []]; reflexivity. Qed.
  Definition typed (ty : option pclass) (c : pclass) : Prop := ty = None \/ ty = Some c.
  Lemma type_ok ty p : typed ty (class_of p) -> match ty with Some c => if isinstance p c then Ok c else Err ValueError | None => Ok (class_of p) end = Ok (class_of p).
  Proof. intros [->| ->]; [reflexivity|]. unfold isinstance. now rewrite pclass_eqb_refl, orb_true_r. Qed.
  (** Paths without child. *)
  Lemma group_leaves c (l : list (path * list script)) : Forall (fun e => child_of (fst e) = None /\ class_of (fst e) = c) l -> l <> [] ->
    forall ty kids, typed ty c -> NoDup (map path_str (map fst kids ++ map fst l)) ->
    group_all l (Bin ty None kids) = Ok (Bin (Some c) None (kids ++ map (fun e => (fst e, Bin None (Some (snd e)) [])) l)%list).
  Proof.
    intros F NE. induction F as [|[p vs] l [Hc Hk] F IH]; [congruence|]. intros ty kids T N. cbn [group_all fst] in *. rewrite group_by_eq. subst c. rewrite type_ok by auto. cbn [bind].
    rewrite Hc. assert (A : alone p = p) by (rewrite alone_set, <- Hc; apply set_child_id). rewrite A, update_new.
    - cbn [bind new_bin map fst snd]. destruct l as [|e l]; [reflexivity|]. rewrite IH; [now rewrite <- app_assoc|discriminate|now right|].
      rewrite (map_app fst kids), <- app_assoc. exact N.
    - apply Forall_forall. intros [k b] Hk E. cbn [fst] in E. rewrite map_app in N. cbn [map fst] in N. apply NoDup_remove_2 in N. apply N. apply in_or_app. left.
      rewrite <- E. apply in_map. change k with (fst (k, b)). now apply in_map.
  Qed.
  (** Paths below [h]. *)
  Definition below (h : path) (l : list (path * list script)) : list (path * list script) := map (fun e => (set_child h (Some (fst e)), snd e)) l.
  Lemma group_more h l kids b : child_of h = None -> Forall (fun e => path_str (fst e) <> path_str h) kids ->
    group_all (below h l) (Bin (Some (class_of h)) None (kids ++ [(h, b)])) = do b <- group_all l b; Ok (Bin (Some (class_of h)) None (kids ++ [(h, b)])).
  Proof.
    intros Hc F. revert b. induction l as [|[p vs] l IH]; intros b; [reflexivity|]. cbn [below map group_all fst snd]. assert (T : isinstance (set_child h (Some p)) (class_of h) = true) by (unfold isinstance; now rewrite class_set, pclass_eqb_refl, orb_true_r). rewrite group_by_eq, T. cbn [bind].
    rewrite child_set, alone_set, set_set.
    assert (A : set_child h None = h) by (rewrite <- Hc; apply set_child_id). rewrite A, update_last by auto. destruct (group_by p vs b) as [b'|]; cbn [bind]; [apply IH|reflexivity].
  Qed.
  Lemma group_below h l ty kids : child_of h = None -> Forall (fun e => path_str (fst e) <> path_str h) kids -> typed ty (class_of h) -> l <> [] ->
    group_all (below h l) (Bin ty None kids) = do b <- group_all l new_bin; Ok (Bin (Some (class_of h)) None (kids ++ [(h, b)])).
  Proof.
    intros Hc F T NE. destruct l as [|[p vs] l]; [congruence|]. cbn [below map group_all fst snd]. rewrite group_by_eq. rewrite type_ok by (rewrite class_set; auto). cbn [bind].
    rewrite class_set, child_set, alone_set, set_set. assert (A : set_child h None = h) by (rewrite <- Hc; apply set_child_id). rewrite A, update_new by auto.
    destruct (group_by p vs new_bin) as [b'|]; cbn [bind]; [apply group_more; auto|reflexivity].
  Qed.
  Lemma group_all_app l m b : group_all (l ++ m) b = do b <- group_all l b; group_all m b.
  Proof. revert b. induction l as [|[p vs] l IH]; intros b; [reflexivity|]. cbn [app group_all]. destruct (group_by p vs b); cbn [bind]; auto. Qed.
  Lemma build_nodes_eq ty kids : build_nodes (Bin (Some ty) None kids) = do l <- mapM (fun e => do n <- build_nodes (snd e); Ok (fst e, n)) kids; build ty l.
  Proof.
    cbn [build_nodes]. match goal with |- bind ?a _ = bind ?b _ => assert (E : a = b) end; [|now rewrite E].
    induction kids as [|[p b] kids IH]; [reflexivity|]. rewrite mapM_step. cbn [fst snd]. destruct (build_nodes b); cbn [bind]; [|reflexivity]. rewrite IH. destruct (mapM _ kids); reflexivity.
  Qed.

  (** ** Polymorphemes *)
  Lemma remake u l hs : made u -> Forall nf l -> Forall gok hs -> Permutation (map str (filter_empty l)) (map str (filter_empty (constant u))) ->
    Permutation (map (fun g => gkey (gnorm g)) hs) (map (fun g => gkey (gnorm g)) (groups u)) -> pm_str (mk_pm l hs) = pm_str u.
  Proof.
    intros (cs & gs & Hc & Hg & ->) Nl Nh C G. apply pm_str_key; try now apply mk_pm_ok. unfold pkey. f_equal.
    - apply mk_pm_constant_key; auto. eapply perm_trans; [exact C|]. change (filter_empty (constant (mk_pm cs gs))) with (printed (mk_pm cs gs)). rewrite printed_mk. apply Permutation_map, sort_perm.
    - apply mk_pm_groups_key; auto. eapply perm_trans; [exact G|].
      eapply perm_trans; [apply Permutation_map, (sort_perm group_lt)|]. rewrite map_map. change (fun x : list script * nat => gkey (gnorm (isort (filter_empty (fst x)), snd x))) with (fun x => gkey (gnorm (gnorm x))).
      rewrite (map_ext_Forall _ (fun g => gkey (gnorm g))); [apply Permutation_refl|]. eapply Forall_impl; [|exact Hg]. intros g. apply gnorm_twice.
  Qed.
  Definition U (e : path * script) : path * usl := (fst e, UScript (snd e)).
  Definition group_leaf (g : gidx) (gr : group) : list (path * script) := map (fun s => (PPoly g (Some s) (Some (snd gr)) None, s)) (fst gr).
  Definition leaves (u : pm) : list (path * script) :=
    (map (fun s => (PPoly Constant (Some s) None None, s)) (constant u) ++
     flat_map (fun g => match groups_at u g with Some gr => group_leaf g gr | None => [] end) [Group0; Group1; Group2])%list.
  Lemma filter_true {A} (f : A -> bool) l : (forall x, In x l -> f x = true) -> filter f l = l.
  Proof. induction l as [|x l IH]; intros H; [reflexivity|]. cbn. rewrite H by now left. f_equal. apply IH. intros y Hy. apply H. now right. Qed.
  Lemma filter_none {A} (f : A -> bool) l : (forall x, In x l -> f x = false) -> filter f l = [].
  Proof. induction l as [|x l IH]; intros H; [reflexivity|]. cbn. rewrite H by now left. apply IH. intros y Hy. apply H. now right. Qed.
  Lemma iter_pm_leaves u : filter (fun e => names_morpheme (fst e)) (iter_pm u) = map U (leaves u).
  Proof.
    unfold iter_pm, leaves. cbn [filter fst names_morpheme tail]. rewrite filter_app, map_app. f_equal.
    - rewrite filter_true, map_map; [reflexivity|]. intros x Hx. apply in_map_iff in Hx. destruct Hx as (s & <- & _). reflexivity.
    - assert (X : forall gs, filter (fun e => names_morpheme (fst e)) (flat_map (fun g => match groups_at u g with Some gr => iter_group g gr | None => [] end) gs)
        = map U (flat_map (fun g => match groups_at u g with Some gr => group_leaf g gr | None => [] end) gs)); [|apply X].
      induction gs as [|g gs IH]; [reflexivity|]. cbn [flat_map]. rewrite filter_app, map_app, IH. f_equal. destruct (groups_at u g) as [gr|]; [|reflexivity].
      unfold iter_group. cbn [filter fst names_morpheme tail]. unfold group_leaf. rewrite map_map. apply filter_true. intros x Hx. apply in_map_iff in Hx. destruct Hx as (s & <- & _). reflexivity.
  Qed.

  Lemma build_leaves c (l : list (path * list script)) : Forall (fun e => child_of (fst e) = None /\ class_of (fst e) = c) l -> l <> [] -> NoDup (map path_str (map fst l)) ->
    exists b, group_all l new_bin = Ok b /\ build_nodes b = build c (map (fun e => (fst e, NValues (snd e))) l).
  Proof.
    intros F NE N. eexists. split; [apply (group_leaves c l F NE None []); [now left|exact N]|]. rewrite build_nodes_eq. cbn [app].
    assert (M : mapM (fun e => do n <- build_nodes (snd e); Ok (fst e, n)) (map (fun e => (fst e, Bin None (Some (snd e)) [])) l) = Ok (map (fun e => (fst e, NValues (snd e))) l)).
    { clear. induction l as [|[p vs] l IH]; [reflexivity|]. cbn [map]. rewrite mapM_step. cbn [fst snd build_nodes bind]. rewrite IH. reflexivity. }
    now rewrite M.
  Qed.
  Definition C (e : path * script) : path * list script := (canon (fst e), [P (snd e)]).
  Definition pm_entries (u : pm) (g : gidx) : list (gidx * option nat * list script) :=
    match groups_at u g with Some gr => map (fun s => ((g, Some (snd gr)), [P s])) (fst gr) | None => [] end.
  Lemma poly_entries u : mapM poly_values (map (fun e => (fst e, NValues (snd e))) (map C (leaves u))) =
    Ok (map (fun s => ((Constant, Some 1), [P s])) (constant u) ++ pm_entries u Group0 ++ pm_entries u Group1 ++ pm_entries u Group2)%list.
  Proof.
    assert (X : forall (l : list (path * script)) k, (forall e, In e l -> exists g m k, fst e = PPoly g m k None) ->
      mapM poly_values (map (fun e => (fst e, NValues (snd e))) (map C l) ++ k) = do r <- mapM poly_values k; Ok (map (fun e => ((match fst e with PPoly g _ k _ => (g, mult_of g k) | _ => (Constant, None) end), [P (snd e)])) l ++ r)%list).
    { induction l as [|[p s] l IH]; intros k H; [cbn; destruct (mapM _ k); reflexivity|]. destruct (H (p, s) (or_introl eq_refl)) as (g & m & k' & E). cbn [fst] in E. subst p.
      cbn [map app]. rewrite mapM_step. cbn [C canon canon_part poly_values fst snd bind]. rewrite IH; [|intros e He; apply H; now right]. destruct (mapM _ k); reflexivity. }
    unfold leaves. rewrite <- (app_nil_r (map _ (map C _))), X.
    - cbn [mapM bind]. rewrite app_nil_r, map_app, map_map. cbn [fst snd mult_of]. f_equal. f_equal. cbn [flat_map]. rewrite !map_app, app_nil_r.
      assert (Y : forall g, g <> Constant -> map (fun e => ((match fst e with PPoly g _ k _ => (g, mult_of g k) | _ => (Constant, None) end), [P (snd e)])) (match groups_at u g with Some gr => group_leaf g gr | None => [] end) = pm_entries u g).
      { intros g Hg. unfold pm_entries. destruct (groups_at u g) as [gr|]; [|reflexivity]. unfold group_leaf. rewrite map_map. cbn [fst snd]. destruct g; [congruence|reflexivity..]. }
      rewrite !Y by discriminate. reflexivity.
    - intros e He. apply in_app_or in He. destruct He as [He|He].
      + apply in_map_iff in He. destruct He as (s & <- & _). cbn. eauto.
      + apply in_flat_map in He. destruct He as (g & _ & He). destruct (groups_at u g); [|destruct He]. apply in_map_iff in He. destruct He as (s & <- & _). cbn. eauto.
  Qed.
  Lemma entries_same u g : entries_of g (pm_entries u g) = pm_entries u g.
  Proof. apply filter_true. unfold pm_entries. destruct (groups_at u g); [|intros ? []]. intros x Hx. apply in_map_iff in Hx. destruct Hx as (s & <- & _). destruct g; reflexivity. Qed.
  Lemma entries_other u g h : gidx_eqb g h = false -> entries_of h (pm_entries u g) = [].
  Proof. intros E. apply filter_none. unfold pm_entries. destruct (groups_at u g); [|intros ? []]. intros x Hx. apply in_map_iff in Hx. destruct Hx as (s & <- & _). exact E. Qed.
  Lemma group_mult_same {A} k (l : list A) : 1 <= k -> group_mult (Some k) (map (fun _ => Some k) l) = Ok (Some k).
  Proof.
    intros K. induction l as [|x l IH]; [reflexivity|]. cbn [map group_mult]. destruct k; [lia|]. cbn [falsy opt_eqb]. rewrite Nat.eqb_refl. exact IH.
  Qed.
  Lemma group_mult_first {A} k (l : list A) : 1 <= k -> l <> [] -> group_mult None (map (fun _ => Some k) l) = Ok (Some k).
  Proof. intros K N. destruct l as [|x l]; [congruence|]. cbn [map group_mult]. destruct k; [lia|]. cbn [falsy]. now apply (group_mult_same (S k)). Qed.
  Lemma build_group_ok u es g : entries_of g es = pm_entries u g -> Forall (fun gr => 1 <= snd gr /\ fst gr <> []) (groups u) ->
    build_group es g = Ok (match groups_at u g with Some gr => [(map P (fst gr), snd gr)] | None => [] end).
  Proof.
    intros E F. unfold build_group. rewrite E. unfold pm_entries. destruct (groups_at u g) as [gr|] eqn:G; [|reflexivity].
    assert (H : In gr (groups u)) by (destruct g; cbn [groups_at] in G; [discriminate|eapply nth_error_In; exact G..]).
    rewrite Forall_forall in F. destruct (F gr H) as [K N]. rewrite map_map. cbn [fst snd]. rewrite group_mult_first by auto. cbn [bind].
    rewrite flat_map_concat_map, map_map. cbn [snd]. rewrite <- (map_map P (fun x => [x])), <- flat_map_concat_map.
    assert (X : forall l : list script, flat_map (fun x => [x]) l = l) by (induction l as [|y l IH]; [reflexivity|cbn; now rewrite IH]). rewrite X.
    destruct (fst gr) as [|s ms]; [congruence|reflexivity].
  Qed.
  Definition Pg (g : group) : group := (map P (fst g), snd g).
  Lemma build_pm_leaves u : Forall (fun gr => 1 <= snd gr /\ fst gr <> []) (groups u) -> List.length (groups u) <= 3 ->
    build_pm (map (fun e => (fst e, NValues (snd e))) (map C (leaves u))) = Ok (mk_pm (map P (constant u)) (map Pg (groups u))).
  Proof.
    intros F L. unfold build_pm. rewrite poly_entries. cbn [bind]. set (es := (map _ _ ++ _)%list).
    assert (Hc : entries_of Constant es = map (fun s => ((Constant, Some 1), [P s])) (constant u)).
    { unfold es, entries_of. rewrite !filter_app. fold (entries_of Constant (pm_entries u Group0)) (entries_of Constant (pm_entries u Group1)) (entries_of Constant (pm_entries u Group2)).
      rewrite !entries_other by reflexivity. rewrite !app_nil_r. apply filter_true. intros x Hx. apply in_map_iff in Hx. destruct Hx as (s & <- & _). reflexivity. }
    assert (Hn : forall g, gidx_eqb Constant g = false -> filter (fun e : gidx * option nat * list script => gidx_eqb (fst (fst e)) g) (map (fun s => ((Constant, Some 1), [P s])) (constant u)) = []).
    { intros g Hg. apply filter_none. intros x Hx. apply in_map_iff in Hx. destruct Hx as (s & <- & _). exact Hg. }
    assert (Hg : forall g, g <> Constant -> entries_of g es = pm_entries u g).
    { intros g Hg. unfold es, entries_of. rewrite !filter_app. rewrite Hn by (destruct g; congruence || reflexivity).
      fold (entries_of g (pm_entries u Group0)) (entries_of g (pm_entries u Group1)) (entries_of g (pm_entries u Group2)). cbn [app].
      destruct g; [congruence|..]; rewrite entries_same, !entries_other by reflexivity; cbn [app]; now rewrite ?app_nil_r. }
    cbn [mapM]. rewrite !(build_group_ok u) by (auto; apply Hg; discriminate). cbn [bind]. rewrite Hc. f_equal. f_equal.
    - rewrite flat_map_concat_map, map_map. cbn [snd]. rewrite <- (map_map P (fun x => [x])), <- flat_map_concat_map. induction (map P (constant u)) as [|y l IH]; [reflexivity|cbn; now rewrite IH].
    - cbn [groups_at]. destruct (groups u) as [|a [|b [|c [|]]]]; cbn in L; try lia; reflexivity.
  Qed.
  Lemma Forall_P l : Forall nf l -> Forall nf (map P l).
  Proof. rewrite Forall_map. apply Forall_impl. intros s H. apply P_ok; auto. Qed.
  Lemma map_str_P l : Forall nf l -> map str (map P l) = map str l.
  Proof. intros F. rewrite map_map. apply map_ext_Forall. eapply Forall_impl; [|exact F]. intros s H. apply P_ok; auto. Qed.
  Lemma Pg_ok g : gok g -> gok (Pg g). Proof. intros H. now apply Forall_P. Qed.
  Lemma Pg_key g : gok g -> gkey (Pg g) = gkey g.
  Proof. intros H. unfold gkey, Pg. cbn [fst snd]. now rewrite map_str_P. Qed.
  Lemma filter_empty_P l : Forall nf l -> map str (filter_empty (map P l)) = map str (filter_empty l).
  Proof. intros F. rewrite (filter_empty_str (map P l) l); auto using Forall_P, map_str_P. Qed.
  Lemma remake_P u : made u -> pm_str (mk_pm (map P (constant u)) (map Pg (groups u))) = pm_str u.
  Proof.
    intros M. assert (K : pok0 u) by (destruct M as (cs & gs & Hc & Hg & ->); apply mk_pm_ok; auto). destruct K as [K1 K2].
    apply remake; auto using Forall_P.
    - rewrite Forall_map. eapply Forall_impl; [|exact K2]. intros g. apply Pg_ok.
    - rewrite filter_empty_P by auto. reflexivity.
    - rewrite map_map. rewrite (map_ext_Forall _ (fun g => gkey (gnorm g))); [reflexivity|]. eapply Forall_impl; [|exact K2]. intros g Hg. apply gnorm_key; auto using Pg_ok, Pg_key.
  Qed.

  (** ** Distinct paths *)
  Definition item_ok (e : path * script) : Prop := proper nf (fst e) /\ one_digit (fst e) /\ nf (snd e) /\ old_class (str (snd e)) = None.
  Lemma distinct_paths l : Forall item_ok l -> NoDup (map raw0 (map fst l)) -> NoDup (map path_str (map fst (map C l))).
  Proof.
    intros F N. assert (E : map path_str (map fst (map C l)) = map path_str (map fst l)).
    { rewrite !map_map. apply map_ext_Forall. eapply Forall_impl; [|exact F]. intros e (H1 & H2 & _). now apply canon_str. }
    rewrite E. apply (NoDup_map_via path_str raw0); [|exact N]. intros p q Hp Hq X. rewrite Forall_forall in F. apply in_map_iff in Hp, Hq. destruct Hp as (e & <- & He), Hq as (e' & <- & He').
    destruct (F e He) as (A & _), (F e' He') as (B & _). pose proof (raw0_ok _ A). pose proof (raw0_ok _ B). congruence.
  Qed.
  Lemma from_items l : Forall item_ok l -> NoDup (map raw0 (map fst l)) ->
    from_path_values so l =
    do b <- group_all (map C l) new_bin; do n <- build_nodes b;
    match n with NValues _ => Err AssertionError | NPm p => Ok (UPm p) | NLexeme x => Ok (ULexeme x) | NWord w => Ok (UWord w) end.
  Proof.
    intros F N. pose proof (distinct_paths l F N) as D. unfold from_path_values.
    assert (A : mapM (fun e => path_parse so (path_str (fst e))) l = Ok (map (fun e => canon (fst e)) l)).
    { clear N D. induction F as [|e l (H1 & H2 & _) F IH]; [reflexivity|]. rewrite mapM_step, path_parse_canon by auto. cbn [bind]. now rewrite IH. }
    assert (B : mapM (fun e => value_of so (snd e)) l = Ok (map (fun e => P (snd e)) l)).
    { clear N D A. induction F as [|e l (_ & _ & H1 & H2) F IH]; [reflexivity|]. rewrite mapM_step, value_ok by auto. cbn [bind]. now rewrite IH. }
    rewrite A. cbn [bind]. rewrite B. cbn [bind].
    assert (X : combine (map (fun e => canon (fst e)) l) (map (fun e => P (snd e)) l) = map (fun e => (canon (fst e), P (snd e))) l).
    { clear. induction l as [|e l IH]; [reflexivity|]. cbn. now rewrite IH. }
    rewrite X, path_to_value_distinct; [now rewrite map_map|]. rewrite !map_map in D |- *. exact D.
  Qed.

  Definition pm_good (u : pm) : Prop :=
    clean u /\ List.length (groups u) <= 3 /\ Forall (fun g => 1 <= snd g < 10 /\ NoDup (map str (fst g))) (groups u) /\ NoDup (map str (constant u)).
  Lemma clean_morpheme u s : clean u -> In s (constant u) \/ (exists g, In g (groups u) /\ In s (fst g)) -> nf s /\ old_class (str s) = None.
  Proof.
    intros (_ & ((K1 & K2) & K) & Um & _) H. unfold unmarked in Um. rewrite Forall_forall in Um, K1, K2. destruct H as [H|(g & Hg & H)].
    - split; [auto|]. destruct K as [K|[_ K]].
      + rewrite K in H. destruct H as [<-|[]]. reflexivity.
      + apply Um. apply in_or_app. left. unfold printed. apply filter_In. split; [exact H|]. rewrite Forall_forall in K. now rewrite K.
    - specialize (K2 g Hg). unfold gok in K2. rewrite Forall_forall in K2. split; [auto|]. apply Um. apply in_or_app. right. apply in_flat_map. eauto.
  Qed.
  Lemma groups_at_in u g gr : groups_at u g = Some gr -> In gr (groups u) /\ g <> Constant.
  Proof. intros H. destruct g; cbn [groups_at] in H; [discriminate|split; [eapply nth_error_In; exact H|discriminate]..]. Qed.
  Lemma leaves_in u e : In e (leaves u) -> exists g k, fst e = PPoly g (Some (snd e)) k None /\
    ((g = Constant /\ In (snd e) (constant u)) \/ (exists gr, groups_at u g = Some gr /\ k = Some (snd gr) /\ In (snd e) (fst gr))).
  Proof.
    intros He. apply in_app_or in He. destruct He as [He|He].
    - apply in_map_iff in He. destruct He as (s & <- & Hs). exists Constant, None. cbn. auto.
    - apply in_flat_map in He. destruct He as (g & _ & He). destruct (groups_at u g) as [gr|] eqn:G; [|destruct He]. apply in_map_iff in He. destruct He as (s & <- & Hs).
      exists g, (Some (snd gr)). cbn. split; [reflexivity|]. right. eauto.
  Qed.
  Lemma leaf_ok u e : pm_good u -> In e (leaves u) -> item_ok e.
  Proof.
    intros (Cl & _ & G & _) He. apply leaves_in in He. destruct He as (g & k & E & H).
    assert (M : nf (snd e) /\ old_class (str (snd e)) = None).
    { apply (clean_morpheme u); [auto|]. destruct H as [[_ H]|(gr & Hg & _ & H)]; [auto|]. right. exists gr. split; [|auto]. now apply groups_at_in in Hg. }
    destruct M as [M O]. unfold item_ok. rewrite E. split; [apply proper_place; constructor; exact M|]. split; [|auto].
    destruct H as [[-> _]|(gr & Hg & -> & _)]; [exact Logic.I|]. apply groups_at_in in Hg. rewrite Forall_forall in G. destruct (G gr (proj1 Hg)) as ((_ & K) & _). destruct g; try exact Logic.I; exists (snd gr); auto.
  Qed.
  (** The parts of the texts that tell paths apart. *)
  Definition part_raw (p : path) : raw_part := match p with PPoly g m _ _ => raw_pos_of g m None | PFlex m _ => RwMorpheme (str m) | _ => RwMorpheme "" end.
  Lemma leaves_parts u : pm_good u -> NoDup (map part_raw (map fst (leaves u))).
  Proof.
    intros (_ & _ & G & N). unfold leaves. cbn [flat_map]. rewrite app_nil_r, !map_app, !map_map. cbn [fst part_raw].
    assert (X : forall g, NoDup (map part_raw (map fst (match groups_at u g with Some gr => group_leaf g gr | None => [] end)))).
    { intros g. destruct (groups_at u g) as [gr|] eqn:E; [|constructor]. apply groups_at_in in E. rewrite Forall_forall in G. destruct (G gr (proj1 E)) as [_ Ng]. unfold group_leaf. rewrite !map_map. cbn [fst part_raw].
      rewrite <- (map_map str (fun t => RwPos {| rp_pos := group_name g; rp_mult := match g with Constant => None | _ => None end; rp_morpheme := Some t |})).
      apply NoDup_map_inj; [|exact Ng]. intros x y H. congruence. }
    assert (Y : forall g x, In x (map part_raw (map fst (match groups_at u g with Some gr => group_leaf g gr | None => [] end))) -> exists t, x = RwPos {| rp_pos := group_name g; rp_mult := None; rp_morpheme := Some t |}).
    { intros g x H. destruct (groups_at u g) as [gr|]; [|destruct H]. unfold group_leaf in H. rewrite !map_map in H. apply in_map_iff in H. destruct H as (s & <- & _). exists (str s). unfold part_raw, raw_pos_of. cbn. destruct g; reflexivity. }
    pose proof (X Group0) as X0. pose proof (X Group1) as X1. pose proof (X Group2) as X2. rewrite !map_map in X0, X1, X2.
    pose proof (Y Group0) as Y0. pose proof (Y Group1) as Y1. pose proof (Y Group2) as Y2. rewrite !map_map in Y0, Y1, Y2.
    apply NoDup_app_both.
    - rewrite <- (map_map str (fun t => RwPos {| rp_pos := group_name Constant; rp_mult := None; rp_morpheme := Some t |})). apply NoDup_map_inj; [|exact N]. intros x y H. congruence.
    - apply NoDup_app_both; [exact X0|apply NoDup_app_both; [exact X1|exact X2|]|].
      + intros x H H'. destruct (Y1 x H) as (t & ->), (Y2 _ H') as (t' & E). discriminate.
      + intros x H H'. apply in_app_or in H'. destruct (Y0 x H) as (t & ->). destruct H' as [H'|H']; [destruct (Y1 _ H') as (t' & E)|destruct (Y2 _ H') as (t' & E)]; discriminate.
    - intros x H H'. apply in_map_iff in H. destruct H as (s & <- & _). apply in_app_or in H'. destruct H' as [H'|H']; [destruct (Y0 _ H') as (t' & E); discriminate|]. apply in_app_or in H'.
      destruct H' as [H'|H']; [destruct (Y1 _ H') as (t' & E)|destruct (Y2 _ H') as (t' & E)]; discriminate.
  Qed.
  Lemma leaves_raw u : pm_good u -> NoDup (map raw0 (map fst (leaves u))).
  Proof.
    intros H. pose proof (leaves_parts u H) as N. apply (NoDup_map_inj RwPart) in N; [|congruence]. rewrite map_map in N.
    rewrite (map_ext_in _ (fun x => RwPart (part_raw x))); [exact N|]. intros p Hp. apply in_map_iff in Hp. destruct Hp as (e & <- & He). apply leaves_in in He. destruct He as (g & k & -> & _). reflexivity.
  Qed.
  Lemma leaves_nonempty u : made u -> leaves u <> [].
  Proof.
    intros (cs & gs & Hc & Hg & ->). pose proof (mk_pm_ok cs gs Hc Hg) as [_ K]. unfold leaves. destruct (constant (mk_pm cs gs)) as [|s l] eqn:E; [|discriminate]. destruct K as [K|[K _]]; congruence.
  Qed.
  (** The polymorpheme built from its leaves. *)
  Lemma pm_bin u : pm_good u -> exists b p, group_all (map C (leaves u)) new_bin = Ok b /\ build_nodes b = Ok (NPm p) /\ pok p /\ pm_str p = pm_str u.
  Proof.
    intros G. pose proof G as ((M & R) & L & F & N). destruct (build_leaves ClPoly (map C (leaves u))) as (b & E1 & E2).
    - apply Forall_forall. intros e He. apply in_map_iff in He. destruct He as (e' & <- & He). apply leaves_in in He. destruct He as (g & k & E & _). unfold C. rewrite E. split; reflexivity.
    - intros X. apply map_eq_nil in X. now apply leaves_nonempty in X.
    - apply distinct_paths; [|now apply leaves_raw]. apply Forall_forall. intros e. now apply leaf_ok.
    - exists b, (mk_pm (map P (constant u)) (map Pg (groups u))). split; [exact E1|]. destruct R as (K & _ & Ne).
      split; [|split; [|now apply remake_P]].
      + rewrite E2. cbn [build]. rewrite build_pm_leaves; [reflexivity| |exact L]. rewrite Forall_forall in F, Ne |- *. intros g Hg. split; [apply (F g Hg)|auto].
      + destruct K as [[K1 K2] _]. apply mk_pm_ok; [now apply Forall_P|]. rewrite Forall_map. eapply Forall_impl; [|exact K2]. intros g. apply Pg_ok.
  Qed.
  Lemma rebuild_pm u : pm_good u -> exists l p, iter_by_script (UPm u) = Ok (map U l) /\ usl_of_list so l = Ok (UPm p) /\ pm_str p = pm_str u.
  Proof.
    intros G. destruct (pm_bin u G) as (b & p & E1 & E2 & _ & E3). exists (leaves u), p. cbn [iter_by_script iter_path bind]. rewrite iter_pm_leaves. split; [reflexivity|]. split; [|exact E3].
    assert (NE : leaves u <> []) by (apply leaves_nonempty; apply G). unfold usl_of_list. destruct (leaves u) eqn:E; [congruence|]. rewrite <- E in *.
    rewrite from_items; [rewrite E1; cbn [bind]; rewrite E2; reflexivity| |now apply leaves_raw]. apply Forall_forall. intros e. now apply leaf_ok.
  Qed.

  (** ** Flexions *)
  Definition FT : list (string * list string) := map (fun t => (t, map str (flexion_root t))) FLEXION_SCRIPTS.
  Lemma FT_check : forallb (fun e => negb (existsb (String.eqb "E:") (snd e)) && forallb (fun e' => (String.eqb (fst e) (fst e') || forallb (fun x => negb (existsb (String.eqb x) (snd e'))) (snd e))%bool) FT)%bool FT = true.
  Proof. vm_compute. reflexivity. Qed.

  Lemma in_scripts_str m l : in_scripts m l = existsb (String.eqb (str m)) (map str l).
  Proof. unfold in_scripts. induction l as [|x l IH]; [reflexivity|]. cbn. now rewrite IH. Qed.
  Lemma in_scripts_iff m l : in_scripts m l = true <-> In (str m) (map str l).
  Proof.
    rewrite in_scripts_str, existsb_exists. split.
    - intros (x & Hx & E). apply String.eqb_eq in E. now subst.
    - intros H. exists (str m). split; [auto|apply String.eqb_refl].
  Qed.
  Definition of_root (t : string) (m : script) : Prop := in_scripts m (flexion_root t) = true.
  Lemma root_disjoint t t' m : In t FLEXION_SCRIPTS -> In t' FLEXION_SCRIPTS -> of_root t m -> of_root t' m -> t = t'.
  Proof.
    intros H H' M M'. pose proof FT_check as F. rewrite forallb_forall in F. specialize (F (t, map str (flexion_root t)) ltac:(unfold FT; apply in_map_iff; eauto)). apply andb_true_iff in F. destruct F as [_ F].
    rewrite forallb_forall in F. specialize (F (t', map str (flexion_root t')) ltac:(unfold FT; apply in_map_iff; eauto)). cbn [fst snd] in F. apply orb_true_iff in F. destruct F as [F|F]; [now apply String.eqb_eq|].
    apply in_scripts_iff in M. rewrite forallb_forall in F. specialize (F _ M). unfold of_root in M'. rewrite in_scripts_str in M'. rewrite M' in F. discriminate.
  Qed.
  Lemma root_empty t m : In t FLEXION_SCRIPTS -> str m = "E:" -> ~ of_root t m.
  Proof.
    intros H E M. pose proof FT_check as F. rewrite forallb_forall in F. specialize (F (t, map str (flexion_root t)) ltac:(unfold FT; apply in_map_iff; eauto)). apply andb_true_iff in F. destruct F as [F _].
    cbn [snd] in F. unfold of_root in M. rewrite in_scripts_str, E in M. rewrite M in F. discriminate.
  Qed.
  Lemma of_root_P t m : nf m -> of_root t (P m) <-> of_root t m.
  Proof. intros H. unfold of_root. rewrite !in_scripts_str. destruct (P_ok m H) as (_ & _ & ->). reflexivity. Qed.
  Lemma dedup_distinct l : NoDup (map str l) -> dedup script_eqb l = l.
  Proof.
    unfold dedup. enough (X : forall seen, NoDup (map str l) -> (forall x, In x seen -> ~ In (str x) (map str l)) -> dedup_aux script_eqb seen l = l) by (intros N; now apply X).
    induction l as [|x l IH]; intros seen N D; [reflexivity|]. cbn [dedup_aux]. cbn [map] in N. apply NoDup_cons_iff in N. destruct N as [N1 N2].
    assert (M : memb script_eqb x seen = false).
    { destruct (memb script_eqb x seen) eqn:E; [|reflexivity]. unfold memb in E. apply existsb_exists in E. destruct E as (y & Hy & E). apply String.eqb_eq in E. elim (D y Hy). left. congruence. }
    rewrite M. f_equal. apply IH; auto. intros y [<-|Hy]; [exact N1|]. intros H. apply (D y Hy). now right.
  Qed.
  Definition root_part (t : string) (q : list script) : Prop := In t FLEXION_SCRIPTS /\ (forall m, In m q -> of_root t m).
  Lemma filter_none_root t cats qs : Forall2 root_part cats qs -> In t FLEXION_SCRIPTS -> ~ In t cats -> filter (fun m => in_scripts m (flexion_root t)) (List.concat qs) = [].
  Proof.
    intros F Ht N. induction F as [|t' q cats qs [H1 H2] F IH]; [reflexivity|]. cbn [List.concat]. rewrite filter_app, IH by (intros X; apply N; now right). rewrite app_nil_r. apply filter_none.
    intros m Hm. destruct (in_scripts m (flexion_root t)) eqn:E; [|reflexivity]. elim N. left. eapply root_disjoint; eauto.
  Qed.
  Lemma filter_roots cats qs : Forall2 root_part cats qs -> NoDup cats -> Forall2 (fun t q => filter (fun m => in_scripts m (flexion_root t)) (List.concat qs) = q) cats qs.
  Proof.
    induction 1 as [|t q cats qs [H1 H2] F IH]; intros N; [constructor|]. apply NoDup_cons_iff in N. destruct N as [N1 N2]. constructor.
    - cbn [List.concat]. rewrite filter_app, (filter_none_root t cats) by auto. rewrite app_nil_r. now apply filter_true.
    - specialize (IH N2). assert (G : Forall (fun t' => In t' FLEXION_SCRIPTS /\ t' <> t) cats).
      { apply Forall_forall. intros t' Ht'. split; [|intros ->; contradiction]. clear -F Ht'. induction F as [|a b l l' [H _] F IH]; [destruct Ht'|]. destruct Ht' as [<-|Ht']; auto. }
      cbn [List.concat]. revert IH G. generalize (List.concat qs) as all. clear F N1 N2. intros all F G. induction F as [|t' q' cats qs E F IH]; [constructor|]. apply Forall_cons_iff in G. destruct G as [[G1 G2] G].
      constructor; [|auto]. rewrite filter_app, E. rewrite filter_none; [reflexivity|]. intros m Hm. destruct (in_scripts m (flexion_root t')) eqn:X; [|reflexivity]. elim G2. eapply root_disjoint; eauto.
  Qed.
  Lemma nodup_rest {A} (a l : list A) : NoDup a -> incl a l -> exists r, Permutation l (a ++ r).
  Proof.
    revert l. induction a as [|x a IH]; intros l N I; [exists l; reflexivity|]. apply NoDup_cons_iff in N. destruct N as [N1 N2].
    destruct (in_split x l (I x (or_introl eq_refl))) as (l1 & l2 & ->). destruct (IH (l1 ++ l2)%list N2) as (r & Pr).
    { intros y Hy. specialize (I y (or_intror Hy)). apply in_app_or in I. apply in_or_app. destruct I as [I|[->|I]]; auto. contradiction. }
    exists r. cbn [app]. eapply perm_trans; [apply Permutation_sym, Permutation_middle|]. now constructor.
  Qed.
  Lemma FS_nodup : NoDup FLEXION_SCRIPTS.
  Proof. repeat (constructor; [cbn; intuition discriminate|]). constructor. Qed.
  Definition single (v : list script) : list script := match v with [m] => [m] | _ => [] end.
  Definition multi (v : list script) : list group := match v with [] | [_] => [] | _ => [(v, 1)] end.
  (** A flexion rebuilt from morphemes found in different roots. *)
  Lemma flexion_parts Es cats qs : (forall m t, In m Es -> In t FLEXION_SCRIPTS -> ~ of_root t m) -> Forall2 root_part cats qs -> NoDup cats -> Forall (fun q => NoDup (map str q)) qs ->
    exists cs gs, flexion_of (Es ++ List.concat qs) = mk_pm cs gs /\ Permutation cs (flat_map single qs) /\ Permutation gs (flat_map multi qs).
  Proof.
    intros HE F N D. assert (I : incl cats FLEXION_SCRIPTS). { clear -F. intros t Ht. induction F as [|a b l l' [H _] F IH]; [destruct Ht|]. destruct Ht as [<-|Ht]; auto. }
    destruct (nodup_rest cats FLEXION_SCRIPTS N I) as (rest & Pr).
    set (S t := dedup script_eqb (filter (fun m => in_scripts m (flexion_root t)) (Es ++ List.concat qs))).
    assert (X : forall t, In t FLEXION_SCRIPTS -> filter (fun m => in_scripts m (flexion_root t)) (Es ++ List.concat qs) = filter (fun m => in_scripts m (flexion_root t)) (List.concat qs)).
    { intros t Ht. rewrite filter_app, (filter_none _ Es); [reflexivity|]. intros m Hm. destruct (in_scripts m (flexion_root t)) eqn:E; [|reflexivity]. elim (HE m t Hm Ht E). }
    assert (SC : map S cats = qs).
    { pose proof (filter_roots cats qs F N) as G. clear -G X D I. assert (H : Forall2 (fun t q => S t = q) cats qs).
      { unfold S. clear S. revert G I D X. generalize (List.concat qs) as all. intros all G I D X. induction G as [|t q cats qs E G IH]; [constructor|]. apply Forall_cons_iff in D. destruct D as [D1 D2].
        constructor; [|apply IH; auto; intros y Hy; apply I; now right]. rewrite X by (apply I; now left). rewrite E. now apply dedup_distinct. }
      clearbody S. clear -H. induction H as [|t q cats qs E H IH]; [reflexivity|]. cbn. now rewrite E, IH. }
    assert (SR : forall t, In t rest -> S t = []).
    { intros t Ht. assert (H1 : In t FLEXION_SCRIPTS) by (eapply Permutation_in; [apply Permutation_sym, Pr|]; apply in_or_app; auto).
      unfold S. rewrite X by auto. rewrite (filter_none_root t cats qs F H1); [reflexivity|]. intros H2. pose proof FS_nodup as Nf. eapply Permutation_NoDup in Nf; [|exact Pr].
      apply in_split in H2. destruct H2 as (a & b & ->). rewrite <- app_assoc in Nf. cbn [app] in Nf. apply NoDup_remove_2 in Nf. apply Nf. apply in_or_app. right. apply in_or_app. now right. }
    assert (SN : forall {B} (f : list script -> list B), f [] = [] -> flat_map f (map S rest) = []).
    { intros B f Hf. clear -SR Hf. induction rest as [|t r IH]; [reflexivity|]. cbn. rewrite (SR t) by now left. rewrite Hf. apply IH. intros t' Ht'. apply SR. now right. }
    assert (FS : flexion_sets (Es ++ List.concat qs) = map S FLEXION_SCRIPTS) by (unfold flexion_sets, FLEXION_ROOTS; now rewrite map_map).
    exists (flat_map single (flexion_sets (Es ++ List.concat qs))), (flat_map multi (flexion_sets (Es ++ List.concat qs))). split; [reflexivity|].
    assert (Y : forall {B} (f : list script -> list B), f [] = [] -> Permutation (flat_map f (flexion_sets (Es ++ List.concat qs))) (flat_map f qs)).
    { intros B f Hf. rewrite FS. eapply perm_trans; [apply Permutation_flat_map, Permutation_map, Pr|]. rewrite map_app, flat_map_app, SN by auto. rewrite app_nil_r, SC. reflexivity. }
    split; apply Y; reflexivity.
  Qed.

  Definition flex_parts (u : pm) : list (list script) := (map (fun m => [m]) (filter_empty (constant u)) ++ map fst (groups u))%list.
  Definition flex_good (u : pm) : Prop :=
    clean u /\ List.length (groups u) <= 3 /\ Forall (fun g => snd g = 1 /\ 2 <= List.length (fst g) /\ NoDup (map str (fst g))) (groups u) /\
    exists cats, NoDup cats /\ Forall2 root_part cats (flex_parts u).
  Definition flex_ms (u : pm) : list script := map snd (leaves u).
  Lemma flex_ms_eq u : List.length (groups u) <= 3 -> flex_ms u = (constant u ++ List.concat (map fst (groups u)))%list.
  Proof.
    intros L. unfold flex_ms, leaves. rewrite map_app, map_map. cbn [snd]. rewrite map_id. f_equal. cbn [flat_map groups_at].
    assert (X : forall g gr, map snd (group_leaf g gr) = fst gr) by (intros g gr; unfold group_leaf; rewrite map_map; cbn [snd]; apply map_id).
    destruct (groups u) as [|a [|b [|c [|]]]]; cbn in L; try lia; cbn [nth_error map List.concat]; rewrite ?app_nil_r, ?map_app, ?X; reflexivity.
  Qed.
  Lemma constant_split u : pok u -> exists Es, constant u = (Es ++ filter_empty (constant u))%list /\ Forall (fun m => m = Null 0) Es.
  Proof.
    intros [_ [E|[_ F]]].
    - exists [Null 0]. rewrite E. split; [reflexivity|]. repeat constructor.
    - exists []. split; [|constructor]. cbn [app]. symmetry. now apply filter_empty_id.
  Qed.
  Lemma concat_singles (l : list script) : List.concat (map (fun m => [m]) l) = l.
  Proof. induction l as [|x l IH]; [reflexivity|]. cbn. now rewrite IH. Qed.
  Lemma root_parts_P cats qs : Forall2 root_part cats qs -> Forall (Forall nf) qs -> Forall2 root_part cats (map (map P) qs).
  Proof.
    induction 1 as [|t q cats qs [H1 H2] F IH]; intros N; [constructor|]. apply Forall_cons_iff in N. destruct N as [N1 N2]. cbn [map]. constructor; [|auto]. split; [auto|].
    intros m Hm. apply in_map_iff in Hm. destruct Hm as (x & <- & Hx). rewrite Forall_forall in N1. apply of_root_P; auto.
  Qed.
  Lemma root_parts_nodup cats qs : Forall2 root_part cats qs -> NoDup cats -> Forall (fun q => NoDup (map str q)) qs -> NoDup (map str (List.concat qs)).
  Proof.
    induction 1 as [|t q cats qs [H1 H2] F IH]; intros N D; [constructor|]. apply NoDup_cons_iff in N. apply Forall_cons_iff in D. cbn [List.concat]. rewrite map_app. apply NoDup_app_both; [tauto|apply IH; tauto|].
    intros x Hx Hy. apply in_map_iff in Hx, Hy. destruct Hx as (a & <- & Ha), Hy as (b & E & Hb). apply in_concat in Hb. destruct Hb as (q' & Hq & Hb).
    assert (X : exists t', In t' cats /\ root_part t' q'). { clear -F Hq. induction F as [|t' q'' cats qs R F IH]; [destruct Hq|]. destruct Hq as [<-|Hq]; [exists t'; split; [now left|auto]|]. destruct (IH Hq) as (t'' & H & H'). exists t''. split; [now right|auto]. }
    destruct X as (t' & Ht & R1 & R2). assert (t = t'); [|subst; tauto]. eapply (root_disjoint t t' a); auto. unfold of_root. apply in_scripts_iff. rewrite <- E. apply in_scripts_iff. exact (R2 b Hb).
  Qed.
  Lemma flex_parts_nodup u : flex_good u -> Forall (fun q => NoDup (map str q)) (flex_parts u).
  Proof.
    intros (_ & _ & G & _). unfold flex_parts. apply Forall_app. split; rewrite Forall_map.
    - apply Forall_forall. intros m _. cbn. constructor; [intros []|constructor].
    - eapply Forall_impl; [|exact G]. intros g. cbn. tauto.
  Qed.
  Lemma flex_parts_nf u : pok u -> Forall (Forall nf) (flex_parts u).
  Proof.
    intros [[K1 K2] _]. unfold flex_parts. apply Forall_app. split; rewrite Forall_map; [|exact K2]. eapply Forall_impl; [|apply filter_nf, K1]. intros m Hm. cbn. constructor; [exact Hm|constructor].
  Qed.
  Lemma flex_ms_nodup u : flex_good u -> NoDup (map str (flex_ms u)).
  Proof.
    intros G. pose proof (flex_parts_nodup u G) as D. destruct G as (Cl & L & G & cats & N & F). rewrite flex_ms_eq by auto. destruct (constant_split u (clean_ok u Cl)) as (Es & Ec & HE).
    assert (X : NoDup (map str (filter_empty (constant u) ++ List.concat (map fst (groups u))))).
    { pose proof (root_parts_nodup cats (flex_parts u) F N D) as R. unfold flex_parts in R. rewrite concat_app, concat_singles in R. exact R. }
    assert (Y : forall m, In m (filter_empty (constant u) ++ List.concat (map fst (groups u))) -> str m <> "E:").
    { intros m Hm E. assert (Hm' : In m (List.concat (flex_parts u))) by (unfold flex_parts; now rewrite concat_app, concat_singles). apply in_concat in Hm'. destruct Hm' as (q & Hq & Hm').
      clear -F Hq Hm' E. induction F as [|t q' cats qs [R1 R2] F IH]; [destruct Hq|]. destruct Hq as [->|Hq]; [|auto]. exact (root_empty t m R1 E (R2 m Hm')). }
    rewrite Ec, <- app_assoc, map_app. destruct (clean_ok u Cl) as [_ [K|[K Kf]]].
    - rewrite K in Ec. cbn [filter_empty] in *. assert (Es = [Null 0]) as -> by (destruct Es as [|a [|b Es]]; cbn in Ec; congruence).
      cbn [map app]. constructor; [|exact X]. intros H. apply in_map_iff in H. destruct H as (m & E & Hm). apply (Y m Hm E).
    - rewrite (filter_empty_id _ Kf) in Ec. assert (Es = []) as ->; [|exact X]. destruct Es as [|a Es]; [reflexivity|]. apply (f_equal (@List.length script)) in Ec. rewrite app_length in Ec. cbn in Ec. lia.
  Qed.
  Lemma flexion_rebuilt u : flex_good u -> pok (flexion_of (map P (flex_ms u))) /\ pm_str (flexion_of (map P (flex_ms u))) = pm_str u.
  Proof.
    intros G. pose proof (flex_parts_nodup u G) as D. destruct G as (Cl & L & G & cats & N & F). pose proof (clean_ok u Cl) as K. pose proof (flex_parts_nf u K) as Np.
    rewrite flex_ms_eq by auto. destruct (constant_split u K) as (Es & Ec & HE).
    destruct (flexion_parts (map P Es) cats (map (map P) (flex_parts u))) as (cs & gs & E & P1 & P2).
    - intros m t Hm Ht. apply in_map_iff in Hm. destruct Hm as (x & <- & Hx). rewrite Forall_forall in HE. rewrite (HE x Hx). rewrite of_root_P by (split; [cbn; unfold MAX_LAYER; lia|discriminate]). now apply root_empty.
    - now apply root_parts_P.
    - exact N.
    - rewrite Forall_map. rewrite Forall_forall in D, Np |- *. intros q Hq. rewrite map_str_P by auto. auto.
    - assert (Em : (map P Es ++ List.concat (map (map P) (flex_parts u)))%list = map P (constant u ++ List.concat (map fst (groups u)))).
      { rewrite <- concat_map. unfold flex_parts. rewrite concat_app, concat_singles, <- map_app, app_assoc, <- Ec. reflexivity. }
      rewrite <- Em, E. destruct K as [[K1 K2] K].
      assert (S1 : flat_map single (map (map P) (flex_parts u)) = map P (filter_empty (constant u))).
      { unfold flex_parts. rewrite map_app, flat_map_app, map_map. rewrite (flat_map_concat_map single (map (map P) (map fst (groups u)))), !map_map.
        assert (Z : map (fun x => single (map P (fst x))) (groups u) = map (fun _ => []) (groups u)).
        { apply map_ext_Forall. eapply Forall_impl; [|exact G]. intros g (_ & H & _). destruct (fst g) as [|a [|b r]]; cbn in H; try lia. reflexivity. }
        rewrite Z. clear. induction (filter_empty (constant u)) as [|x l IH]; cbn; [|f_equal; exact IH]. induction (groups u); auto. }
      assert (S2 : flat_map multi (map (map P) (flex_parts u)) = map Pg (groups u)).
      { unfold flex_parts. rewrite map_app, flat_map_app, !map_map. assert (Z : flat_map multi (map (fun x => map P [x]) (filter_empty (constant u))) = []) by (clear; induction (filter_empty (constant u)); auto).
        rewrite Z. cbn [app]. clear -G. induction G as [|g gs (H1 & H2 & _) F IH]; [reflexivity|]. cbn [map flat_map]. rewrite IH. unfold Pg. rewrite H1. destruct (fst g) as [|a [|b r]]; cbn in H2; try lia. reflexivity. }
      rewrite S1 in P1. rewrite S2 in P2. assert (Ncs : Forall nf cs) by (eapply Permutation_Forall; [apply Permutation_sym, P1|]; apply Forall_P, filter_nf, K1).
      assert (Ngs : Forall gok gs). { eapply Permutation_Forall; [apply Permutation_sym, P2|]. rewrite Forall_map. eapply Forall_impl; [|exact K2]. intros g. apply Pg_ok. }
      split; [now apply mk_pm_ok|]. apply remake; [apply Cl|auto..| |].
      + assert (Ee : filter_empty cs = cs). { apply filter_empty_id. eapply Permutation_Forall; [apply Permutation_sym, P1|]. rewrite Forall_map. pose proof (filter_empty_all (constant u)) as A. pose proof (filter_nf _ K1) as B.
          rewrite Forall_forall in A, B |- *. intros m Hm. rewrite P_empty by auto. auto. }
        rewrite Ee. eapply perm_trans; [apply Permutation_map, P1|]. rewrite map_str_P by (apply filter_nf, K1). reflexivity.
      + eapply perm_trans; [apply Permutation_map, P2|]. rewrite map_map. rewrite (map_ext_Forall _ (fun g => gkey (gnorm g))); [reflexivity|]. eapply Forall_impl; [|exact K2]. intros g Hg. apply gnorm_key; auto using Pg_ok, Pg_key.
  Qed.

  (** ** Lexemes *)
  Definition flex_leaves (u : pm) : list (path * script) := map (fun s => (PFlex s None, s)) (flex_ms u).
  Definition under_ (h : path) (l : list (path * script)) : list (path * script) := map (fun e => (set_child h (Some (fst e)), snd e)) l.
  Definition lex_leaves (l : lexeme) : list (path * script) :=
    (under_ (PLex Flexion None) (flex_leaves (pm_flexion l)) ++ under_ (PLex Content None) (leaves (pm_content l)))%list.
  Lemma filter_map_comm {A B} (f : B -> bool) (g : A -> B) l : filter f (map g l) = map g (filter (fun x => f (g x)) l).
  Proof. induction l as [|x l IH]; [reflexivity|]. cbn. rewrite IH. destruct (f (g x)); reflexivity. Qed.
  Lemma iter_pm_places u e : In e (iter_pm u) -> exists g m k, fst e = PPoly g m k None.
  Proof.
    unfold iter_pm. intros [<-|H]; [cbn; eauto|]. apply in_app_or in H. destruct H as [H|H].
    - apply in_map_iff in H. destruct H as (s & <- & _). cbn. eauto.
    - apply in_flat_map in H. destruct H as (g & _ & H). destruct (groups_at u g) as [gr|]; [|destruct H]. destruct H as [<-|H]; [cbn; eauto|]. apply in_map_iff in H. destruct H as (s & <- & _). cbn. eauto.
  Qed.
  Lemma iter_lexeme_leaves l : filter (fun e => names_morpheme (fst e)) (iter_lexeme l) = map U (lex_leaves l).
  Proof.
    unfold iter_lexeme, lex_leaves. cbn [filter fst names_morpheme tail]. rewrite filter_app. cbn [filter fst names_morpheme tail]. rewrite map_app, !filter_map_comm. cbn [fst]. f_equal.
    - rewrite (filter_ext_in _ (fun e => names_morpheme (fst e))); [|intros e He; apply iter_pm_places in He; destruct He as (g & [m|] & k & ->); reflexivity].
      rewrite iter_pm_leaves. unfold under_, flex_leaves, flex_ms. rewrite !map_map. apply map_ext_in. intros e He. apply leaves_in in He. destruct He as (g & k & E & _). unfold U. cbn [fst snd]. rewrite E. reflexivity.
    - rewrite (filter_ext_in _ (fun e => names_morpheme (fst e))); [|intros e He; apply iter_pm_places in He; destruct He as (g & [m|] & k & ->); reflexivity].
      rewrite iter_pm_leaves. unfold under_. rewrite !map_map. reflexivity.
  Qed.
  Definition lex_good (l : lexeme) : Prop := flex_good (pm_flexion l) /\ pm_good (pm_content l).
  Lemma flex_leaf_ok u e : flex_good u -> In e (flex_leaves u) -> item_ok e /\ exists s, e = (PFlex s None, s) /\ nf s.
  Proof.
    intros (Cl & L & _) He. unfold flex_leaves in He. apply in_map_iff in He. destruct He as (s & <- & Hs). unfold flex_ms in Hs. apply in_map_iff in Hs. destruct Hs as (e & <- & He). apply leaves_in in He.
    assert (M : nf (snd e) /\ old_class (str (snd e)) = None).
    { destruct He as (g & k & _ & H). apply (clean_morpheme u); [auto|]. destruct H as [[_ H]|(gr & Hg & _ & H)]; [auto|]. right. exists gr. split; [|auto]. now apply groups_at_in in Hg. }
    destruct M as [M O]. split; [|eauto]. split; [now apply proper_flexion|]. split; [exact Logic.I|]. auto.
  Qed.
  Lemma flex_leaves_raw u : flex_good u -> NoDup (map raw0 (map fst (flex_leaves u))).
  Proof.
    intros G. pose proof (flex_ms_nodup u G) as N. unfold flex_leaves. rewrite !map_map. cbn [fst raw0]. rewrite <- (map_map str (fun t => RwPart (RwMorpheme t))). apply NoDup_map_inj; [congruence|exact N].
  Qed.
  Lemma flex_bin u : flex_good u -> exists b p, group_all (map C (flex_leaves u)) new_bin = Ok b /\ build_nodes b = Ok (NPm p) /\ pok p /\ pm_str p = pm_str u.
  Proof.
    intros G. destruct (flexion_rebuilt u G) as [K E]. destruct (build_leaves ClFlex (map C (flex_leaves u))) as (b & E1 & E2).
    - apply Forall_forall. intros e He. apply in_map_iff in He. destruct He as (e' & <- & He). apply flex_leaf_ok in He; [|auto]. destruct He as (_ & s & -> & _). split; reflexivity.
    - intros X. apply map_eq_nil in X. unfold flex_leaves, flex_ms in X. apply map_eq_nil in X. apply map_eq_nil in X. apply leaves_nonempty in X; [auto|]. apply G.
    - apply distinct_paths; [|now apply flex_leaves_raw]. apply Forall_forall. intros e He. now apply (flex_leaf_ok u).
    - exists b, (flexion_of (map P (flex_ms u))). split; [exact E1|]. split; [|auto]. rewrite E2. cbn [build]. unfold build_flex, flex_leaves. rewrite !map_map. cbn [C canon canon_part fst snd].
      assert (M : mapM flex_values (map (fun x => (PFlex (P x) None, NValues [P x])) (flex_ms u)) = Ok (map (fun x => [P x]) (flex_ms u))).
      { clear. induction (flex_ms u) as [|x l IH]; [reflexivity|]. cbn [map]. rewrite mapM_step. cbn [flex_values bind]. now rewrite IH. }
      rewrite M. cbn [bind]. rewrite <- (map_map P (fun x => [x])), concat_singles. reflexivity.
  Qed.
  Lemma C_under h l : (forall e, In e l -> canon (set_child h (Some (fst e))) = set_child h (Some (canon (fst e)))) -> map C (under_ h l) = below h (map C l).
  Proof. intros H. unfold under_, below. rewrite !map_map. apply map_ext_in. intros e He. unfold C. cbn [fst snd]. now rewrite H. Qed.
  Lemma C_lex l : lex_good l -> map C (lex_leaves l) = (below (PLex Flexion None) (map C (flex_leaves (pm_flexion l))) ++ below (PLex Content None) (map C (leaves (pm_content l))))%list.
  Proof.
    intros [GF GC]. unfold lex_leaves. rewrite map_app. f_equal; apply C_under; intros e He.
    - apply flex_leaf_ok in He; [|auto]. destruct He as (_ & s & -> & _). reflexivity.
    - apply leaves_in in He. destruct He as (g & k & -> & _). reflexivity.
  Qed.
  Lemma lex_leaf_ok l e : lex_good l -> In e (lex_leaves l) -> item_ok e /\ lexeme_place nf (fst e) /\ exists i c, fst e = PLex i c.
  Proof.
    intros [GF GC] He. unfold lex_leaves in He. apply in_app_or in He. destruct He as [He|He]; unfold under_ in He; apply in_map_iff in He; destruct He as (e' & <- & He); cbn [fst snd set_child].
    - apply flex_leaf_ok in He; [|auto]. destruct He as ((H1 & H2 & H3) & s & -> & Hs). cbn [fst snd] in *. split; [split; [apply proper_lexeme; now constructor|split; [exact Logic.I|auto]]|]. split; [now constructor|eauto].
    - pose proof (leaf_ok _ _ GC He) as (H1 & H2 & H3). apply leaves_in in He. destruct He as (g & k & E & _). rewrite E in *. destruct H3 as [H3 H4]. cbn [fst snd].
      assert (Pl : lexeme_place nf (PLex Content (Some (PPoly g (Some (snd e')) k None)))) by (constructor; constructor; exact H3).
      split; [split; [now apply proper_lexeme|split; [exact H2|auto]]|]. split; [exact Pl|eauto].
  Qed.
  Lemma lex_leaves_raw l : lex_good l -> NoDup (map (fun p => raw_lex_of (nomult_lex p)) (map fst (lex_leaves l))).
  Proof.
    intros [GF GC]. unfold lex_leaves, under_. rewrite map_app, !map_map, map_app. apply NoDup_app_both.
    - pose proof (flex_ms_nodup _ GF) as N. unfold flex_leaves. rewrite !map_map. cbn [fst set_child nomult_lex raw_lex_of]. cbn.
      rewrite <- (map_map str (fun t => {| rl_index := Flexion; rl_child := Some (RwMorpheme t) |})). apply NoDup_map_inj; [congruence|exact N].
    - pose proof (leaves_parts _ GC) as N. apply (NoDup_map_inj (fun t => {| rl_index := Content; rl_child := Some t |})) in N; [|congruence]. rewrite !map_map in N. cbn [fst] in *.
      rewrite map_map. rewrite (map_ext_in _ (fun x => {| rl_index := Content; rl_child := Some (part_raw (fst x)) |})); [exact N|]. intros e He. apply leaves_in in He. destruct He as (g & k & E & _). cbn [fst]. rewrite E. reflexivity.
    - intros x H H'. apply in_map_iff in H, H'. destruct H as (a & <- & Ha), H' as (b & E & Hb). apply in_map_iff in Ha, Hb. destruct Ha as (a' & <- & Ha), Hb as (b' & <- & Hb).
      apply flex_leaf_ok in Ha; [|auto]. destruct Ha as (_ & s & -> & _). apply leaves_in in Hb. destruct Hb as (g & k & E' & _). cbn [fst set_child] in E. rewrite E' in E. discriminate.
  Qed.
  Lemma lex_nonempty l : lex_good l -> lex_leaves l <> [].
  Proof.
    intros [GF GC] X. unfold lex_leaves in X. apply app_eq_nil in X. destruct X as [_ X]. apply map_eq_nil in X. apply leaves_nonempty in X; [auto|apply GC].
  Qed.
  Lemma lex_bin l : lex_good l -> exists b x, group_all (map C (lex_leaves l)) new_bin = Ok b /\ build_nodes b = Ok (NLexeme x) /\ lok x /\ lexeme_str x = lexeme_str l.
  Proof.
    intros G. rewrite C_lex by auto. destruct G as [GF GC]. destruct (flex_bin _ GF) as (b1 & p1 & E1 & B1 & K1 & S1). destruct (pm_bin _ GC) as (b2 & p2 & E2 & B2 & K2 & S2).
    rewrite group_all_app. unfold new_bin. rewrite group_below; [|reflexivity|constructor|now left|].
    - fold new_bin. rewrite E1. cbn [bind app]. rewrite group_below; [|reflexivity| |now right|].
      + rewrite E2. cbn [bind app class_of]. eexists. exists {| pm_flexion := p1; pm_content := p2 |}. split; [reflexivity|]. split; [|split; [split; auto|]].
        * rewrite build_nodes_eq. rewrite !mapM_step. cbn [fst snd]. rewrite B1. cbn [bind]. rewrite B2. reflexivity.
        * apply lexeme_str_key; [split; auto|split; apply clean_ok; [apply GF|apply GC]|]. split; auto.
      + constructor; [|constructor]. discriminate.
      + intros X. apply map_eq_nil in X. apply leaves_nonempty in X; [auto|apply GC].
    - intros X. apply map_eq_nil in X. unfold flex_leaves, flex_ms in X. apply map_eq_nil in X. apply map_eq_nil in X. apply leaves_nonempty in X; [auto|apply GF].
  Qed.
  Lemma rebuild_lexeme l : lex_good l -> exists it x, iter_by_script (ULexeme l) = Ok (map U it) /\ usl_of_list so it = Ok (ULexeme x) /\ lexeme_str x = lexeme_str l.
  Proof.
    intros G. destruct (lex_bin l G) as (b & x & E1 & E2 & _ & E3). exists (lex_leaves l), x. cbn [iter_by_script iter_path bind]. rewrite iter_lexeme_leaves. split; [reflexivity|]. split; [|exact E3].
    pose proof (lex_nonempty l G) as NE. unfold usl_of_list. destruct (lex_leaves l) eqn:E; [congruence|]. rewrite <- E in *.
    rewrite from_items; [rewrite E1; cbn [bind]; rewrite E2; reflexivity| |].
    - apply Forall_forall. intros e He. now apply (lex_leaf_ok l).
    - pose proof (lex_leaves_raw l G) as N. apply (NoDup_map_inj RwLex) in N; [|congruence]. rewrite map_map in N.
      rewrite (map_ext_in _ (fun p => RwLex (raw_lex_of (nomult_lex p)))); [exact N|]. intros q Hq. apply in_map_iff in Hq. destruct Hq as (e & <- & He). apply lex_leaf_ok in He; [|auto].
      destruct He as (_ & _ & i & c & ->). reflexivity.
  Qed.

  (** ** Words *)
  Section Words.
    Variable focus : role.
    Definition head (e : role * lexeme) : path := PRole (fst e) (role_eqb (fst e) focus) None.
    Definition word_leaves (es : list (role * lexeme)) : list (path * script) := flat_map (fun e => under_ (head e) (lex_leaves (snd e))) es.
    Definition entry_good (e : role * lexeme) : Prop := fst e <> [] /\ vrole (fst e) /\ lex_good (snd e).
    Lemma iter_entries es : filter (fun e => names_morpheme (fst e)) (List.concat (map (fun e => (PRole (fst e) (role_eqb (fst e) focus) None, ULexeme (snd e)) ::
        map (fun x => (PRole (fst e) (role_eqb (fst e) focus) (Some (fst x)), snd x)) (iter_lexeme (snd e))) es)) = map U (word_leaves es).
    Proof.
      induction es as [|e es IH]; [reflexivity|]. cbn [map List.concat]. rewrite filter_app, IH. unfold word_leaves. cbn [flat_map]. rewrite map_app. f_equal. cbn [filter fst names_morpheme tail].
      rewrite filter_map_comm. cbn [fst]. rewrite (filter_ext (fun x : path * usl => names_morpheme (PRole (fst e) (role_eqb (fst e) focus) (Some (fst x)))) (fun x => names_morpheme (fst x))) by reflexivity.
      rewrite iter_lexeme_leaves. unfold under_. rewrite !map_map. reflexivity.
    Qed.
    Lemma word_item_ok es e : Forall entry_good es -> In e (word_leaves es) -> item_ok e /\ exists x p, In x es /\ In p (lex_leaves (snd x)) /\ e = (set_child (head x) (Some (fst p)), snd p).
    Proof.
      intros F He. apply in_flat_map in He. destruct He as (x & Hx & He). apply in_map_iff in He. destruct He as (p & <- & Hp). rewrite Forall_forall in F. destruct (F x Hx) as (N & V & G). split; [|eauto 6].
      destruct (lex_leaf_ok _ _ G Hp) as ((H1 & H2 & H3) & Pl & _). cbn [fst snd set_child head]. split; [now apply proper_role_lexeme|]. split; [exact H2|exact H3].
    Qed.
    Lemma word_raw es : Forall entry_good es -> NoDup (map fst es) -> NoDup (map raw0 (map fst (word_leaves es))).
    Proof.
      induction 1 as [|e es (N & V & G) F IH]; intros D; [constructor|]. cbn [map] in D. apply NoDup_cons_iff in D. destruct D as [D1 D2]. unfold word_leaves. cbn [flat_map]. fold (word_leaves es).
      rewrite !map_app. apply NoDup_app_both; [|auto|].
      - pose proof (lex_leaves_raw _ G) as X. apply (NoDup_map_inj (fun t => RwRole (role_eqb (fst e) focus) (fst e) (Some t))) in X; [|congruence]. rewrite !map_map in X. unfold under_. rewrite !map_map. exact X.
      - intros x H H'. apply in_map_iff in H, H'. destruct H as (a & <- & Ha), H' as (b & E & Hb). apply in_map_iff in Ha, Hb. destruct Ha as (a' & <- & Ha), Hb as (b' & <- & Hb).
        apply in_map_iff in Ha. destruct Ha as (p & <- & _). apply word_item_ok in Hb; [|auto]. destruct Hb as (_ & y & q & Hy & _ & ->). cbn [fst set_child head raw0] in E.
        apply D1. injection E as _ <- _. now apply in_map.
    Qed.
    Lemma heads_distinct es : Forall entry_good es -> NoDup (map fst es) -> NoDup (map path_str (map head es)).
    Proof.
      intros F D. rewrite map_map. apply (NoDup_map_via _ fst); [|exact D]. intros x y Hx Hy E. rewrite Forall_forall in F. destruct (F x Hx) as (N & V & _), (F y Hy) as (N' & V' & _).
      pose proof (raw0_ok (head x) ltac:(now apply proper_role)) as A. pose proof (raw0_ok (head y) ltac:(now apply proper_role)) as B. rewrite E in A. rewrite A in B. cbn in B. congruence.
    Qed.
    Lemma C_word e : entry_good e -> map C (under_ (head e) (lex_leaves (snd e))) = below (head e) (map C (lex_leaves (snd e))).
    Proof.
      intros (_ & _ & G). apply C_under. intros p Hp. destruct (lex_leaf_ok _ _ G Hp) as (_ & _ & i & c & E). rewrite E. reflexivity.
    Qed.
    Definition role_bin (e : role * lexeme) (kb : path * bin) : Prop := fst kb = head e /\ exists x, build_nodes (snd kb) = Ok (NLexeme x) /\ lexeme_str x = lexeme_str (snd e).
    Lemma group_roles es : Forall entry_good es -> forall ty kids, typed ty ClRole -> (es <> [] \/ ty = Some ClRole) -> NoDup (map path_str (map fst kids ++ map head es)) ->
      exists bs, group_all (map C (word_leaves es)) (Bin ty None kids) = Ok (Bin (Some ClRole) None (kids ++ bs)) /\ Forall2 role_bin es bs.
    Proof.
      induction 1 as [|e es G F IH]; intros ty kids T NE D.
      - exists []. rewrite app_nil_r. destruct NE as [NE|NE]; [congruence|]. subst ty. split; [reflexivity|constructor].
      - unfold word_leaves. cbn [flat_map]. fold (word_leaves es). rewrite map_app, C_word, group_all_app by auto. pose proof G as (_ & _ & Gl). destruct (lex_bin _ Gl) as (b & x & E1 & E2 & _ & E3).
        rewrite group_below; [|reflexivity| |exact T|].
        + rewrite E1. cbn [bind class_of head]. destruct (IH (Some ClRole) (kids ++ [(head e, b)])%list) as (bs & Eb & Fb); [now right|now right| |].
          * rewrite (map_app fst kids), <- app_assoc. exact D.
          * exists ((head e, b) :: bs). rewrite Eb. rewrite <- app_assoc. split; [reflexivity|]. constructor; [|exact Fb]. split; [reflexivity|]. exists x. auto.
        + apply Forall_forall. intros [k b'] Hk E. cbn [fst] in E. rewrite map_app in D. cbn [map] in D. apply NoDup_remove_2 in D. apply D. apply in_or_app. left. rewrite <- E. apply in_map. change k with (fst (k, b')). now apply in_map.
        + intros X. apply map_eq_nil in X. now apply lex_nonempty in X.
    Qed.
    (** The nodes of the word. *)
    Lemma focus_of_none es (ns : list (path * node)) acc : Forall2 (fun e n => fst n = head e) es ns -> (forall e, In e es -> role_eqb (fst e) focus = false) -> focus_of acc ns = Ok acc.
    Proof.
      intros F. revert acc. induction F as [|e [p n] es ns E F IH]; intros acc H; [reflexivity|]. cbn [fst] in E. subst p. cbn [focus_of head]. rewrite (H e) by now left. apply IH. intros e' He'. apply H. now right.
    Qed.
    Lemma focus_of_ok es (ns : list (path * node)) : Forall2 (fun e n => fst n = head e) es ns -> vrole focus -> Forall (fun e => vrole (fst e)) es -> NoDup (map fst es) -> In focus (map fst es) -> focus_of None ns = Ok (Some focus).
    Proof.
      intros F Vf. induction F as [|e [p n] es ns E F IH]; intros V D H; [destruct H|]. cbn [fst] in E. subst p. cbn [focus_of head]. apply Forall_cons_iff in V. destruct V as [V1 V2]. cbn [map] in D. apply NoDup_cons_iff in D. destruct D as [D1 D2].
      destruct (role_eqb (fst e) focus) eqn:R.
      - apply role_eqb_eq in R; [|auto..]. rewrite R. apply (focus_of_none es); [exact F|]. intros e' He'. destruct (role_eqb (fst e') focus) eqn:R'; [|reflexivity]. rewrite Forall_forall in V2. apply role_eqb_eq in R'; [|auto..]. elim D1. rewrite R, <- R'. now apply in_map.
      - apply IH; auto. destruct H as [H|H]; [|auto]. rewrite H in R. assert (X : role_eqb focus focus = true) by (now apply role_eqb_eq). congruence.
    Qed.
    Lemma dedup_keys (l : list (role * bool)) : Forall (fun e => vrole (fst e)) l -> NoDup (map fst l) -> dedup same_key l = l.
    Proof.
      unfold dedup. enough (X : forall seen, Forall (fun e => vrole (fst e)) seen -> Forall (fun e => vrole (fst e)) l -> NoDup (map fst l) -> (forall x, In x seen -> ~ In (fst x) (map fst l)) -> dedup_aux same_key seen l = l) by (intros; now apply X).
      induction l as [|x l IH]; intros seen Vs V N D; [reflexivity|]. cbn [dedup_aux]. cbn [map] in N. apply NoDup_cons_iff in N. destruct N as [N1 N2]. apply Forall_cons_iff in V. destruct V as [V1 V2].
      assert (M : memb same_key x seen = false).
      { destruct (memb same_key x seen) eqn:E; [|reflexivity]. unfold memb in E. apply existsb_exists in E. destruct E as (y & Hy & E). unfold same_key in E. apply andb_true_iff in E. destruct E as [E _]. rewrite Forall_forall in Vs. apply role_eqb_eq in E; [|auto..]. elim (D y Hy). left. congruence. }
      rewrite M. f_equal. apply IH; auto. intros y [<-|Hy]; [exact N1|]. intros H. apply (D y Hy). now right.
    Qed.
    Lemma role_nodes es bs : Forall2 role_bin es bs -> exists xs : list (role * lexeme), Forall2 (fun e x => fst x = fst e /\ lexeme_str (snd x) = lexeme_str (snd e)) es xs /\
      mapM (fun e => do n <- build_nodes (snd e); Ok (fst e, n)) bs = Ok (map (fun x => (head x, NLexeme (snd x))) xs).
    Proof.
      induction 1 as [|e [p b] es bs (E & x & B & Sx) F (xs & F' & M)]; [exists []; split; [constructor|reflexivity]|]. cbn [fst snd] in *. subst p. exists ((fst e, x) :: xs). split; [constructor; auto|].
      rewrite mapM_step. cbn [fst snd]. rewrite B. cbn [bind]. rewrite M. reflexivity.
    Qed.
  End Words.
  Lemma roles_nonempty c f e : cvalid lexeme c f -> In e (as_list c f) -> fst e <> [] /\ vrole (fst e).
  Proof.
    intros V H. rewrite as_list_lst in H. apply pre_in in H. destruct H as (r0 & E & H). assert (H' := H). unfold SfunProofs.lst in H'. apply in_map_iff in H'. destruct H' as ([q g] & E' & Hq). apply filter_In in Hq. destruct Hq as [Hq J].
    cbn in E'. injection E' as <- _. pose proof (actors_roles _ _ _ _ _ V Hq) as Vr. rewrite E. split; [|apply Forall_app; split; [apply context_vrole|exact Vr]].
    destruct c; cbn; try discriminate. intros ->. clear -V Hq J. destruct f as [| | |x v acts]; try solve [destruct V]. rewrite actors_proc in Hq. destruct Hq as [Hq|Hq]; [discriminate|].
    apply in_concat in Hq. destruct Hq as (l & Hl & Hq). apply in_map_iff in Hl. destruct Hl as ([a g'] & <- & _). apply (in_map fst) in Hq. rewrite under_keys in Hq. apply in_map_iff in Hq. destruct Hq as (? & ? & _). discriminate.
  Qed.

  Lemma as_list_nodup c f : cvalid lexeme c f -> NoDup (map fst (as_list c f)).
  Proof.
    intros V. rewrite as_list_lst. unfold pre. rewrite map_map. cbn [fst].
    rewrite <- (map_map fst (fun r : role => (context_prefix c ++ r)%list)). apply NoDup_map_inj; [intros x y; apply app_inv_head|].
    unfold SfunProofs.lst. rewrite map_map. cbn [fst]. pose proof (actors_nodup_c _ _ _ V) as N. clear -N. induction (actors f) as [|e l IH]; [constructor|]. cbn [map] in N. apply NoDup_cons_iff in N. destruct N as [N1 N2].
    cbn [filter]. destruct (negb _); [|auto]. cbn [map]. constructor; [|auto]. intros H. apply N1. apply in_map_iff in H. destruct H as (x & <- & Hx). apply filter_In in Hx. apply in_map. tauto.
  Qed.
  Lemma rebuild_word c f r w : cvalid lexeme c f -> mk_word f r c = Ok w ->
    Forall (fun e => exists l, snd e = Some l /\ lex_good l) (as_list c f) -> In r (map fst (as_list c f)) ->
    exists it w', iter_by_script (UWord w) = Ok (map U it) /\ usl_of_list so it = Ok (UWord w') /\
      w_str w' = w_str w /\ w_role w' = w_role w /\ w_context w' = w_context w /\ w_class w' = w_class w.
  Proof.
    intros V W G H. destruct (mk_word_fields _ _ _ _ W) as (Wf & Wr & Wc).
    assert (X : exists es : list (role * lexeme), map (fun e => (fst e, Some (snd e))) es = as_list c f /\ Forall entry_good es).
    { pose proof (fun e => roles_nonempty c f e V) as R. revert R G. generalize (as_list c f) as L. clear. intros L R G. induction G as [|[q x] L (l & E & Gl) G IH]; [exists []; auto|]. cbn [snd] in E. subst x.
      destruct IH as (es & E & F). { intros e He. apply R. now right. } exists ((q, l) :: es). cbn. rewrite E. split; [reflexivity|]. destruct (R (q, Some l)) as [R1 R2]; [now left|]. constructor; [|exact F]. split; [exact R1|]. split; [exact R2|exact Gl]. }
    destruct X as (es & Ee & Fe). pose proof (as_list_nodup c f V) as D. rewrite <- Ee in D, H. rewrite map_map in D, H. cbn [fst] in D, H.
    assert (Hr : In r (map fst es)) by exact H. assert (De : NoDup (map fst es)) by exact D. clear H D.
    assert (Vr : vrole r). { apply in_map_iff in Hr. destruct Hr as (e & <- & He). rewrite Forall_forall in Fe. apply Fe. exact He. }
    assert (NE : es <> []) by (intros ->; destruct Hr).
    assert (It : iter_by_script (UWord w) = Ok (map U (word_leaves r es))).
    { unfold iter_by_script, iter_path, iter_word. rewrite Wf, Wr, Wc, <- Ee.
      assert (M : mapM (iter_entry r) (map (fun e => (fst e, Some (snd e))) es) = Ok (map (fun e => (PRole (fst e) (role_eqb (fst e) r) None, ULexeme (snd e)) ::
        map (fun x => (PRole (fst e) (role_eqb (fst e) r) (Some (fst x)), snd x)) (iter_lexeme (snd e))) es)).
      { clear. induction es as [|e es IH]; [reflexivity|]. cbn [map]. rewrite mapM_step. cbn [iter_entry fst snd bind]. now rewrite IH. }
      rewrite M. cbn [bind filter fst names_morpheme tail]. now rewrite iter_entries. }
    pose proof (word_raw r es Fe De) as Rw.
    destruct (group_roles r es Fe None []) as (bs & Eb & Fb); [now left|now left|now apply heads_distinct|]. cbn [app] in Eb.
    destruct (role_nodes r es bs Fb) as (xs & Fx & Mx).
    assert (Kx : map fst xs = map fst es) by (clear -Fx; induction Fx as [|e x es xs [E _] F IH]; cbn; congruence).
    (* the function *)
    set (m := map (fun x : role * lexeme => (fst x, Some (snd x))) xs).
    assert (Km : map fst m = map fst (as_list c f)). { rewrite <- Ee. unfold m. rewrite !map_map. exact Kx. }
    destruct (refill_c lexeme c f V m Km) as (f2 & V2 & E2 & _).
    assert (Sm : map kstr (as_list c f2) = map kstr (as_list c f)).
    { rewrite E2, <- Ee. unfold m. rewrite !map_map. clear -Fx. induction Fx as [|e x es xs [E1 E2] F IH]; [reflexivity|]. cbn [map]. rewrite IH. f_equal. unfold kstr. cbn. now rewrite E1, E2. }
    assert (H0 : In r (map fst (as_list c f))). { rewrite <- Km. unfold m. rewrite map_map. cbn [fst]. change (In r (map fst xs)). now rewrite Kx. }
    assert (H2 : In r (map fst (as_list c f2))) by (rewrite E2, Km; exact H0).
    destruct (expansion_single c f r V H0) as (r0 & Er & _ & _ & Ex). destruct (expansion_single c f2 r V2 H2) as (r2 & Er2 & _ & _ & Ex2).
    assert (r2 = r0) by (rewrite Er in Er2; now apply app_inv_head in Er2). subst r2.
    assert (K3 : krows f2 = krows f).
    { apply (krows_eq c); auto. rewrite !as_list_lst in Sm. unfold pre in Sm. rewrite !map_map in Sm. unfold kstr in Sm. cbn [fst snd] in Sm.
      apply (f_equal (map (fun e : role * string => (skipn (List.length (context_prefix c)) (fst e), snd e)))) in Sm. rewrite !map_map in Sm. cbn [fst snd] in Sm.
      assert (X : forall m : list (role * option lexeme), map (fun e => (skipn (List.length (context_prefix c)) (context_prefix c ++ fst e), actor_str (snd e))) m = map kstr m).
      { intros m0. apply map_ext. intros [q x]. unfold kstr. cbn. f_equal. rewrite skipn_app, skipn_all, Nat.sub_diag. reflexivity. }
      rewrite !X in Sm. now rewrite Sm. }
    pose proof (render_single c f r r0 Ex) as R1. pose proof (render_single c f2 r r0 Ex2) as R2. rewrite K3 in R2.
    assert (W2 : mk_word f2 r c = Ok {| w_fun := f2; w_role := r; w_context := c; w_str := w_str w; w_class := w_class w |}).
    { unfold mk_word in W |- *. rewrite R1 in W. rewrite R2. cbn [bind] in *. destruct (class_from_address r); [|discriminate]. cbn [bind] in *. injection W as <-. reflexivity. }
    exists (word_leaves r es). eexists. split; [exact It|]. split; [|].
    - assert (NW : word_leaves r es <> []).
      { destruct es as [|e es]; [congruence|]. unfold word_leaves. cbn [flat_map]. intros X. apply app_eq_nil in X. destruct X as [X _]. apply map_eq_nil in X. apply Forall_cons_iff in Fe. destruct Fe as [(_ & _ & Gl) _]. now apply lex_nonempty in X. }
      unfold usl_of_list. destruct (word_leaves r es) eqn:E; [congruence|]. rewrite <- E in *. rewrite from_items.
      + unfold new_bin. rewrite Eb. cbn [bind]. rewrite build_nodes_eq, Mx. cbn [bind build]. unfold build_word.
        assert (Fo : focus_of None (map (fun x : role * lexeme => (head r x, NLexeme (snd x))) xs) = Ok (Some r)).
        { apply (focus_of_ok r xs); auto.
          - clear. induction xs; cbn; constructor; auto.
          - apply (proj1 (Forall_map fst vrole xs)). rewrite Kx. apply (proj2 (Forall_map fst vrole es)). eapply Forall_impl; [|exact Fe]. intros e He. apply He.
          - now rewrite Kx.
          - now rewrite Kx. }
        rewrite Fo. cbn [bind].
        assert (Ks : mapM (role_key r) (map (fun x : role * lexeme => (head r x, NLexeme (snd x))) xs) = Ok (map (fun x => ((fst x, (role_eqb (fst x) r || role_eqb r (fst x))%bool), snd x)) xs)).
        { clear. induction xs as [|x xs IH]; [reflexivity|]. cbn [map]. rewrite mapM_step. cbn [role_key head bind]. now rewrite IH. }
        rewrite Ks. cbn [bind]. rewrite !map_map. cbn [fst snd]. rewrite dedup_keys.
        * rewrite !map_length, Nat.eqb_refl. cbn [negb]. change (map (fun x => (fst x, Some (snd x))) xs) with m. rewrite <- E2, from_list_exact by auto. cbn [bind fst snd]. rewrite W2. reflexivity.
        * rewrite Forall_map. cbn [fst]. apply (proj1 (Forall_map fst vrole xs)). rewrite Kx. apply (proj2 (Forall_map fst vrole es)). eapply Forall_impl; [|exact Fe]. intros e He. apply He.
        * rewrite map_map. cbn [fst]. change (NoDup (map fst xs)). now rewrite Kx.
      + apply Forall_forall. intros e He. now apply (word_item_ok r es).
      + exact Rw.
    - cbn. auto.
  Qed.
End Build.
