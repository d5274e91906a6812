(** Proofs about the tables of a polymorpheme. *)
From Coq Require Import List String Ascii Bool Arith Lia Permutation Sorted.
From Verif Require Import Base Script ScriptParser SortProofs ScriptWf ScriptStrProofs ScriptOrderProofs ScriptSpec ScriptCtorProofs ScriptParseProofs ScriptAlgProofs ScriptMoreProofs OrderTheory Commons Usl UslProofs UslSpec UslSsProofs
  Sfun SfunProofs SfunListProofs SfunWordProofs SfunSpec UslParser UslParserProofs UslRoundProofs Path PathLexProofs PathSpec PathProofs PathAlgProofs PathTextProofs PathDerefProofs PathBuildProofs Instance UslTable.
Import ListNotations.
Local Open Scope string_scope.

(** ** Values of places *)
Section Place.
  Variable so : list script -> list script.
  Hypothesis SO : set_order so.

  Definition g_of (p : path) : gidx := match p with PPoly g _ _ _ => g | _ => Constant end.
  (** What the builder sees of a morpheme at a place. *)
  Definition key (p : path) (v : script) : (gidx * string) * (string * bool) := ((g_of p, path_str p), (str v, is_empty v)).
  Definition keys (l : list (path * script)) := map (fun e => key (fst e) (snd e)) l.
  Definition flat (l : list (path * list script)) := flat_map (fun e => map (key (fst e)) (snd e)) l.
  Definition at_g (g : gidx) (e : path * script) : bool := gidx_eqb (g_of (fst e)) g.
  Definition vals (g : gidx) (l : list (path * script)) : list script := map snd (filter (at_g g) l).
  Definition full (x : (gidx * string) * (string * bool)) : bool := negb (snd (snd x)).

  Lemma gidx_eqb_eq a b : gidx_eqb a b = true <-> a = b.
  Proof. destruct a, b; cbn; split; congruence. Qed.

  (** The values of the dictionary of sets. *)
  Lemma add_value_here p v a q vs b : Forall (fun e => path_str (fst e) <> path_str p) a -> path_str q = path_str p ->
    add_value p v (a ++ (q, vs) :: b)%list = (a ++ (q, if in_scripts v vs then vs else (vs ++ [v])%list) :: b)%list.
  Proof.
    intros F E. induction F as [|[r ws] a H F IH]; cbn [app add_value]; unfold path_eqb.
    - now rewrite E, String.eqb_refl.
    - cbn [fst] in H. apply String.eqb_neq in H. now rewrite H, IH.
  Qed.
  Lemma split_path p (l : list (path * list script)) : Forall (fun e => path_str (fst e) <> path_str p) l \/
    exists a q vs b, l = (a ++ (q, vs) :: b)%list /\ Forall (fun e => path_str (fst e) <> path_str p) a /\ path_str q = path_str p.
  Proof.
    induction l as [|[q vs] l IH]; [left; constructor|]. destruct (string_dec (path_str q) (path_str p)) as [E|E].
    - right. exists [], q, vs, l. auto.
    - destruct IH as [IH|(a & r & ws & b & -> & F & H)]; [left; constructor; auto|]. right. exists ((q, vs) :: a), r, ws, b. auto.
  Qed.
  Definition grouped (seen : list (path * script)) (acc : list (path * list script)) : Prop :=
    NoDup (map path_str (map fst acc)) /\ NoDup (flat acc) /\ (forall x, In x (flat acc) <-> In x (keys seen)) /\
    Forall (fun e => snd e <> [] /\ Forall nf (snd e)) acc /\ (forall q, In q (map fst acc) -> In q (map fst seen)).
  Lemma flat_app a b : flat (a ++ b)%list = (flat a ++ flat b)%list.
  Proof. apply flat_map_app. Qed.
  Lemma grouped_step seen acc p v : grouped seen acc -> nf v -> (forall q, In q (map fst seen) -> path_str q = path_str p -> g_of q = g_of p) ->
    grouped (seen ++ [(p, v)])%list (add_value p v acc).
  Proof.
    intros (N & Nf & M & V & I) Hv G. fold (keys seen) in M.
    destruct (split_path p acc) as [F|(a & q & vs & b & -> & F & E)].
    - rewrite add_value_new by auto. unfold grouped, keys. rewrite !map_app, flat_app. cbn [map fst snd]. assert (X : flat [(p, [v])] = [key p v]) by reflexivity. rewrite X.
      rewrite Forall_forall in F. repeat split.
      + apply NoDup_app_both; [auto|repeat constructor; intros []|]. intros t H [<-|[]]. apply in_map_iff in H. destruct H as (r & E & H). apply in_map_iff in H. destruct H as (e & <- & H). now apply (F e H).
      + apply NoDup_app_both; [auto|repeat constructor; intros []|]. intros t H [<-|[]]. apply in_flat_map in H. destruct H as (e & H & H'). apply in_map_iff in H'. destruct H' as (w & E & _).
        unfold key in E. injection E as _ E _ _. now apply (F e H).
      + intros H. apply in_app_or in H. apply in_or_app. destruct H as [H|H]; [left; now apply M|right; auto].
      + intros H. apply in_app_or in H. apply in_or_app. destruct H as [H|H]; [left; now apply M|right; auto].
      + apply Forall_app. split; [auto|]. constructor; [split; [discriminate|constructor; [exact Hv|constructor]]|constructor].
      + intros r H. apply in_app_or in H. apply in_or_app. destruct H as [H|H]; [left; auto|right; auto].
    - rewrite add_value_here by auto. unfold grouped, keys. rewrite !map_app in *. cbn [map fst snd] in *. rewrite flat_app in *. cbn [flat flat_map fst snd] in *. fold flat in *.
      assert (Gq : g_of q = g_of p) by (apply G; [apply I; apply in_or_app; right; now left|auto]).
      assert (K : key q v = key p v) by (unfold key; now rewrite Gq, E).
      apply Forall_app in V. destruct V as [V1 V2]. inversion V2 as [|? ? [V3 V4] V5]; subst. cbn [snd] in *.
      destruct (in_scripts v vs) eqn:X.
      + repeat split; auto.
        * intros H. apply in_or_app. left. now apply M.
        * intros H. apply in_app_or in H. destruct H as [H|[<-|[]]]; [now apply M|]. apply in_scripts_iff in X. apply in_map_iff in X. destruct X as (w & Ew & Hw).
          apply in_or_app. right. apply in_or_app. left. apply in_map_iff. exists w. split; [|auto]. rewrite <- K. unfold key. rewrite Ew. f_equal. f_equal.
          rewrite Forall_forall in V4. apply is_empty_str; auto using nf_wf.
        * apply Forall_app. split; [auto|]. constructor; auto.
        * intros r H. apply in_or_app. left. auto.
      + assert (Pm : Permutation (flat a ++ map (key q) (vs ++ [v]) ++ flat_map (fun e => map (key (fst e)) (snd e)) b)%list (key p v :: (flat a ++ map (key q) vs ++ flat_map (fun e => map (key (fst e)) (snd e)) b))%list).
        { rewrite map_app. cbn [map]. rewrite K. rewrite <- app_assoc. cbn [app]. rewrite !app_assoc. symmetry. apply Permutation_middle. }
        assert (Nw : ~ In (key p v) (flat a ++ map (key q) vs ++ flat_map (fun e => map (key (fst e)) (snd e)) b)%list).
        { intros H. assert (Y : forall l, (forall e, In e l -> path_str (fst e) <> path_str p) -> ~ In (key p v) (flat l)).
          { intros l Hl H'. apply in_flat_map in H'. destruct H' as (e & H1 & H2). apply in_map_iff in H2. destruct H2 as (w & Ek & _). unfold key in Ek. injection Ek as _ Ek _ _. now apply (Hl e H1). }
          apply in_app_or in H. destruct H as [H|H]; [revert H; apply Y; now apply Forall_forall|]. apply in_app_or in H. destruct H as [H|H].
          - apply in_map_iff in H. destruct H as (w & Ek & Hw). unfold key in Ek. injection Ek as _ _ Ek _. assert (in_scripts v vs = true) by (apply in_scripts_iff; rewrite <- Ek; now apply in_map). congruence.
          - revert H. apply Y. intros e He Ee. apply NoDup_remove_2 in N. apply N. apply in_or_app. right. rewrite E, <- Ee. apply in_map, in_map. exact He. }
        repeat split; auto.
        * eapply Permutation_NoDup; [apply Permutation_sym; exact Pm|]. constructor; auto.
        * intros H. apply (Permutation_in _ Pm) in H. apply in_or_app. destruct H as [<-|H]; [right; now left|left; now apply M].
        * intros H. apply (Permutation_in _ (Permutation_sym Pm)). apply in_app_or in H. destruct H as [H|[<-|[]]]; [right; now apply M|now left].
        * apply Forall_app. split; [auto|]. constructor; [|auto]. cbn [snd]. split; [destruct vs; discriminate|]. apply Forall_app. auto.
        * intros r H. apply in_or_app. left. auto.
  Qed.
  Lemma grouped_all l : Forall (fun e => nf (snd e)) l -> (forall p q, In p (map fst l) -> In q (map fst l) -> path_str p = path_str q -> g_of p = g_of q) -> grouped l (path_to_value l).
  Proof.
    intros V G. unfold path_to_value.
    enough (X : forall seen acc, grouped seen acc -> Forall (fun e => nf (snd e)) l -> (forall p q, In p (map fst (seen ++ l)) -> In q (map fst (seen ++ l)) -> path_str p = path_str q -> g_of p = g_of q) -> grouped (seen ++ l)%list (fold_left (fun acc e => add_value (fst e) (snd e) acc) l acc)).
    { apply (X [] []); auto. unfold grouped. cbn. repeat split; auto; try constructor; intros []. }
    clear V G. induction l as [|[p v] l IH]; intros seen acc H V G; [now rewrite app_nil_r|]. inversion V; subst. cbn [fold_left fst snd] in *.
    assert (A : (seen ++ (p, v) :: l)%list = ((seen ++ [(p, v)]) ++ l)%list) by (rewrite <- app_assoc; reflexivity). rewrite A in *. apply IH; [|auto|exact G].
    apply grouped_step; auto. intros q Hq. apply G; rewrite !map_app; apply in_or_app; left; apply in_or_app; [left; auto|right; now left].
  Qed.

  (** ** Polymorphemes built from morphemes at places *)
  Variable bare : gidx -> bool.
  Variable K : gidx -> nat.
  Definition itm (e : gidx * script) : path * script :=
    (PPoly (fst e) (if bare (fst e) then None else Some (snd e)) (match fst e with Constant => None | g => Some (K g) end) None, snd e).
  Definition at_i (g : gidx) (e : gidx * script) : bool := gidx_eqb (fst e) g.
  Definition ivals (g : gidx) (l : list (gidx * script)) : list script := map snd (filter (at_i g) l).
  Definition place_ok (e : gidx * script) : Prop := nf (snd e) /\ old_class (str (snd e)) = None /\ (fst e <> Constant -> 1 <= K (fst e) < 10).
  Lemma itm_ok e : place_ok e -> item_ok (itm e).
  Proof.
    intros (N & O & L). unfold itm, item_ok. cbn [fst snd]. split; [|split; [|auto]].
    - apply proper_place. constructor. destruct (bare (fst e)); [exact Logic.I|exact N].
    - unfold one_digit. cbn [tail]. destruct (fst e); [exact Logic.I|..]; eexists; (split; [reflexivity|apply L; discriminate]).
  Qed.
  Lemma from_items_all l : Forall item_ok l ->
    from_path_values so l =
    do b <- group_all (path_to_value (map (fun e => (canon so (fst e), P so (snd e))) l)) new_bin; do n <- build_nodes b;
    match n with NValues _ => Err AssertionError | NPm p => Ok (UPm p) | NLexeme x => Ok (ULexeme x) | NWord w => Ok (UWord w) end.
  Proof.
    intros F. unfold from_path_values.
    assert (A : mapM (fun e => path_parse so (path_str (fst e))) l = Ok (map (fun e => canon so (fst e)) l)).
    { induction F as [|e l (H1 & H2 & _) F IH]; [reflexivity|]. rewrite mapM_step, path_parse_canon by auto. cbn [bind]. now rewrite IH. }
    assert (B : mapM (fun e => value_of so (snd e)) l = Ok (map (fun e => P so (snd e)) l)).
    { clear A. induction F as [|e l (_ & _ & H1 & H2) F IH]; [reflexivity|]. rewrite mapM_step, (value_ok so SO) by auto. cbn [bind]. now rewrite IH. }
    rewrite A. cbn [bind]. rewrite B. cbn [bind].
    assert (X : combine (map (fun e => canon so (fst e)) l) (map (fun e => P so (snd e)) l) = map (fun e => (canon so (fst e), P so (snd e))) l).
    { clear. induction l as [|e l IH]; [reflexivity|]. cbn. now rewrite IH. }
    now rewrite X.
  Qed.
  Definition ckey (e : gidx * script) := key (fst (itm e)) (snd e).
  Lemma ckey_canon e : place_ok e -> key (canon so (fst (itm e))) (P so (snd e)) = ckey e.
  Proof.
    intros H. pose proof (itm_ok e H) as (H1 & H2 & H3 & _). unfold ckey, key. rewrite (canon_str so SO) by auto.
    destruct H as (N & _ & _). rewrite (P_empty so SO) by auto. destruct (P_ok so SO (snd e) N) as (_ & _ & ->). reflexivity.
  Qed.
  Lemma path_g a b : place_ok a -> place_ok b -> path_str (fst (itm a)) = path_str (fst (itm b)) -> fst a = fst b /\ (bare (fst a) = false -> str (snd a) = str (snd b)).
  Proof.
    intros Ha Hb E. pose proof (itm_ok a Ha) as (A & _). pose proof (itm_ok b Hb) as (B & _). apply raw0_ok in A. apply raw0_ok in B. rewrite E in A. rewrite A in B.
    injection B as B1 _ B2. cbn [fst snd itm] in B2.
    assert (G : fst a = fst b) by (destruct (fst a), (fst b); cbn in B1; congruence). split; [exact G|]. intros Hn. rewrite <- G, Hn in B2. cbn in B2. congruence.
  Qed.
  Definition kk (p : path) : option nat := match p with PPoly _ _ k _ => k | _ => None end.
  Definition V (g : gidx) (acc : list (path * list script)) : list script := flat_map snd (filter (fun e => gidx_eqb (g_of (fst e)) g) acc).
  Lemma V_keys g acc : map str (filter_empty (V g acc)) = map (fun x => fst (snd x)) (filter (fun x => (gidx_eqb (fst (fst x)) g && full x)%bool) (flat acc)).
  Proof.
    unfold V. induction acc as [|[p vs] acc IH]; [reflexivity|]. cbn [filter fst]. cbn [flat flat_map fst snd]. fold (flat acc). rewrite filter_app, map_app, <- IH.
    assert (X : map (fun x => fst (snd x)) (filter (fun x => (gidx_eqb (fst (fst x)) g && full x)%bool) (map (key p) vs)) = if gidx_eqb (g_of p) g then map str (filter_empty vs) else []).
    { clear IH. induction vs as [|v vs IH]; [now destruct (gidx_eqb _ g)|]. cbn [map filter]. change (fst (fst (key p v))) with (g_of p). change (full (key p v)) with (negb (is_empty v)). unfold filter_empty in *. cbn [filter]. destruct (gidx_eqb (g_of p) g) eqn:G; cbn [andb]; [|exact IH].
      destruct (negb (is_empty v)); cbn [map fst snd]; [f_equal|]; exact IH. }
    rewrite X. destruct (gidx_eqb (g_of p) g); [|reflexivity]. cbn [flat_map snd]. unfold filter_empty. rewrite filter_app, map_app. reflexivity.
  Qed.
  Lemma ivals_keys g l : map str (filter_empty (ivals g l)) = map (fun x => fst (snd x)) (filter (fun x => (gidx_eqb (fst (fst x)) g && full x)%bool) (map ckey l)).
  Proof.
    unfold ivals. induction l as [|[h v] l IH]; [reflexivity|]. cbn [filter map]. unfold at_i at 1. cbn [fst]. change (fst (fst (ckey (h, v)))) with h. change (full (ckey (h, v))) with (negb (is_empty v)).
    destruct (gidx_eqb h g); cbn [andb]; [|exact IH]. cbn [map snd]. unfold filter_empty in *. cbn [filter]. destruct (negb (is_empty v)); cbn [map fst snd]; [f_equal|]; exact IH.
  Qed.

  (** The morphemes wanted at each place. *)
  Variable T : gidx -> list script.
  Definition present (g : gidx) (l : list (gidx * script)) : bool := existsb (at_i g) l.
  Definition made_of (l : list (gidx * script)) : pm :=
    mk_pm (T Constant) (flat_map (fun g => if present g l then [(T g, K g)] else []) [Group0; Group1; Group2]).
  Lemma build_poly l : bare Constant = false -> l <> [] -> Forall place_ok l ->
    (forall g, Forall nf (T g) /\ NoDup (map str (filter_empty (T g))) /\ (forall t, In t (map str (filter_empty (T g))) <-> In t (map str (filter_empty (ivals g l))))) ->
    exists p, usl_of_list so (map itm l) = Ok (UPm p) /\ pok p /\ made p /\ pm_str p = pm_str (made_of l).
  Proof.
    intros Bc NE F HT. rewrite Forall_forall in F.
    set (cl := map (fun e => (canon so (fst e), P so (snd e))) (map itm l)). set (acc := path_to_value cl).
    assert (Ke : keys cl = map ckey l).
    { unfold cl, keys. rewrite !map_map. cbn [fst snd]. apply map_ext_in. intros e He. apply ckey_canon. now apply F. }
    assert (G : grouped cl acc).
    { apply grouped_all.
      - apply Forall_forall. intros e He. unfold cl in He. rewrite map_map in He. apply in_map_iff in He. destruct He as (x & <- & Hx). cbn [snd]. apply (P_ok so SO). now apply F.
      - intros p q Hp Hq. unfold cl in Hp, Hq. rewrite !map_map in Hp, Hq. apply in_map_iff in Hp, Hq. destruct Hp as (a & <- & Ha), Hq as (b & <- & Hb). cbn [fst].
        destruct (itm_ok a (F a Ha)) as (A1 & A2 & _), (itm_ok b (F b Hb)) as (B1 & B2 & _). rewrite !(canon_str so SO) by auto. intros E. apply path_g in E; auto. destruct E as [E _].
        unfold itm. cbn. rewrite E. destruct (fst b); reflexivity. }
    destruct G as (N & Nf & M & Vn & I).
    assert (Sh : forall e, In e acc -> exists g m, fst e = PPoly g m (mult_of g (match g with Constant => None | _ => Some (K g) end)) None /\ (g <> Constant -> 1 <= K g) /\ In g (map fst l)).
    { intros e He. assert (H : In (fst e) (map fst cl)) by (apply I, in_map, He). unfold cl in H. rewrite !map_map in H. apply in_map_iff in H. destruct H as (a & E & Ha). rewrite <- E. 
      exists (fst a), (option_map (P so) (if bare (fst a) then None else Some (snd a))). split; [destruct a as [[] ?]; reflexivity|]. split; [|now apply in_map]. intros Hg. apply (F a Ha). exact Hg. }
    destruct (build_leaves ClPoly acc) as (b & E1 & E2).
    { apply Forall_forall. intros e He. destruct (Sh e He) as (g & m & -> & _). split; reflexivity. }
    { intros X. destruct l as [|a l]; [congruence|]. assert (H : In (ckey a) (flat acc)) by (apply M; rewrite Ke; now left). rewrite X in H. destruct H. }
    { exact N. }
    set (es := map (fun e => ((g_of (fst e), kk (fst e)), snd e)) acc).
    assert (E3 : mapM poly_values (map (fun e => (fst e, NValues (snd e))) acc) = Ok es).
    { unfold es. clear - Sh. induction acc as [|[p vs] acc IH]; [reflexivity|]. destruct (Sh (p, vs) (or_introl eq_refl)) as (g & m & E & _). cbn [fst] in E. subst p. cbn [map]. rewrite mapM_step. cbn [poly_values fst snd bind g_of kk].
      rewrite IH; [reflexivity|]. intros e He. apply Sh. now right. }
    assert (E4 : forall g, entries_of g es = map (fun e => ((g_of (fst e), kk (fst e)), snd e)) (filter (fun e => gidx_eqb (g_of (fst e)) g) acc)).
    { intros g. unfold es, entries_of. clear. induction acc as [|e acc IH]; [reflexivity|]. cbn [map filter fst]. rewrite IH. destruct (gidx_eqb _ g); reflexivity. }
    assert (E5 : forall g, flat_map snd (entries_of g es) = V g acc).
    { intros g. rewrite E4. unfold V. rewrite !flat_map_concat_map, map_map. reflexivity. }
    assert (Pr : forall g, present g l = negb (match filter (fun e => gidx_eqb (g_of (fst e)) g) acc with [] => true | _ => false end)).
    { intros g. destruct (filter _ acc) as [|e0 f0] eqn:Ef; cbn [negb].
      - apply not_true_iff_false. intros H. apply existsb_exists in H. destruct H as (a & Ha & H). assert (X : In (ckey a) (flat acc)) by (apply M; rewrite Ke; now apply in_map).
        apply in_flat_map in X. destruct X as (e & He & X). apply in_map_iff in X. destruct X as (v & X & _). unfold ckey, key in X. injection X as X _ _ _.
        assert (In e []); [|auto]. rewrite <- Ef. apply filter_In. split; [exact He|]. rewrite X. exact H.
      - assert (H : In e0 (filter (fun e => gidx_eqb (g_of (fst e)) g) acc)) by (rewrite Ef; now left). apply filter_In in H. destruct H as [H Hg].
        destruct (Sh e0 H) as (h & m & E & _ & Hi). rewrite E in Hg. cbn [g_of] in Hg. apply in_map_iff in Hi. destruct Hi as (a & Ea & Ha). apply existsb_exists. exists a. split; [exact Ha|]. unfold at_i. now rewrite Ea. }
    assert (E6 : forall g, g <> Constant -> build_group es g = Ok (if present g l then [(V g acc, K g)] else [])).
    { intros g Hg. unfold build_group. rewrite E5, Pr. rewrite E4, map_map. cbn [fst snd]. unfold V.
      assert (X : forall e, In e (filter (fun e => gidx_eqb (g_of (fst e)) g) acc) -> kk (fst e) = Some (K g) /\ snd e <> [] /\ 1 <= K g).
      { intros e He. apply filter_In in He. destruct He as [He Hge]. destruct (Sh e He) as (h & m & E & Hk & _). rewrite E in *. cbn [g_of] in Hge. apply gidx_eqb_eq in Hge. subst h. rewrite Forall_forall in Vn. split; [|split; [now apply Vn|auto]].
        cbn [kk]. destruct g; [congruence|reflexivity..]. }
      rewrite (map_ext_in _ (fun _ => Some (K g))) by (intros e He; now apply X).
      destruct (filter _ acc) as [|e0 f0]; [reflexivity|]. destruct (X e0 (or_introl eq_refl)) as (_ & X2 & X3). rewrite group_mult_first by (auto; discriminate). cbn [bind flat_map negb].
      destruct (snd e0); [congruence|]. reflexivity. }
    exists (mk_pm (V Constant acc) (flat_map (fun g => if present g l then [(V g acc, K g)] else []) [Group0; Group1; Group2])).
    assert (NV : forall g, Forall nf (V g acc)).
    { intros g. apply Forall_forall. intros v Hv. apply in_flat_map in Hv. destruct Hv as (e & He & Hv). apply filter_In in He. rewrite Forall_forall in Vn. destruct (Vn e (proj1 He)) as [_ X]. rewrite Forall_forall in X. auto. }
    assert (GO : forall (W : gidx -> list script) ls, (forall g, Forall nf (W g)) -> Forall gok (flat_map (fun g => if present g l then [(W g, K g)] else []) ls)).
    { intros W ls HW. apply Forall_forall. intros x Hx. apply in_flat_map in Hx. destruct Hx as (g & _ & Hx). destruct (present g l); [|destruct Hx]. destruct Hx as [<-|[]]. apply HW. }
    assert (NT : forall g, Forall nf (T g)) by (intros g; apply HT).
    assert (Pm : forall g, Permutation (map str (filter_empty (V g acc))) (map str (filter_empty (T g)))).
    { intros g. destruct (HT g) as (_ & T2 & T3). apply NoDup_Permutation; [|exact T2|].
      - rewrite V_keys. apply (NoDup_map_via (fun x => fst (snd x)) (fun x => x)).
        + intros x y Hx Hy E. apply filter_In in Hx, Hy. destruct Hx as [Hx Gx], Hy as [Hy Gy]. apply M in Hx, Hy. rewrite Ke in Hx, Hy. apply in_map_iff in Hx, Hy. destruct Hx as (a & <- & Ha), Hy as (c & <- & Hc).
          apply andb_prop in Gx, Gy. destruct Gx as [Gx Fx], Gy as [Gy Fy]. unfold ckey, key in *. cbn [fst snd itm g_of] in *. apply gidx_eqb_eq in Gx, Gy. unfold full in Fx, Fy. cbn [snd] in Fx, Fy.
          apply negb_true_iff in Fx, Fy. rewrite Fx, Fy, E, Gx, Gy. f_equal. f_equal. destruct (bare g); [reflexivity|]. cbn. rewrite E. reflexivity.
        + rewrite map_id. now apply NoDup_filter.
      - intros t. rewrite T3, V_keys, ivals_keys. rewrite !in_map_iff. split; intros (x & <- & Hx); exists x; (split; [reflexivity|]); apply filter_In in Hx; apply filter_In; destruct Hx as [Hx Hf]; (split; [|exact Hf]);
          [rewrite <- Ke; now apply M|apply M; now rewrite Ke]. }
    split; [|split; [apply mk_pm_ok; auto|split; [exists (V Constant acc); eexists; split; [auto|split; [|reflexivity]]; auto|]]].
    - assert (X : usl_of_list so (map itm l) = from_path_values so (map itm l)) by (clear - NE; destruct l; [congruence|reflexivity]). rewrite X, from_items_all.
      + fold cl. fold acc. rewrite E1. cbn [bind]. rewrite E2. cbn [build]. unfold build_pm. rewrite E3. cbn [bind mapM]. rewrite !E6 by discriminate. cbn [bind]. rewrite E5. reflexivity.
      + apply Forall_forall. intros x Hx. apply in_map_iff in Hx. destruct Hx as (a & <- & Ha). apply itm_ok. now apply F.
    - unfold made_of. apply pm_str_key; try (apply mk_pm_ok; auto). unfold pkey. f_equal.
      + apply mk_pm_constant_key; auto.
      + apply mk_pm_groups_key; auto. assert (X : forall ls, map (fun g => gkey (gnorm g)) (flat_map (fun g => if present g l then [(V g acc, K g)] else []) ls) = map (fun g => gkey (gnorm g)) (flat_map (fun g => if present g l then [(T g, K g)] else []) ls)).
        { induction ls as [|g ls IH]; [reflexivity|]. cbn [flat_map]. rewrite !map_app. f_equal; [|exact IH]. destruct (present g l); [|reflexivity]. cbn [map]. f_equal. unfold gkey, gnorm. cbn [fst snd]. f_equal. apply isort_key; auto using filter_nf. }
        replace (map _ _) with (map (fun g => gkey (gnorm g)) (flat_map (fun g => if present g l then [(T g, K g)] else []) [Group0; Group1; Group2])) by (symmetry; apply X). apply Permutation_refl.
  Qed.
End Place.

(** ** Singular sequences *)
Lemma ss_spec so v s : set_order so -> pok v -> groups v <> [] -> In s (pm_ss so v) ->
  groups s = [] /\ Forall nf (constant s) /\ NoDup (map str (constant s)) /\
  (constant s = [Null 0] \/
   (constant s <> [] /\ forall m, In m (constant s) -> is_empty m = false /\ (In m (constant v) \/ exists g, In g (groups v) /\ In m (fst g)))).
Proof.
  intros SO [[H1 H2] _] N Hs. rewrite pm_ss_groups in Hs by auto.
  destruct (traits_spec so (groups v) (constant v) SO N H2 H1) as (_ & _ & X). destruct (X s Hs) as (cs & d & K & D & L & ->). clear X.
  pose proof (distinct_nf (groups v) cs (constant v) d H2 H1 K D) as Nd'. destruct D as (Nd & I & C). split; [reflexivity|].
  assert (P : Permutation (isort (filter_empty d)) (filter_empty d)) by apply sort_perm.
  assert (Nf : NoDup (map str (filter_empty d))).
  { clear -Nd. unfold filter_empty. induction d as [|x d IH]; simpl; [constructor|]. inversion Nd; subst. destruct (negb (is_empty x)); auto.
    simpl. constructor; auto. rewrite in_map_iff in *. intros (y & E & Hy). apply H1. exists y. split; auto. apply filter_In in Hy. tauto. }
  unfold mk_pm. cbn [constant]. destruct (isort (filter_empty d)) as [|x l] eqn:E.
  - split; [constructor; [split; [cbn; lia|discriminate]|constructor]|]. split; [constructor; [tauto|constructor]|]. now left.
  - split; [|split; [eapply Permutation_NoDup; [apply Permutation_map, Permutation_sym; exact P|auto]|]].
    + apply Forall_forall. intros m Hm. apply (Permutation_in _ P) in Hm. apply filter_In in Hm. rewrite Forall_forall in Nd'. apply Nd'. tauto.
    + right. split; [discriminate|]. intros m Hm. apply (Permutation_in _ P) in Hm. apply filter_In in Hm. destruct Hm as [Hm Em]. apply negb_true_iff in Em. split; auto.
      apply I, in_app_iff in Hm. destruct Hm as [Hm|Hm]; [right|auto]. apply (picks_in _ _ K). auto.
Qed.
Lemma items_leaves v : items (UPm v) = Ok (leaves v).
Proof.
  unfold items. cbn [iter_by_script iter_path bind]. rewrite iter_pm_leaves. induction (leaves v) as [|e l IH]; [reflexivity|]. cbn [map]. rewrite mapM_step. cbn [U snd fst bind]. rewrite IH. destruct e; reflexivity.
Qed.

Section Table.
  Variable so : list script -> list script.
  Variable po : list path -> list path.
  Variable wl : word -> word -> bool.
  Hypothesis SO : set_order so.
  Hypothesis PO : forall l, Permutation (po l) l.
  Variable u : pm.
  Hypothesis G : pm_good u.
  Hypothesis NR : no_repetition u.
  Definition Ku (g : gidx) : nat := match groups_at u g with Some gr => snd gr | None => 1 end.
  Definition ms (g : gidx) : list script := match g with Constant => constant u | _ => match groups_at u g with Some gr => fst gr | None => [] end end.
  Definition places (f : gidx -> bool) : list (gidx * script) := flat_map (fun g => map (pair g) (ms g)) (filter f [Constant; Group0; Group1; Group2]).
  Definition nobare (_ : gidx) : bool := false.
  Definition gpath (g : gidx) : path := PPoly g None (Some (Ku g)) None.
  Lemma leaves_places : leaves u = map (itm nobare Ku) (places (fun _ => true)).
  Proof.
    unfold leaves, places. cbn [filter flat_map]. rewrite app_nil_r, !map_app, !map_map. cbn [fst snd itm]. f_equal.
    assert (X : forall g, g <> Constant -> match groups_at u g with Some gr => group_leaf g gr | None => [] end = map (itm nobare Ku) (map (pair g) (ms g))).
    { intros g Hg. unfold ms, group_leaf. destruct (groups_at u g) as [gr|] eqn:E; [|destruct g; [congruence|reflexivity..]].
      destruct g; [congruence|..]; rewrite map_map; apply map_ext; intros s; unfold itm, Ku; cbn [fst snd nobare]; rewrite E; reflexivity. }
    rewrite !X by discriminate. rewrite !map_map, app_nil_r. reflexivity.
  Qed.
  Lemma place_ok_u f e : In e (places f) -> place_ok Ku e.
  Proof.
    intros He. assert (H : In e (places (fun _ => true))).
    { unfold places in *. apply in_flat_map in He. destruct He as (g & Hg & He). apply in_flat_map. exists g. split; [|exact He]. apply filter_In in Hg. apply filter_In. tauto. }
    assert (L : In (itm nobare Ku e) (leaves u)) by (rewrite leaves_places; now apply in_map). pose proof (leaf_ok u _ G L) as (A & B & C & D). unfold itm in B, C, D. cbn [fst snd] in *.
    split; [exact C|]. split; [exact D|]. intros Hg. unfold places in H. apply in_flat_map in H. destruct H as (g & _ & H). apply in_map_iff in H. destruct H as (s & <- & Hs). cbn [fst] in *.
    destruct g; [congruence|..]; unfold Ku, ms in *; match goal with |- context [groups_at u ?g] => destruct (groups_at u g) as [gr|] eqn:E end; try destruct Hs; apply groups_at_in in E; destruct G as (_ & _ & F & _); rewrite Forall_forall in F; apply F; apply E.
  Qed.
  Lemma ms_perm : Permutation (flat_map ms [Constant; Group0; Group1; Group2]) (constant u ++ flat_map fst (groups u)).
  Proof.
    cbn [flat_map ms]. apply Permutation_app_head. rewrite app_nil_r. cbn [groups_at]. destruct G as (_ & L & _). destruct (groups u) as [|a [|b [|c [|]]]]; cbn in L; try lia; cbn [nth_error flat_map]; rewrite ?app_nil_r; apply Permutation_refl.
  Qed.
  Lemma ms_distinct : NoDup (map str (flat_map ms [Constant; Group0; Group1; Group2])).
  Proof. eapply Permutation_NoDup; [apply Permutation_map, Permutation_sym, ms_perm|exact NR]. Qed.
  Lemma all_g g : In g [Constant; Group0; Group1; Group2].
  Proof. destruct g; cbn; auto. Qed.
  Lemma ms_unique g h m m' : In m (ms g) -> In m' (ms h) -> str m = str m' -> g = h.
  Proof.
    intros Hm Hm' E. pose proof ms_distinct as N. assert (X : forall gs, NoDup gs -> NoDup (map str (flat_map ms gs)) -> In g gs -> In h gs -> g = h).
    { induction gs as [|k gs IH]; intros Ng N0 Hg Hh; [destruct Hg|]. cbn [flat_map] in N0. rewrite map_app in N0. apply NoDup_app_iff in N0. destruct N0 as (N1 & N2 & D). apply NoDup_cons_iff in Ng. destruct Ng as [_ Ng].
      destruct Hg as [->|Hg], Hh as [->|Hh]; auto; exfalso.
      - apply (D (str m)); [now apply in_map|]. rewrite E. apply in_map, in_flat_map. eauto.
      - apply (D (str m')); [now apply in_map|]. rewrite <- E. apply in_map, in_flat_map. eauto. }
    apply (X [Constant; Group0; Group1; Group2]); auto using all_g. repeat constructor; cbn; intuition discriminate.
  Qed.
  Lemma ms_nodup g : NoDup (map str (ms g)).
  Proof.
    pose proof ms_distinct as N. pose proof (all_g g) as Hg. revert N Hg. generalize [Constant; Group0; Group1; Group2]. induction l as [|k gs IH]; [intros _ []|]. cbn [flat_map]. rewrite map_app. intros N Hg.
    apply NoDup_app_iff in N. destruct N as (N1 & N2 & _). destruct Hg as [->|Hg]; auto.
  Qed.
  Lemma ms_nf g : Forall nf (ms g).
  Proof.
    apply Forall_forall. intros m Hm. assert (H : In (g, m) (places (fun _ => true))).
    { apply in_flat_map. exists g. split; [apply filter_In; split; [apply all_g|reflexivity]|now apply in_map]. }
    apply place_ok_u in H. apply H.
  Qed.
  Lemma ms_old g m : In m (ms g) -> old_class (str m) = None.
  Proof.
    intros Hm. assert (H : In (g, m) (places (fun _ => true))).
    { apply in_flat_map. exists g. split; [apply filter_In; split; [apply all_g|reflexivity]|now apply in_map]. }
    apply place_ok_u in H. apply H.
  Qed.
  Lemma group_full gr m : In gr (groups u) -> In m (fst gr) -> is_empty m = false.
  Proof.
    destruct G as (((cs & gs & _ & _ & E) & _) & _). intros H. rewrite E in H. cbn [groups mk_pm] in H. apply (Permutation_in _ (sort_perm _ _)) in H. apply in_map_iff in H. destruct H as (g & <- & _). cbn [fst].
    intros Hm. apply (Permutation_in _ (sort_perm _ _)) in Hm. apply filter_In in Hm. now apply negb_true_iff.
  Qed.
  Lemma ms_full g m : g <> Constant -> In m (ms g) -> is_empty m = false.
  Proof.
    intros Hg Hm. unfold ms in Hm. destruct g; [congruence|..]; match type of Hm with context [groups_at u ?g] => destruct (groups_at u g) as [gr|] eqn:E end; try destruct Hm; apply groups_at_in in E; eapply group_full; eauto; apply E.
  Qed.

  (** Morphemes taken from the places of [J]. *)
  Definition choice (J : gidx -> bool) (d : list script) : Prop :=
    Forall nf d /\ NoDup (map str (filter_empty d)) /\
    forall m, In m d -> m = Null 0 \/ (is_empty m = false /\ exists g m', J g = true /\ In m' (ms g) /\ str m' = str m).
  Lemma choice_old J d m : choice J d -> In m d -> nf m /\ old_class (str m) = None.
  Proof.
    intros (N & _ & H) Hm. rewrite Forall_forall in N. split; [auto|]. destruct (H m Hm) as [->|(_ & g & m' & _ & Hm' & <-)]; [reflexivity|]. now apply (ms_old g).
  Qed.
  Lemma choice_app J J' d d' : choice J d -> choice J' d' -> (forall g, J g = true -> J' g = true -> False) -> choice (fun g => (J g || J' g)%bool) (d ++ d').
  Proof.
    intros (N & U & H) (N' & U' & H') D. split; [now apply Forall_app|]. split.
    - unfold filter_empty in *. rewrite filter_app, map_app. apply NoDup_app_both; auto. intros t Ht Ht'. apply in_map_iff in Ht, Ht'. destruct Ht as (m & <- & Hm), Ht' as (m' & E & Hm').
      apply filter_In in Hm, Hm'. destruct Hm as [Hm Em], Hm' as [Hm' Em']. destruct (H m Hm) as [->|(_ & g & a & Jg & Ha & Ea)]; [discriminate|]. destruct (H' m' Hm') as [->|(_ & h & b & Jh & Hb & Eb)]; [discriminate|].
      assert (g = h) by (apply (ms_unique g h a b); auto; congruence). subst h. eauto.
    - intros m Hm. apply in_app_or in Hm. destruct Hm as [Hm|Hm]; [destruct (H m Hm) as [->|(E & g & a & Jg & Ha)]|destruct (H' m Hm) as [->|(E & g & a & Jg & Ha)]]; auto;
        right; (split; [exact E|]); exists g, a; rewrite Jg; (split; [now rewrite ?orb_true_r|exact Ha]).
  Qed.
  Lemma choice_constant : choice (gidx_eqb Constant) (constant u).
  Proof.
    split; [apply (ms_nf Constant)|]. split.
    - pose proof (ms_nodup Constant) as N. cbn [ms] in N. clear - N. induction (constant u) as [|x l IH]; [constructor|]. cbn [map] in N. apply NoDup_cons_iff in N. destruct N as [N1 N2]. unfold filter_empty in *. cbn [filter]. destruct (negb (is_empty x)); [|auto].
      cbn [map]. constructor; [|auto]. intros H. apply N1. apply in_map_iff in H. destruct H as (y & <- & Hy). apply in_map. apply filter_In in Hy. tauto.
    - intros m Hm. destruct G as ((_ & ((_ & K) & _)) & _). destruct K as [K|[_ K]]; [left; rewrite K in Hm; destruct Hm as [<-|[]]; reflexivity|]. right. rewrite Forall_forall in K. split; [auto|]. exists Constant, m. auto.
  Qed.
  Lemma filter_empty_in m l : In m (filter_empty l) <-> In m l /\ is_empty m = false.
  Proof. unfold filter_empty. rewrite filter_In, negb_true_iff. reflexivity. Qed.

  (** ** The places that do not vary *)
  Variable rest : gidx -> bool.
  Definition rest_groups : list group := flat_map (fun g => match groups_at u g with Some gr => if rest g then [gr] else [] | None => [] end) [Group0; Group1; Group2].
  Hypothesis RC : rest Constant = true.
  Lemma places_in f g m : In (g, m) (places f) <-> f g = true /\ In m (ms g).
  Proof.
    unfold places. rewrite in_flat_map. split.
    - intros (h & Hh & H). apply filter_In in Hh. apply in_map_iff in H. destruct H as (x & E & Hx). injection E as -> ->. tauto.
    - intros [H1 H2]. exists g. split; [apply filter_In; split; [apply all_g|exact H1]|now apply in_map].
  Qed.
  Lemma ivals_in g l t : In t (map str (filter_empty (ivals g l))) <-> exists m, In (g, m) l /\ is_empty m = false /\ str m = t.
  Proof.
    unfold ivals. rewrite in_map_iff. split.
    - intros (m & E & H). apply filter_empty_in in H. destruct H as [H Em]. apply in_map_iff in H. destruct H as ([h x] & Ex & H). cbn in Ex. subst x. apply filter_In in H. destruct H as [H Hg]. apply gidx_eqb_eq in Hg. cbn in Hg. subst h. eauto.
    - intros (m & H & Em & E). exists m. split; [exact E|]. apply filter_empty_in. split; [|exact Em]. apply in_map_iff. exists (g, m). split; [reflexivity|]. apply filter_In. split; [exact H|]. now apply gidx_eqb_eq.
  Qed.
  Lemma cell_gen bare J d l : bare Constant = false -> choice J d -> (forall g, J g = true -> g <> Constant /\ rest g = false) ->
    (forall g m, In (g, m) (places rest) \/ In (g, m) (map (pair Constant) d) -> exists m', In (g, m') l /\ is_empty m' = is_empty m /\ str m' = str m) ->
    (forall g m, In (g, m) l -> In (g, m) (places rest) \/ In (g, m) (map (pair Constant) d) \/ (m = Null 0 /\ g <> Constant /\ rest g = true /\ groups_at u g <> None)) ->
    exists p, usl_of_list so (map (itm bare Ku) l) = Ok (UPm p) /\ pok p /\ made p /\ pm_str p = pm_str (mk_pm (constant u ++ d) rest_groups).
  Proof.
    intros BC C D M1 M2. set (T := fun g => match g with Constant => (constant u ++ d)%list | _ => if rest g then ms g else [] end).
    assert (CC : choice (fun g => (gidx_eqb Constant g || J g)%bool) (constant u ++ d)).
    { apply choice_app; [apply choice_constant|exact C|]. intros g Hg Jg. apply gidx_eqb_eq in Hg. subst g. now apply (D Constant Jg). }
    destruct (build_poly so SO bare Ku T l) as (p & E & Po & Ma & Ep).
    - exact BC.
    - intros ->. destruct (constant u) as [|m cs] eqn:Ec.
      + destruct G as ((_ & ((_ & K) & _)) & _). rewrite Ec in K. destruct K as [K|[K _]]; congruence.
      + destruct (M1 Constant m) as (m' & [] & _). left. apply places_in. split; [exact RC|]. cbn [ms]. rewrite Ec. now left.
    - apply Forall_forall. intros [g m] He. apply M2 in He. destruct He as [He|[He|(-> & Hg & _ & Eg)]]; [now apply (place_ok_u rest)| |].
      + apply in_map_iff in He. destruct He as (x & Ex & Hm). injection Ex as <- <-.
        destruct (choice_old J d x C Hm) as [H1 H2]. split; [exact H1|]. split; [exact H2|]. cbn. congruence.
      + split; [split; [cbn; lia|discriminate]|]. split; [reflexivity|]. intros _. cbn [fst]. destruct (groups_at u g) as [gr|] eqn:Gg; [|congruence].
        assert (NE : fst gr <> []) by (destruct G as ((_ & (_ & _ & F)) & _); rewrite Forall_forall in F; apply F; now apply groups_at_in in Gg).
        assert (Em : ms g = fst gr) by (unfold ms; rewrite Gg; destruct g; [congruence|reflexivity..]).
        destruct (fst gr) as [|m0 r0] eqn:Ef; [congruence|]. assert (Q : place_ok Ku (g, m0)); [|now apply Q]. apply (place_ok_u (fun _ => true)). apply in_flat_map. exists g. split; [apply filter_In; split; [apply all_g|reflexivity]|]. apply in_map. rewrite Em. now left.
    - intros g. assert (X : g <> Constant -> T g = if rest g then ms g else []) by (intros Hg; destruct g; [congruence|reflexivity..]).
      destruct (gidx_eqb Constant g) eqn:Eg; [apply gidx_eqb_eq in Eg; subst g|].
      + destruct CC as (N & Nd & H). split; [exact N|]. split; [exact Nd|]. intros t. rewrite ivals_in. cbn [T]. rewrite in_map_iff. split.
        * intros (m & <- & Hm). apply filter_empty_in in Hm. destruct Hm as [Hm Em]. destruct (M1 Constant m) as (m' & H1 & H2 & H3); [|exists m'; rewrite H2, H3; auto]. apply in_app_or in Hm. destruct Hm as [Hm|Hm]; [left; apply places_in; auto|right; now apply in_map].
        * intros (m & Hm & Em & <-). exists m. split; [reflexivity|]. apply filter_empty_in. split; [|exact Em]. apply in_or_app. apply M2 in Hm. destruct Hm as [Hm|[Hm|(-> & _)]]; [left; now apply places_in in Hm|right|discriminate]. apply in_map_iff in Hm. destruct Hm as (x & Ex & Hx). now injection Ex as <-.
      + assert (Hg : g <> Constant) by (intros ->; discriminate). rewrite (X Hg). clear X. assert (Y : forall t, In t (map str (filter_empty (if rest g then ms g else []))) <-> In t (map str (filter_empty (ivals g l)))).
        { intros t. rewrite ivals_in, in_map_iff. split.
          - intros (m & <- & Hm). apply filter_empty_in in Hm. destruct Hm as [Hm Em]. destruct (M1 g m) as (m' & H1 & H2 & H3); [|exists m'; rewrite H2, H3; auto]. left. apply places_in. destruct (rest g); [auto|destruct Hm].
          - intros (m & Hm & Em & <-). exists m. split; [reflexivity|]. apply filter_empty_in. split; [|exact Em]. apply M2 in Hm. destruct Hm as [Hm|[Hm|(-> & _)]]; [|apply in_map_iff in Hm; destruct Hm as (x & Ex & _); congruence|discriminate].
            apply places_in in Hm. destruct Hm as [-> Hm]. exact Hm. }
        split; [destruct (rest g); [apply ms_nf|constructor]|]. split; [|exact Y]. destruct (rest g); [|constructor].
        assert (Z : filter_empty (ms g) = ms g) by (apply filter_true; intros m Hm; apply negb_true_iff; now apply (ms_full g)). rewrite Z. apply ms_nodup.
    - exists p. split; [exact E|]. split; [exact Po|]. split; [exact Ma|]. rewrite Ep. unfold made_of, rest_groups. f_equal. f_equal.
      assert (X : forall ls, ~ In Constant ls -> flat_map (fun g => if present g l then [(T g, Ku g)] else []) ls = flat_map (fun g => match groups_at u g with Some gr => if rest g then [gr] else [] | None => [] end) ls).
      { induction ls as [|g ls IH]; intros NC; [reflexivity|]. cbn [flat_map]. rewrite IH by (intros H; apply NC; now right). f_equal.
        assert (Hg : g <> Constant) by (intros ->; apply NC; now left).
        assert (Pr : present g l = match groups_at u g with Some _ => rest g | None => false end).
        { apply eq_true_iff_eq. unfold present. rewrite existsb_exists. split.
          - intros ([h m] & Hm & Eh). apply gidx_eqb_eq in Eh. cbn in Eh. subst h. apply M2 in Hm. destruct Hm as [Hm|[Hm|(_ & _ & Rg & Gg)]]; [|apply in_map_iff in Hm; destruct Hm as (x & Ex & _); congruence|destruct (groups_at u g); congruence].
            apply places_in in Hm. destruct Hm as [Rg Hm]. unfold ms in Hm. destruct g; [congruence|..]; match type of Hm with context [groups_at u ?g] => destruct (groups_at u g) end; auto.
          - destruct (groups_at u g) as [gr|] eqn:Gg; [|discriminate]. intros Rg. assert (Em : ms g = fst gr) by (unfold ms; rewrite Gg; destruct g; [congruence|reflexivity..]).
            assert (NE : fst gr <> []) by (destruct G as ((_ & (_ & _ & F)) & _); rewrite Forall_forall in F; apply F; now apply groups_at_in in Gg).
            destruct (fst gr) as [|m0 r0] eqn:Ef; [congruence|]. destruct (M1 g m0) as (m' & H1 & _); [left; apply places_in; split; [exact Rg|]; rewrite Em; now left|]. exists (g, m'). split; [exact H1|unfold at_i; now apply gidx_eqb_eq]. }
        rewrite Pr. destruct (groups_at u g) as [gr|] eqn:Gg; [|reflexivity]. destruct (rest g) eqn:Rg; [|reflexivity].
        assert (Em : T g = fst gr) by (destruct g; [congruence|..]; unfold T, ms; rewrite Rg, Gg; reflexivity). rewrite Em. unfold Ku. rewrite Gg. destruct gr; reflexivity. }
      apply X. cbn. intuition discriminate.
  Qed.
  Lemma cell_ok J d l : choice J d -> (forall g, J g = true -> g <> Constant /\ rest g = false) ->
    (forall e, In e l <-> In e (places rest) \/ In e (map (pair Constant) d)) ->
    exists p, usl_of_list so (map (itm nobare Ku) l) = Ok (UPm p) /\ pok p /\ made p /\ pm_str p = pm_str (mk_pm (constant u ++ d) rest_groups).
  Proof.
    intros C D M. apply (cell_gen nobare J d l eq_refl C D).
    - intros g m H. exists m. split; [now apply M|auto].
    - intros g m H. apply M in H. tauto.
  Qed.
End Table.


Lemma keep_filter {A} (f : A -> res bool) (b : A -> bool) l : (forall e, In e l -> f e = Ok (b e)) ->
  exists ks, mapM f l = Ok ks /\ map fst (filter snd (combine l ks)) = filter b l.
Proof.
  induction l as [|x l IH]; intros H; [exists []; auto|]. destruct IH as (ks & E & F); [intros e He; apply H; now right|]. exists (b x :: ks). rewrite mapM_step, H by now left. cbn [bind]. rewrite E. split; [reflexivity|].
  cbn [combine filter snd]. destruct (b x); cbn [map fst]; now rewrite F.
Qed.
Lemma mapM_len {A B} (f : A -> res B) l ks : mapM f l = Ok ks -> List.length ks = List.length l.
Proof.
  revert ks. induction l as [|x l IH]; intros ks E; [injection E as <-; reflexivity|]. rewrite mapM_step in E. destruct (f x); [|discriminate]. cbn [bind] in E. destruct (mapM f l) as [r|]; [|discriminate]. injection E as <-. cbn. f_equal. now apply IH.
Qed.
Definition pkey_of (a : usl) : string := match a with UPm p => pm_str p | _ => "" end.
Lemma order_usl {A} wl : order (fun a : usl * A => exists p, fst a = UPm p /\ pok p) (fun a => pkey_of (fst a)) (fun a b => String.eqb (pkey_of (fst a)) (pkey_of (fst b))) (fun a b => usl_lt wl (fst a) (fst b)).
Proof.
  constructor.
  - intros a b _ _. apply String.eqb_eq.
  - intros [? a] [? b] (p & -> & Hp) (q & -> & Hq). cbn. now apply (o_irr _ _ _ _ order_pm).
  - intros [? a] [? b] [? c] (p & -> & Hp) (q & -> & Hq) (r & -> & Hr). cbn. now apply (o_trans _ _ _ _ order_pm).
  - intros [? a] [? b] (p & -> & Hp) (q & -> & Hq). cbn. now apply (o_total _ _ _ _ order_pm).
Qed.
Lemma sort_by_ok {A} wl (f : A -> res usl) l : (forall x, In x l -> exists p, f x = Ok (UPm p) /\ pok p) ->
  exists l', sort_by wl f l = Ok l' /\ Permutation l' l /\ StronglySorted (fun x y => forall p q, f x = Ok (UPm p) -> f y = Ok (UPm q) -> pm_lt q p = false) l'.
Proof.
  intros H. destruct (mapM_total f l) as (ks & E); [intros x Hx; destruct (H x Hx) as (p & -> & _); eauto|]. unfold sort_by. rewrite E. cbn [bind]. eexists. split; [reflexivity|].
  assert (L : List.length ks = List.length l) by (now apply mapM_len in E).
  assert (P : Permutation (sort (fun a b => usl_lt wl (fst a) (fst b)) (combine ks l)) (combine ks l)) by apply sort_perm.
  assert (F : forall e, In e (combine ks l) -> f (snd e) = Ok (fst e) /\ In (snd e) l).
  { clear - E. revert ks E. induction l as [|x l IH]; intros ks E; [destruct ks; intros e []|]. rewrite mapM_step in E. destruct (f x) as [k|] eqn:Fx; [|discriminate]. cbn [bind] in E. destruct (mapM f l) as [r|] eqn:Er; [|discriminate]. injection E as <-.
    intros e [<-|He]; [split; [exact Fx|now left]|]. destruct (IH r eq_refl e He) as [A1 A2]. split; [exact A1|now right]. }
  split.
  - eapply perm_trans; [apply Permutation_map; exact P|]. clear - L. revert ks L. induction l as [|x l IH]; intros [|k ks] L; try discriminate; [constructor|]. cbn [combine map snd]. constructor. apply IH. now injection L.
  - pose proof (o_sorted (@order_usl A wl) (combine ks l)) as S. assert (D : Forall (fun a : usl * A => exists p, fst a = UPm p /\ pok p) (combine ks l)).
    { apply Forall_forall. intros e He. destruct (F e He) as [F1 F2]. destruct (H (snd e) F2) as (p & Ep & Hp). exists p. split; [congruence|exact Hp]. }
    specialize (S D). unfold weak_sorted in S. clear D. assert (Q : forall e, In e (sort (fun a b => usl_lt wl (fst a) (fst b)) (combine ks l)) -> f (snd e) = Ok (fst e)) by (intros e He; apply F; apply (Permutation_in _ P He)).
    clear P F. induction S as [|a m S IH Ha]; [constructor|]. cbn [map]. constructor; [apply IH; intros e He; apply Q; now right|]. rewrite Forall_map. apply Forall_forall. intros b Hb p q Ep Eq.
    rewrite Q in Ep by now left. rewrite Q in Eq by now right. injection Ep as Ep. injection Eq as Eq. rewrite Forall_forall in Ha. specialize (Ha b Hb). rewrite Ep, Eq in Ha. exact Ha.
Qed.
Lemma NoDup_map_filter {f : script -> bool} {l} : NoDup (map str l) -> NoDup (map str (filter f l)).
Proof.
  induction l as [|x l IH]; [constructor|]. cbn [map filter]. intros N. apply NoDup_cons_iff in N. destruct N as [N1 N2]. destruct (f x); [|auto]. cbn [map]. constructor; [|auto].
  intros H. apply N1. apply in_map_iff in H. destruct H as (y & <- & Hy). apply in_map. apply filter_In in Hy. tauto.
Qed.
Lemma last_of_in m l : (exists e, In e l /\ str (fst e) = str m) -> exists e, In e l /\ last_of m l = Ok (snd e).
Proof.
  intros (e & He & E). unfold last_of. destruct (find (fun e => script_eqb (fst e) m) (rev l)) as [x|] eqn:F.
  - apply find_some in F. destruct F as [F _]. apply in_rev in F. eauto.
  - exfalso. apply in_rev in He. apply (find_none _ _ F) in He. unfold script_eqb in He. rewrite E, String.eqb_refl in He. discriminate.
Qed.

Lemma path_refl p : path_eqb p p = true. Proof. apply String.eqb_refl. Qed.
Lemma path_sym p q : path_eqb p q = path_eqb q p. Proof. apply String.eqb_sym. Qed.
Lemma subseq_one {A} (x : A) l : In x l -> subseq [x] l.
Proof. induction l as [|y l IH]; intros []; [subst; constructor; constructor|apply sub_skip; auto]. Qed.

(** The texts of the singular sequences follow from the text. *)
Lemma subseq_text (l l' : list script) c : map str l = map str l' -> subseq c l -> exists c', subseq c' l' /\ map str c = map str c'.
Proof.
  intros E H. revert l' E. induction H as [l|x c l H IH|x c l H IH]; intros l' E.
  - exists []. split; [constructor|reflexivity].
  - destruct l' as [|y l']; [discriminate|]. injection E as Ex E. destruct (IH l' E) as (c' & H' & E'). exists (y :: c'). split; [now constructor|]. cbn. congruence.
  - destruct l' as [|y l']; [discriminate|]. injection E as Ex E. destruct (IH l' E) as (c' & H' & E'). exists c'. split; [now constructor|exact E'].
Qed.
Lemma picks_text gs gs' cs : map gkey gs = map gkey gs' -> picks gs cs -> exists cs', picks gs' cs' /\ map (map str) cs = map (map str) cs'.
Proof.
  intros E (q & F & F2).
  assert (Ln : forall g g' : group, gkey g = gkey g' -> List.length (fst g) = List.length (fst g') /\ snd g = snd g').
  { intros g g' X. unfold gkey in X. injection X as X1 X2. split; [|exact X2]. apply (f_equal (@List.length _)) in X1. now rewrite !map_length in X1. }
  assert (T : forall h, In h gs -> exists h', In h' gs' /\ gkey h = gkey h').
  { intros h Hh. apply (in_map gkey) in Hh. rewrite E in Hh. apply in_map_iff in Hh. destruct Hh as (h' & E' & Hh'). exists h'. auto. }
  assert (X : exists cs', Forall2 (fun g c => subseq c (fst g) /\ (List.length c = q \/ (List.length c = S q /\ (S q <= snd g \/ exists h, In h gs' /\ List.length (fst h) = q)))) gs' cs' /\ map (map str) cs = map (map str) cs').
  { clear F. revert E T. revert gs'. 
    assert (Y : forall all gs cs, Forall2 (fun g c => subseq c (fst g) /\ (List.length c = q \/ (List.length c = S q /\ (S q <= snd g \/ exists h, In h all /\ List.length (fst h) = q)))) gs cs ->
      forall all' gs', (forall h, In h all -> exists h', In h' all' /\ gkey h = gkey h') -> map gkey gs = map gkey gs' ->
      exists cs', Forall2 (fun g c => subseq c (fst g) /\ (List.length c = q \/ (List.length c = S q /\ (S q <= snd g \/ exists h, In h all' /\ List.length (fst h) = q)))) gs' cs' /\ map (map str) cs = map (map str) cs').
    { clear F2 cs gs. intros all gs cs F2. induction F2 as [|g c gs cs [Hs Hc] F2 IH]; intros all' gs' T E; destruct gs' as [|g' gs']; try discriminate; [exists []; split; [constructor|reflexivity]|].
      cbn [map] in E. assert (Eg' : gkey g = gkey g') by congruence. assert (E1 : map gkey gs = map gkey gs') by congruence. destruct (IH all' gs' T E1) as (cs' & F' & E'). destruct (Ln g g' Eg') as [L1 L2]. unfold gkey in Eg'. injection Eg' as Et _.
      destruct (subseq_text _ _ c Et Hs) as (c' & Hs' & Ec). exists (c' :: cs'). split; [|cbn; congruence]. constructor; [|exact F']. split; [exact Hs'|].
      assert (Lc : List.length c = List.length c') by (apply (f_equal (@List.length _)) in Ec; now rewrite !map_length in Ec). rewrite <- Lc. destruct Hc as [Hc|(Hc & Hd)]; [now left|]. right. split; [exact Hc|].
      destruct Hd as [Hd|(h & Hh & Lh)]; [left; lia|]. right. destruct (T h Hh) as (h' & Hh' & Eh). exists h'. split; [exact Hh'|]. destruct (Ln h h' Eh). lia. }
    intros gs' E T. exact (Y gs gs cs F2 gs' gs' T E). }
  destruct X as (cs' & F' & E'). exists cs'. split; [|exact E']. exists q. split; [|exact F'].
  apply Forall_forall. intros g' Hg'. apply (in_map gkey) in Hg'. rewrite <- E in Hg'. apply in_map_iff in Hg'. destruct Hg' as (g & Eg & Hg). rewrite Forall_forall in F. specialize (F g Hg). destruct (Ln g g' Eg). lia.
Qed.
Lemma pick_texts (l l' d : list script) : (forall x, In x l -> In (str x) (map str l')) -> incl d l -> exists d', map str d = map str d' /\ incl d' l'.
Proof.
  intros H. induction d as [|x d IH]; intros I; [exists []; split; [reflexivity|intros y []]|]. destruct IH as (d' & E & I'); [intros y Hy; apply I; now right|].
  specialize (H x (I x (or_introl eq_refl))). apply in_map_iff in H. destruct H as (y & Ey & Hy). exists (y :: d'). split; [cbn; congruence|]. intros z [<-|Hz]; auto.
Qed.
Lemma ss_text so p q : set_order so -> pok p -> pok q -> pm_str p = pm_str q -> Permutation (map pm_str (pm_ss so p)) (map pm_str (pm_ss so q)).
Proof.
  intros SO Hp Hq E. pose proof E as E0. apply pm_str_key in E; auto. unfold pkey in E. injection E as Ec Eg.
  assert (W : forall p q, pok p -> pok q -> map str (constant p) = map str (constant q) -> map gkey (groups p) = map gkey (groups q) -> groups p <> [] -> forall t, In t (map pm_str (pm_ss so p)) -> In t (map pm_str (pm_ss so q))).
  { clear p q Hp Hq E0 Ec Eg. intros p q [[Hp1 Hp2] _] [[Hq1 Hq2] _] Ec Eg N t Ht. assert (N' : groups q <> []) by (intros X; rewrite X in Eg; apply map_eq_nil in Eg; congruence).
    rewrite pm_ss_groups in * by auto. destruct (traits_spec so (groups p) (constant p) SO N Hp2 Hp1) as (_ & X & _). destruct (traits_spec so (groups q) (constant q) SO N' Hq2 Hq1) as (_ & Y & _).
    apply X in Ht. apply Y. clear X Y. destruct Ht as (cs & K & d & (D1 & D2 & D3) & L & ->). destruct (picks_text _ _ cs Eg K) as (cs' & K' & E'). exists cs'. split; [exact K'|].
    assert (Z : forall cs cs' : list (list script), map (map str) cs = map (map str) cs' -> map str (List.concat cs) = map str (List.concat cs')).
    { clear. intros cs. induction cs as [|c cs IH]; intros [|c' cs'] E; try discriminate; [reflexivity|]. cbn. rewrite !map_app. injection E as E1 E2. rewrite E1. f_equal. now apply IH. }
    assert (EZ : map str (List.concat cs ++ constant p) = map str (List.concat cs' ++ constant q)) by (rewrite !map_app, Ec; f_equal; now apply Z).
    destruct (pick_texts (List.concat cs ++ constant p) (List.concat cs' ++ constant q) d) as (d' & Ed & I'); [intros x Hx; rewrite <- EZ; now apply in_map|exact D2|].
    assert (D' : distinct_of (List.concat cs' ++ constant q) d').
    { split; [now rewrite <- Ed|]. split; [exact I'|]. intros x Hx. apply (in_map str) in Hx. rewrite <- EZ in Hx. apply in_map_iff in Hx. destruct Hx as (y & Ey & Hy). rewrite <- Ey, <- Ed. now apply D3. }
    exists d'. split; [exact D'|]. assert (Ld : List.length d = List.length d') by (apply (f_equal (@List.length _)) in Ed; now rewrite !map_length in Ed). split; [lia|].
    pose proof (distinct_nf (groups p) cs (constant p) d Hp2 Hp1 K (conj D1 (conj D2 D3))) as Nd. pose proof (distinct_nf (groups q) cs' (constant q) d' Hq2 Hq1 K' D') as Nd'.
    apply pm_str_key; [apply mk_pm_ok; auto..|]. unfold pkey. f_equal. apply mk_pm_constant_key; auto. rewrite (filter_empty_str d d') by auto. apply Permutation_refl. }
  destruct (groups p) as [|g gs] eqn:Gp.
  - assert (Gq : groups q = []) by (symmetry in Eg; now apply map_eq_nil in Eg). unfold pm_ss. rewrite Gp, Gq. cbn [map]. rewrite E0. apply Permutation_refl.
  - assert (Np : groups p <> []) by (rewrite Gp; discriminate). rewrite <- Gp in Eg. assert (Nq : groups q <> []) by (intros X; rewrite X in Eg; apply map_eq_nil in Eg; congruence).
    apply NoDup_Permutation.
    + destruct Hp as [[H1 H2] _]. rewrite pm_ss_groups by auto. now destruct (traits_spec so (groups p) (constant p) SO Np H2 H1) as (X & _).
    + destruct Hq as [[H1 H2] _]. rewrite pm_ss_groups by auto. now destruct (traits_spec so (groups q) (constant q) SO Nq H2 H1) as (X & _).
    + intros t. split; apply W; auto.
Qed.

Lemma sorted_weaken {A} (R Q : A -> A -> Prop) (P : A -> Prop) l : Forall P l -> (forall x y, P x -> P y -> R x y -> Q x y) -> StronglySorted R l -> StronglySorted Q l.
Proof.
  intros F H. induction 1 as [|a l Sl IH Fa]; [constructor|]. apply Forall_cons_iff in F. destruct F as [Pa F]. constructor; [auto|]. rewrite Forall_forall in *. intros b Hb. apply H; auto.
Qed.
Lemma sort_keys {A} wl (f : A -> res usl) (c : A -> pm) l : (forall x, In x l -> pok (c x) /\ exists p, f x = Ok (UPm p) /\ pok p /\ pm_str p = pm_str (c x)) ->
  exists l', sort_by wl f l = Ok l' /\ Permutation l' l /\ StronglySorted (fun x y => pm_lt (c y) (c x) = false) l'.
Proof.
  intros H. destruct (sort_by_ok wl f l) as (l' & E & P & S).
  - intros x Hx. destruct (H x Hx) as (_ & p & Ep & Po & _). eauto.
  - exists l'. split; [exact E|]. split; [exact P|]. apply (sorted_weaken _ _ (fun x => In x l) l' ) with (3 := S).
    + apply Forall_forall. intros x Hx. eapply Permutation_in; eauto.
    + intros x y Hx Hy K. destruct (H x Hx) as (Cx & px & Ex & Pox & Tx). destruct (H y Hy) as (Cy & py & Ey & Poy & Ty). rewrite <- (K px py Ex Ey). apply (o_compat order_pm); auto.
Qed.
Lemma sorted_map {A B} (f : A -> B) (R : B -> B -> Prop) l : StronglySorted R (map f l) <-> StronglySorted (fun x y => R (f x) (f y)) l.
Proof.
  induction l as [|a l IH]; cbn [map]; [split; constructor|]. split; intros H; apply StronglySorted_inv in H; destruct H as [H F]; constructor; try (now apply IH).
  - rewrite Forall_forall in *. intros x Hx. apply F. now apply in_map.
  - rewrite Forall_forall in *. intros y Hy. apply in_map_iff in Hy. destruct Hy as (x & <- & Hx). auto.
Qed.
Lemma product_one {A} (l : list A) : product [l] = map (fun x => [x]) l.
Proof. cbn [product]. induction l as [|x l IH]; [reflexivity|]. cbn [flat_map map app]. now f_equal. Qed.
Definition flatpm (s : pm) : Prop := exists d, Forall nf d /\ s = mk_pm d [].
Lemma ss_flatpm so p s : set_order so -> pok p -> groups p <> [] -> In s (pm_ss so p) -> flatpm s.
Proof.
  intros SO [[P1 P2] _] N Hs. rewrite pm_ss_groups in Hs by auto. destruct (traits_spec so (groups p) (constant p) SO N P2 P1) as (_ & _ & X). destruct (X s Hs) as (cs & d & K & D & _ & ->). exists d. split; [|reflexivity]. now apply (distinct_nf (groups p) cs (constant p)).
Qed.
Section Grid.
  Variable so : list script -> list script.
  Variable po : list path -> list path.
  Variable wl : word -> word -> bool.
  Hypothesis SO : set_order so.
  Hypothesis PO : forall l, Permutation (po l) l.
  Variable u : pm.
  Hypothesis G : pm_good u.
  Hypothesis NR : no_repetition u.
  Variable gi : gidx.
  Variable hrow : option gidx.
  Hypothesis Hi : groups_at u gi <> None.
  Hypothesis Hh : match hrow with Some h => groups_at u h <> None /\ h <> gi | None => True end.
  Definition restb (g : gidx) : bool := match hrow with Some h => (negb (gidx_eqb g gi) && negb (gidx_eqb g h))%bool | None => gidx_eqb g Constant end.
  Definition rows_at : option path := option_map (gpath u) hrow.
  Notation items_at l := (map (itm nobare (Ku u)) l).
  Lemma Hi_some : exists gr, groups_at u gi = Some gr. Proof. destruct (groups_at u gi) as [gr|]; [eauto|congruence]. Qed.
  Lemma gi_not : gi <> Constant. Proof. intros E. apply Hi. now rewrite E. Qed.
  Lemma h_not h : hrow = Some h -> h <> Constant. Proof. intros E ->. rewrite E in Hh. now apply (proj1 Hh). Qed.
  Lemma rest_C : restb Constant = true.
  Proof.
    unfold restb. pose proof gi_not. pose proof h_not as HN. destruct hrow as [h|] eqn:E; [|reflexivity]. specialize (HN h eq_refl). clear Hi Hh. destruct gi, h; try congruence; reflexivity.
  Qed.
  Lemma prefix_itm e h : h <> Constant -> has_prefix (fst (itm nobare (Ku u) e)) (Some (gpath u h)) = Ok (gidx_eqb (fst e) h).
  Proof.
    intros Hn. unfold itm, gpath. cbn [fst has_prefix]. unfold nobare. cbn [class_of pclass_eqb do_eq negb orb own_has_prefix opt_eqb]. rewrite andb_false_r. cbn [andb negb].
    destruct e as [g m]. cbn [fst]. destruct g, h; try congruence; cbn; rewrite ?Nat.eqb_refl; reflexivity.
  Qed.
  Lemma places_filter f : filter (fun e => f (fst e)) (places u (fun _ => true)) = places u f.
  Proof.
    unfold places. cbn [filter flat_map]. rewrite app_nil_r, !filter_app.
    assert (X : forall g, filter (fun e => f (fst e)) (map (pair g) (ms u g)) = if f g then map (pair g) (ms u g) else []).
    { intros g. destruct (f g) eqn:E; [apply filter_true|apply filter_none]; intros x Hx; apply in_map_iff in Hx; destruct Hx as (m & <- & _); exact E. }
    rewrite !X. destruct (f Constant), (f Group0), (f Group1), (f Group2); cbn [flat_map app]; rewrite ?app_nil_r; reflexivity.
  Qed.
  Lemma constant_paths_ok : constant_paths (UPm u) (gpath u gi) rows_at = Ok (items_at (places u restb)).
  Proof.
    unfold constant_paths. rewrite items_leaves. cbn [bind]. rewrite leaves_places.
    match goal with |- bind (mapM ?f ?l) _ = _ => destruct (keep_filter f (fun e => restb (g_of (fst e))) l) as (ks & E & F) end.
    - intros e He. apply in_map_iff in He. destruct He as (x & <- & Hx). pose proof gi_not as GN. pose proof h_not as HN. clear Hh. unfold rows_at, restb. destruct hrow as [h|] eqn:Eh; cbn [option_map].
      + rewrite prefix_itm by (now apply HN). cbn [bind]. change (g_of (fst (itm nobare (Ku u) x))) with (fst x). destruct (gidx_eqb (fst x) h); cbn [negb]; [now rewrite andb_false_r|]. rewrite prefix_itm by exact GN. cbn [bind]. now rewrite andb_true_r.
      + rewrite prefix_itm by exact GN. cbn [bind]. change (g_of (fst (itm nobare (Ku u) x))) with (fst x). cbn [itm fst is_constant_path]. destruct (gidx_eqb (fst x) Constant) eqn:Ex; [|now rewrite andb_false_r].
        apply gidx_eqb_eq in Ex. rewrite Ex. clear Hi. destruct gi; [congruence|reflexivity..].
    - rewrite E. cbn [bind]. rewrite F. f_equal. rewrite <- (places_filter restb). clear. induction (places u (fun _ => true)) as [|x l IH]; [reflexivity|]. cbn [map filter]. change (g_of (fst (itm nobare (Ku u) x))) with (fst x).
      destruct (restb (fst x)); cbn [map]; now rewrite IH.
  Qed.

  (** ** One group *)
  Definition one (g : gidx) : pm := mk_pm [] [(ms u g, Ku u g)].
  Lemma one_deref g gr : groups_at u g = Some gr -> element (gpath u g) (UPm u) = Ok (UPm (one g)) /\ gr = (ms u g, Ku u g).
  Proof.
    intros E. assert (X : gr = (ms u g, Ku u g)) by (unfold ms, Ku; rewrite E; destruct g; [discriminate|destruct gr; reflexivity..]). split; [|exact X].
    unfold element, gpath. cbn [deref deref_step bind]. unfold deref_poly. destruct g; [discriminate|..]; rewrite E; cbn [bind]; unfold one; rewrite <- X; reflexivity.
  Qed.
  Lemma one_leaves g : leaves (one g) = (PPoly Constant (Some (Null 0)) None None, Null 0) :: map (fun m => (PPoly Group0 (Some m) (Some (Ku u g)) None, m)) (isort (filter_empty (ms u g))).
  Proof. unfold leaves, one, mk_pm. cbn. rewrite app_nil_r. reflexivity. Qed.
  Lemma one_ok g : pok (one g) /\ groups (one g) <> [].
  Proof. split; [|discriminate]. apply mk_pm_ok; [constructor|]. constructor; [|constructor]. apply (ms_nf u G). Qed.
  Lemma one_in g m gr : In gr (groups (one g)) -> In m (fst gr) -> In m (ms u g).
  Proof. intros [<-|[]] Hm. cbn [fst] in Hm. apply (Permutation_in _ (sort_perm _ _)) in Hm. apply filter_In in Hm. tauto. Qed.
  Lemma one_choice g s : In s (pm_ss so (one g)) -> choice u (fun h => gidx_eqb h g) (constant s) /\ groups s = [].
  Proof.
    intros Hs. destruct (one_ok g) as [O N]. destruct (ss_spec so (one g) s SO O N Hs) as (H1 & H2 & H3 & H4). split; [|exact H1]. split; [exact H2|]. split.
    - apply (NoDup_map_filter H3).
    - intros m Hm. destruct H4 as [H4|[_ H4]]; [left; rewrite H4 in Hm; destruct Hm as [<-|[]]; reflexivity|]. right. destruct (H4 m Hm) as (E & [[<-|[]]|(gr & Hg & Hm')]); [discriminate|]. split; [exact E|].
      exists g, m. split; [now apply gidx_eqb_eq|]. split; [now apply (one_in g m gr)|reflexivity].
  Qed.
  Lemma one_in_or g s m : In s (pm_ss so (one g)) -> In m (constant s) -> m = Null 0 \/ In m (isort (filter_empty (ms u g))).
  Proof.
    intros Hs Hm. destruct (one_ok g) as [O N]. destruct (ss_spec so (one g) s SO O N Hs) as (H1 & H2 & H3 & H4).
    destruct H4 as [H4|[_ H4]]; [left; rewrite H4 in Hm; destruct Hm as [<-|[]]; reflexivity|]. right. destruct (H4 m Hm) as (E & [[<-|[]]|(gr & [<-|[]] & Hm')]); [discriminate|exact Hm'].
  Qed.
  Lemma flat_leaves s : groups s = [] -> leaves s = map (fun m => (PPoly Constant (Some m) None None, m)) (constant s).
  Proof. intros E. unfold leaves. cbn [flat_map groups_at]. rewrite E. cbn [nth_error]. now rewrite !app_nil_r. Qed.
  Lemma concat_one g q : g <> Constant -> q = PPoly Constant None None None \/ q = PPoly Group0 None (Some (Ku u g)) None -> concat (gpath u g) q false = Ok (gpath u g).
  Proof.
    intros Hg [-> | ->]; unfold gpath.
    - destruct g; [congruence|reflexivity..].
    - destruct g; [congruence|..]; cbn; rewrite ?Nat.eqb_refl; reflexivity.
  Qed.
  Definition col (s : pm) : list (path * script) := map (fun m => (gpath u gi, m)) (constant s).
  Lemma constants_col s : constants_of (col s) = Ok (items_at (map (pair Constant) (constant s))).
  Proof. unfold constants_of, col. induction (constant s) as [|m l IH]; [reflexivity|]. cbn [map]. rewrite mapM_step. cbn [fst snd gpath as_constant bind]. rewrite IH. reflexivity. Qed.
  Definition cellp (d : list script) : pm := mk_pm (constant u ++ d) (rest_groups u restb).
  Lemma rest_groups_ok : Forall gok (rest_groups u restb).
  Proof.
    apply Forall_forall. intros gr H. apply in_flat_map in H. destruct H as (g & Hg & H). destruct (groups_at u g) as [x|] eqn:E; [|destruct H]. destruct (restb g); [|destruct H]. destruct H as [<-|[]]. pose proof (ms_nf u G g) as F. unfold ms in F. rewrite E in F. destruct Hg as [<-|[<-|[<-|[]]]]; exact F.
  Qed.
  Lemma cellp_ok f d : choice u f d -> pok (cellp d).
  Proof. intros (F & _). apply mk_pm_ok; [|apply rest_groups_ok]. apply Forall_app. split; [apply (ms_nf u G Constant)|exact F]. Qed.
  Lemma columns_ok : exists S, Permutation S (pm_ss so (one gi)) /\ column_paths_variation so wl (UPm u) (gpath u gi) rows_at = Ok (map col S) /\ StronglySorted (fun s t => pm_lt (cellp (constant t)) (cellp (constant s)) = false) S.
  Proof.
    destruct Hi_some as (gr & E). destruct (one_deref gi gr E) as [D _]. unfold column_paths_variation. rewrite D. cbn [bind]. rewrite items_leaves, one_leaves. cbn [bind].
    set (k := Ku u gi). set (m0 := isort (filter_empty (ms u gi))). set (named := (Null 0, PPoly Constant None None None) :: map (fun m => (m, PPoly Group0 None (Some k) None)) m0).
    assert (E1 : mapM (fun e => do p <- without_morpheme (fst e); Ok (snd e, p)) ((PPoly Constant (Some (Null 0)) None None, Null 0) :: map (fun m => (PPoly Group0 (Some m) (Some k) None, m)) m0) = Ok named).
    { rewrite mapM_step. cbn [fst snd without_morpheme bind]. unfold named. clearbody m0. clear. assert (X : mapM (fun e => do p <- without_morpheme (fst e); Ok (snd e, p)) (map (fun m => (PPoly Group0 (Some m) (Some k) None, m)) m0) = Ok (map (fun m => (m, PPoly Group0 None (Some k) None)) m0)); [|now rewrite X].
      induction m0 as [|m l IH]; [reflexivity|]. cbn [map]. rewrite mapM_step. cbn [fst snd without_morpheme bind]. now rewrite IH. }
    rewrite E1. cbn [bind sequences usl_ss].
    assert (E2 : mapM (fun s => do its <- items s; mapM (fun e => do q <- last_of (snd e) named; do p <- concat (gpath u gi) q false; Ok (p, snd e)) its) (map UPm (pm_ss so (one gi))) = Ok (map col (pm_ss so (one gi)))).
    { assert (X : forall l, incl l (pm_ss so (one gi)) -> mapM (fun s => do its <- items s; mapM (fun e => do q <- last_of (snd e) named; do p <- concat (gpath u gi) q false; Ok (p, snd e)) its) (map UPm l) = Ok (map col l)); [|apply X, incl_refl].
      induction l as [|s l IH]; intros Hl; [reflexivity|]. cbn [map]. rewrite mapM_step, items_leaves. assert (Hs : In s (pm_ss so (one gi))) by (apply Hl; now left). destruct (one_choice gi s Hs) as [_ Es]. rewrite flat_leaves by auto. cbn [bind].
      assert (Y : forall d, incl d (constant s) -> mapM (fun e => do q <- last_of (snd e) named; do p <- concat (gpath u gi) q false; Ok (p, snd e)) (map (fun m => (PPoly Constant (Some m) None None, m)) d) = Ok (map (fun m => (gpath u gi, m)) d)).
      { induction d as [|m d IHd]; intros Hd; [reflexivity|]. cbn [map]. rewrite mapM_step. cbn [snd].
        destruct (last_of_in m named) as (e & He & Ee).
        { destruct (one_in_or gi s m Hs (Hd m (or_introl eq_refl))) as [->|Hm]; [exists (Null 0, PPoly Constant None None None); split; [now left|reflexivity]|].
          exists (m, PPoly Group0 None (Some k) None). split; [|reflexivity]. right. apply in_map_iff. eauto. }
        rewrite Ee. cbn [bind]. rewrite concat_one; [|apply gi_not|].
        - cbn [bind]. rewrite IHd by (intros x Hx; apply Hd; now right). reflexivity.
        - destruct He as [<-|He]; [now left|]. apply in_map_iff in He. destruct He as (x & <- & _). now right. }
      rewrite Y by apply incl_refl. cbn [bind]. rewrite IH by (intros x Hx; apply Hl; now right). reflexivity. }
    rewrite E2. cbn [bind].
    match goal with |- context [sort_by wl ?f ?l] => destruct (sort_keys wl f (fun x => cellp (map snd x)) l) as (l' & E3 & P & SS) end.
    - intros x Hx. apply in_map_iff in Hx. destruct Hx as (s & <- & Hs). rewrite constants_col. cbn [bind]. rewrite constant_paths_ok. cbn [bind]. rewrite <- map_app.
      destruct (one_choice gi s Hs) as [Cs _]. replace (map snd (col s)) with (constant s) by (unfold col; rewrite map_map; cbn; now rewrite map_id). split; [now apply (cellp_ok (fun h => gidx_eqb h gi))|].
      destruct (cell_ok so SO u G NR restb rest_C (fun h => gidx_eqb h gi) (constant s) (map (pair Constant) (constant s) ++ places u restb)) as (p & Ep & Po & _ & Tp).
      + exact Cs.
      + intros g Hg. apply gidx_eqb_eq in Hg. subst g. split; [apply gi_not|]. unfold restb. pose proof gi_not as GN. clear Hh. destruct hrow; [|clear Hi E D; destruct gi; congruence || reflexivity].
        assert (X : gidx_eqb gi gi = true) by (now apply gidx_eqb_eq). now rewrite X.
      + intros e. rewrite in_app_iff. tauto.
      + exists p. auto.
    - apply Permutation_map_inv in P. destruct P as (S & -> & P). exists S. split; [now apply Permutation_sym|]. split; [exact E3|]. apply (proj1 (sorted_map _ _ _)) in SS.
      refine (sorted_weaken _ _ (fun _ => True) _ _ _ SS); [now apply Forall_forall|]. intros x y _ _. unfold col. rewrite !map_map. cbn. now rewrite !map_id.
  Qed.

  (** ** The dimensions of the rows *)
  Definition has_group (g : gidx) : bool := match groups_at u g with Some _ => true | None => false end.
  Definition J : list gidx := match hrow with Some h => [h] | None => filter (fun g => (negb (gidx_eqb g gi) && has_group g)%bool) [Group0; Group1; Group2] end.
  Lemma J_in g : In g J <-> match hrow with Some h => g = h | None => g <> gi /\ has_group g = true end.
  Proof.
    unfold J. destruct hrow as [h|]; [cbn; intuition congruence|]. rewrite filter_In, andb_true_iff, negb_true_iff. split.
    - intros (_ & A & B). split; [|exact B]. intros ->. assert (X : gidx_eqb gi gi = true) by (now apply gidx_eqb_eq). congruence.
    - intros [A B]. split; [destruct g; cbn; auto; discriminate|]. split; [|exact B]. apply not_true_iff_false. intros X. apply gidx_eqb_eq in X. auto.
  Qed.
  Lemma J_ok g : In g J -> g <> Constant /\ g <> gi /\ exists gr, groups_at u g = Some gr.
  Proof.
    intros Hg. apply J_in in Hg. pose proof h_not as HN. destruct hrow as [h|].
    - subst g. split; [now apply HN|]. destruct Hh as [H1 H2]. split; [exact H2|]. destruct (groups_at u h); [eauto|congruence].
    - destruct Hg as [H1 H2]. unfold has_group in H2. split; [intros ->; discriminate|]. split; [exact H1|]. destruct (groups_at u g); [eauto|discriminate].
  Qed.
  Lemma J_nodup : NoDup J.
  Proof. unfold J. destruct hrow; [repeat constructor; intros []|]. apply NoDup_filter. repeat constructor; cbn; intuition discriminate. Qed.
  Lemma group_nonempty g gr : groups_at u g = Some gr -> ms u g <> [].
  Proof.
    intros E. assert (X : ms u g = fst gr) by (unfold ms; rewrite E; destruct g; [discriminate|reflexivity..]). rewrite X.
    destruct G as ((_ & (_ & _ & F)) & _). rewrite Forall_forall in F. apply F. now apply groups_at_in in E.
  Qed.
  Lemma mult_ok g gr : groups_at u g = Some gr -> 1 <= Ku u g < 10.
  Proof. intros E. unfold Ku. rewrite E. destruct G as (_ & _ & F & _). rewrite Forall_forall in F. apply F. now apply groups_at_in in E. Qed.
  Lemma card_one g gr : groups_at u g = Some gr -> List.length (pm_ss so (one g)) <> 1.
  Proof.
    intros E. pose proof (group_nonempty g gr E) as NE. pose proof (mult_ok g gr E) as MO. assert (GC : g <> Constant) by (intros ->; discriminate).
    destruct (ms u g) as [|m l] eqn:Em; [congruence|]. assert (Hm : In m (ms u g)) by (rewrite Em; now left). pose proof (ms_full u G g m GC Hm) as Fm.
    assert (Nm : nf m) by (pose proof (ms_nf u G g) as F; rewrite Forall_forall in F; auto).
    destruct (one_ok g) as [[[O1 O2] _] N]. rewrite pm_ss_groups by auto. destruct (traits_spec so (groups (one g)) (constant (one g)) SO N O2 O1) as (X1 & X2 & _).
    assert (Nn : nf (Null 0)) by (split; [cbn; lia|discriminate]).
    assert (A : In (pm_str (mk_pm [Null 0] [])) (map pm_str (traits so (groups (one g)) (constant (one g))))).
    { apply X2. exists [[]]. split.
      - exists 0. split; [repeat constructor; cbn; lia|]. repeat constructor.
      - exists [Null 0]. split; [|split; [cbn; lia|reflexivity]]. split; [repeat constructor; intros []|]. split; [intros x Hx; exact Hx|]. intros x [<-|[]]. now left. }
    assert (B : In (pm_str (mk_pm [m; Null 0] [])) (map pm_str (traits so (groups (one g)) (constant (one g))))).
    { apply X2. exists [[m]]. split.
      - exists 0. split; [repeat constructor; cbn; lia|]. constructor; [|constructor]. cbn [fst snd]. split.
        + apply subseq_one. apply (Permutation_in _ (Permutation_sym (sort_perm _ _))). apply filter_In. rewrite Em. split; [now left|]. now rewrite Fm.
        + right. split; [reflexivity|]. left. lia.
      - exists [m; Null 0]. split; [|split; [cbn; lia|reflexivity]]. split.
        + constructor; [|repeat constructor; intros []]. intros [H|[]]. assert (is_empty m = true) by (rewrite <- (is_empty_str (Null 0) m); auto using nf_wf). congruence.
        + split; [intros x Hx; exact Hx|]. intros x [<-|[<-|[]]]; [now left|right; now left]. }
    intros L. destruct (traits so (groups (one g)) (constant (one g))) as [|x [|]] eqn:Et; try discriminate. cbn [map In] in A, B. destruct A as [A|[]], B as [B|[]]. rewrite A in B.
    apply pm_str_key in B; [|apply mk_pm_ok; auto..]. unfold pkey in B. injection B as B. cbn [mk_pm constant filter_empty filter] in B. rewrite Fm in B. cbn in B. injection B as B.
    assert (is_empty m = true) by (rewrite <- (is_empty_str (Null 0) m); auto using nf_wf). congruence.
  Qed.
  Lemma size_one g gr : groups_at u g = Some gr -> exists n, size so (UPm (one g)) = Ok n /\ Nat.eqb n 1 = false.
  Proof.
    intros E. unfold size, sequences. cbn [usl_ss bind]. eexists. split; [reflexivity|]. rewrite map_length. apply Nat.eqb_neq. now apply (card_one g gr).
  Qed.
  Lemma ms_group g : ms u g <> [] -> g <> Constant -> exists gr, groups_at u g = Some gr.
  Proof. intros H Hg. unfold ms in H. destruct g; [congruence|..]; match type of H with context [groups_at u ?g] => destruct (groups_at u g) end; eauto; congruence. Qed.
  Lemma dimensions_ok : exists dims, dimensions so (UPm u) (gpath u gi) rows_at = Ok dims /\
    (forall e, In e dims -> snd e = true /\ exists g, In g J /\ fst e = gpath u g) /\ (forall g, In g J -> In (gpath u g, true) dims).
  Proof.
    unfold dimensions, rows_at. pose proof J_in as JI. pose proof J_ok as JO. pose proof gi_not as GN. destruct hrow as [h|] eqn:Eh; cbn [option_map].
    - destruct (JO h) as (Hc & Hg & gr & Eg); [now apply JI|]. destruct (one_deref h gr Eg) as [D _]. rewrite D. cbn [bind]. rewrite items_leaves, one_leaves. cbn [bind].
      destruct (size_one h gr Eg) as (n & En & Nn).
      assert (X : forall e g0, In g0 [PPoly Constant None None None; PPoly Group0 None (Some (Ku u h)) None] -> without_morpheme (fst e) = Ok g0 ->
        (do p <- without_morpheme (fst (e : path * script)); do p <- concat (gpath u h) p false; do y <- element p (UPm u); do n <- size so y; Ok (p, negb (Nat.eqb n 1))) = Ok (gpath u h, true)).
      { intros e g0 Hg0 We. rewrite We. cbn [bind]. rewrite concat_one; [|exact Hc|destruct Hg0 as [<-|[<-|[]]]; auto]. cbn [bind]. rewrite D. cbn [bind]. rewrite En. cbn [bind]. now rewrite Nn. }
      rewrite mapM_step, (X _ (PPoly Constant None None None)); [|now left|reflexivity]. cbn [bind].
      assert (Y : forall l, mapM (fun e => do p <- without_morpheme (fst e); do p <- concat (gpath u h) p false; do y <- element p (UPm u); do n <- size so y; Ok (p, negb (Nat.eqb n 1))) (map (fun m => (PPoly Group0 (Some m) (Some (Ku u h)) None, m)) l) = Ok (map (fun _ => (gpath u h, true)) l)).
      { induction l as [|m l IH]; [reflexivity|]. cbn [map]. rewrite mapM_step, (X _ (PPoly Group0 None (Some (Ku u h)) None)); [|right; now left|reflexivity]. cbn [bind]. now rewrite IH. }
      rewrite Y. cbn [bind]. eexists. split; [reflexivity|]. split.
      + intros e [<-|He]; [|apply in_map_iff in He; destruct He as (x & <- & _)]; (split; [reflexivity|]); exists h; (split; [now apply JI|reflexivity]).
      + intros g Hg'. apply JI in Hg'. subst g. now left.
    - rewrite items_leaves. cbn [bind]. rewrite leaves_places.
      assert (X : forall e, In e (places u (fun _ => true)) ->
        (do p <- without_morpheme (fst (itm nobare (Ku u) e)); do b <- has_prefix p (Some (gpath u gi)); if b then Ok [] else do y <- element p (UPm u); do n <- size so y; if Nat.eqb n 1 then Ok [] else do p <- without_morpheme p; Ok [(p, true)])
        = Ok (if (gidx_eqb (fst e) gi || gidx_eqb (fst e) Constant)%bool then [] else [(gpath u (fst e), true)])).
      { intros [g m] He. apply places_in in He. destruct He as [_ He]. unfold itm. cbn [fst snd without_morpheme bind]. destruct (gidx_eqb g gi) eqn:Egi.
        - apply gidx_eqb_eq in Egi. subst g. cbn [orb]. assert (P1 : has_prefix (PPoly gi None (match gi with Constant => None | _ => Some (Ku u gi) end) None) (Some (gpath u gi)) = Ok true) by (clear - GN; destruct gi; [congruence|..]; cbn; rewrite Nat.eqb_refl; reflexivity).
          replace (match gi with Constant => None | Group0 => Some (Ku u Group0) | Group1 => Some (Ku u Group1) | Group2 => Some (Ku u Group2) end) with (match gi with Constant => None | _ => Some (Ku u gi) end) by (destruct gi; reflexivity). rewrite P1. reflexivity.
        - assert (P1 : has_prefix (PPoly g None (match g with Constant => None | Group0 => Some (Ku u Group0) | Group1 => Some (Ku u Group1) | Group2 => Some (Ku u Group2) end) None) (Some (gpath u gi)) = Ok false).
          { clear - Egi. unfold gpath. cbn [has_prefix class_of pclass_eqb do_eq negb orb opt_eqb own_has_prefix]. rewrite Egi. reflexivity. }
          rewrite P1. cbn [bind orb]. destruct (gidx_eqb g Constant) eqn:Egc.
          + apply gidx_eqb_eq in Egc. subst g. reflexivity.
          + assert (Hc : g <> Constant) by (intros ->; discriminate). destruct (ms_group g) as (gr & Eg); [intros X; rewrite X in He; destruct He|exact Hc|]. destruct (one_deref g gr Eg) as [D _]. destruct (size_one g gr Eg) as (n & En & Nn).
            assert (Pth : PPoly g None (match g with Constant => None | Group0 => Some (Ku u Group0) | Group1 => Some (Ku u Group1) | Group2 => Some (Ku u Group2) end) None = gpath u g) by (destruct g; [congruence|reflexivity..]).
            rewrite Pth, D. cbn [bind]. rewrite En. cbn [bind]. rewrite Nn. reflexivity. }
      assert (Y : forall l, incl l (places u (fun _ => true)) -> mapM (fun e => do p <- without_morpheme (fst e); do b <- has_prefix p (Some (gpath u gi)); if b then Ok [] else do y <- element p (UPm u); do n <- size so y; if Nat.eqb n 1 then Ok [] else do p <- without_morpheme p; Ok [(p, true)]) (items_at l)
        = Ok (map (fun e : gidx * script => if (gidx_eqb (fst e) gi || gidx_eqb (fst e) Constant)%bool then [] else [(gpath u (fst e), true)]) l)).
      { induction l as [|e l IH]; intros Hl; [reflexivity|]. cbn [map]. rewrite mapM_step, X by (apply Hl; now left). cbn [bind]. rewrite IH by (intros x Hx; apply Hl; now right). reflexivity. }
      rewrite Y by apply incl_refl. cbn [bind]. eexists. split; [reflexivity|]. rewrite <- flat_map_concat_map. split.
      + intros e He. apply in_flat_map in He. destruct He as ([g m] & Hm & He). cbn [fst] in He. destruct (gidx_eqb g gi) eqn:E1; [destruct He|]. destruct (gidx_eqb g Constant) eqn:E2; [destruct He|]. destruct He as [<-|[]]. split; [reflexivity|]. exists g. split; [|reflexivity].
        apply JI. apply places_in in Hm. destruct Hm as [_ Hm]. split; [intros ->; assert (Z : gidx_eqb gi gi = true) by (now apply gidx_eqb_eq); congruence|].
        destruct (ms_group g) as (gr & Eg); [intros Z; rewrite Z in Hm; destruct Hm|intros ->; discriminate|]. unfold has_group. now rewrite Eg.
      + intros g Hg. destruct (JO g Hg) as (Hc & Hgi & gr & Eg). pose proof (group_nonempty g gr Eg) as NE. destruct (ms u g) as [|m l] eqn:Em; [congruence|]. apply in_flat_map. exists (g, m). split; [apply places_in; rewrite Em; split; [reflexivity|now left]|].
        cbn [fst]. assert (E1 : gidx_eqb g gi = false) by (apply not_true_iff_false; intros Z; apply gidx_eqb_eq in Z; auto). assert (E2 : gidx_eqb g Constant = false) by (apply not_true_iff_false; intros Z; apply gidx_eqb_eq in Z; auto). rewrite E1, E2. now left.
  Qed.
  Lemma gpath_g g : g_of (gpath u g) = g. Proof. reflexivity. Qed.
  Lemma dims_spec dims : (forall e, In e dims -> snd e = true /\ exists g, In g J /\ fst e = gpath u g) -> (forall g, In g J -> In (gpath u g, true) dims) ->
    dims_of po false dims = [] /\ exists J', Permutation J' J /\ dims_of po true dims = map (gpath u) J'.
  Proof.
    intros H1 H2. unfold dims_of. split.
    - rewrite (filter_none (fun e => Bool.eqb (snd e) false)); [|intros e He; destruct (H1 e He) as [-> _]; reflexivity]. cbn [map]. apply Permutation_nil. apply Permutation_sym, (PO []).
    - rewrite (filter_true (fun e => Bool.eqb (snd e) true)); [|intros e He; destruct (H1 e He) as [-> _]; reflexivity].
      set (L := po (dedup path_eqb (map fst dims))). assert (P : Permutation L (dedup path_eqb (map fst dims))) by apply PO.
      assert (M : forall p, In p L -> exists g, In g J /\ p = gpath u g).
      { intros p Hp. apply (Permutation_in _ P) in Hp. apply dedup_in in Hp. apply in_map_iff in Hp. destruct Hp as (e & <- & He). destruct (H1 e He) as (_ & g & Hg & E). eauto. }
      assert (N : NoDup L).
      { eapply Permutation_NoDup; [apply Permutation_sym; exact P|]. pose proof (SortProofs.dedup_distinct path_eqb path_sym (map fst dims)) as D. clear - D. induction D as [|x l Hx D IH]; constructor; [|exact IH]. intros H. rewrite Forall_forall in Hx. specialize (Hx x H). unfold path_eqb in Hx. rewrite String.eqb_refl in Hx. discriminate. }
      assert (E : L = map (gpath u) (map g_of L)).
      { rewrite map_map. rewrite <- (map_id L) at 1. apply map_ext_in. intros p Hp. destruct (M p Hp) as (g & _ & ->). reflexivity. }
      exists (map g_of L). split; [|exact E]. apply NoDup_Permutation; [|apply J_nodup|].
      + rewrite E in N. apply NoDup_map_inv in N. exact N.
      + intros g. split.
        * intros Hg. apply in_map_iff in Hg. destruct Hg as (p & <- & Hp). destruct (M p Hp) as (h & Hh' & ->). exact Hh'.
        * intros Hg. assert (Hd : In (gpath u g) (map fst dims)) by (change (gpath u g) with (fst (gpath u g, true)); apply in_map; auto).
          destruct (SortProofs.dedup_complete path_eqb path_refl (map fst dims) _ Hd) as (p & Hp & Ep). apply (Permutation_in _ (Permutation_sym P)) in Hp. apply in_map_iff. exists p. split; [|exact Hp].
          destruct (M p Hp) as (h & Hh' & ->). cbn [g_of]. unfold path_eqb in Ep. apply String.eqb_eq in Ep.
          destruct (J_ok g Hg) as (Hc & _ & gr & Eg), (J_ok h Hh') as (Hc' & _ & gr' & Eg'). symmetry.
          apply (f_equal (fun t => q_path (erase (plex 0 t)))) in Ep. rewrite !raw0_ok in Ep by (apply proper_place; constructor; exact Logic.I). clear Hg Hh' Eg Eg' Hd Hp. destruct g, h; try congruence; try reflexivity; discriminate Ep.
  Qed.
  Definition bv (g : gidx) : list (gidx * script) := (g, Null 0) :: map (pair g) (isort (filter_empty (ms u g))).
  Definition barec (g : gidx) : bool := negb (gidx_eqb g Constant).
  Notation bare_at l := (map (itm barec (Ku u)) l).
  Lemma bv_leaves g : g <> Constant -> map (fun e => (gpath u g, snd e)) (leaves (one g)) = bare_at (bv g).
  Proof.
    intros Hg. rewrite one_leaves. unfold bv. cbn [map snd]. rewrite !map_map. cbn [snd]. assert (X : forall m, (gpath u g, m) = itm barec (Ku u) (g, m)) by (intros m; destruct g; [congruence|reflexivity..]).
    rewrite X. f_equal. apply map_ext. exact X.
  Qed.
  Lemma by_pm_more ds v : (forall g, In g ds -> In g J) -> by_pm (UPm u) [(PUsl None, v)] (map (gpath u) ds) = Ok [(PUsl None, v ++ bare_at (flat_map bv ds))%list].
  Proof.
    revert v. induction ds as [|g ds IH]; intros v H; [cbn; now rewrite app_nil_r|]. cbn [map by_pm]. unfold gpath at 1 2 3. cbn [split_tail bind]. destruct (J_ok g) as (Hc & _ & gr & Eg); [apply H; now left|].
    destruct (one_deref g gr Eg) as [D _]. fold (gpath u g). rewrite D. cbn [bind]. rewrite items_leaves. cbn [bind]. rewrite bv_leaves by auto. cbn [extend]. change (path_eqb (PUsl None) (PUsl None)) with true. cbn [flat_map]. rewrite IH by (intros x Hx; apply H; now right).
    rewrite map_app, app_assoc. reflexivity.
  Qed.
  Lemma by_pm_ok ds : (forall g, In g ds -> In g J) -> by_pm (UPm u) [] (map (gpath u) ds) = Ok (match ds with [] => [] | _ => [(PUsl None, bare_at (flat_map bv ds))] end).
  Proof.
    destruct ds as [|g ds]; intros H; [reflexivity|]. cbn [map by_pm]. unfold gpath at 1 2 3. cbn [split_tail bind]. destruct (J_ok g) as (Hc & _ & gr & Eg); [apply H; now left|].
    destruct (one_deref g gr Eg) as [D _]. fold (gpath u g). rewrite D. cbn [bind]. rewrite items_leaves. cbn [bind]. rewrite bv_leaves by auto. cbn [extend]. cbn [flat_map]. rewrite by_pm_more by (intros x Hx; apply H; now right).
    rewrite map_app. reflexivity.
  Qed.

  (** ** The rows *)
  Definition inJ (g : gidx) : bool := existsb (gidx_eqb g) J.
  Lemma inJ_in g : inJ g = true <-> In g J.
  Proof. unfold inJ. rewrite existsb_exists. split; [intros (x & Hx & E); apply gidx_eqb_eq in E; now subst|]. intros H. exists g. split; [exact H|now apply gidx_eqb_eq]. Qed.
  Definition row_groups : list group := flat_map (fun g => match groups_at u g with Some gr => if inJ g then [gr] else [] | None => [] end) [Group0; Group1; Group2].
  Definition rowpm : pm := mk_pm [] row_groups.
  Lemma group_eq g gr : groups_at u g = Some gr -> gr = (ms u g, Ku u g).
  Proof. intros E. unfold ms, Ku. rewrite E. destruct g; [discriminate|destruct gr; reflexivity..]. Qed.
  Lemma row_groups_in gr : In gr row_groups -> exists g, In g J /\ gr = (ms u g, Ku u g).
  Proof.
    intros H. apply in_flat_map in H. destruct H as (g & _ & H). destruct (groups_at u g) as [x|] eqn:E; [|destruct H]. destruct (inJ g) eqn:Ej; [|destruct H]. destruct H as [<-|[]]. exists g. split; [now apply inJ_in|]. now apply group_eq.
  Qed.
  Lemma row_groups_ok : Forall gok row_groups.
  Proof. apply Forall_forall. intros gr H. apply row_groups_in in H. destruct H as (g & _ & ->). apply (ms_nf u G). Qed.
  Lemma rowpm_ok : pok rowpm. Proof. apply mk_pm_ok; [constructor|apply row_groups_ok]. Qed.
  Lemma nodup_full g : g <> Constant -> filter_empty (ms u g) = ms u g.
  Proof. intros Hg. apply filter_true. intros m Hm. apply negb_true_iff. now apply (ms_full u G g). Qed.
  Lemma row_pm_ok J' : Permutation J' J -> J' <> [] -> exists p, usl_of_list so (bare_at (flat_map bv J')) = Ok (UPm p) /\ pok p /\ pm_str p = pm_str rowpm.
  Proof.
    intros P NE. set (T := fun g => if inJ g then ms u g else []). set (l := flat_map bv J').
    assert (Jn : forall g, In g J' <-> inJ g = true).
    { intros g. rewrite inJ_in. split; apply Permutation_in; [exact P|now apply Permutation_sym]. }
    assert (Ml : forall g m, In (g, m) l <-> inJ g = true /\ (m = Null 0 \/ In m (isort (filter_empty (ms u g))))).
    { intros g m. unfold l. rewrite in_flat_map. split.
      - intros (h & Hh' & H). unfold bv in H. destruct H as [H|H]; [injection H as -> <-; split; [now apply Jn|now left]|]. apply in_map_iff in H. destruct H as (x & E & Hx). injection E as -> ->. split; [now apply Jn|now right].
      - intros (Hj & H). exists g. split; [now apply Jn|]. unfold bv. destruct H as [->|H]; [now left|right; now apply in_map]. }
    assert (Mi : forall g m, In m (isort (filter_empty (ms u g))) <-> In m (ms u g) /\ is_empty m = false).
    { intros g m. split; [intros H; apply (Permutation_in _ (sort_perm _ _)) in H; now apply filter_empty_in|]. intros H. apply (Permutation_in _ (Permutation_sym (sort_perm _ _))). now apply filter_empty_in. }
    assert (Jc : forall g, inJ g = true -> g <> Constant /\ exists gr, groups_at u g = Some gr) by (intros g Hg; apply inJ_in, J_ok in Hg; tauto).
    destruct (build_poly so SO barec (Ku u) T l) as (p & E & Po & _ & Ep).
    - reflexivity.
    - unfold l. destruct J'; [congruence|discriminate].
    - apply Forall_forall. intros [g m] Hm. apply Ml in Hm. destruct Hm as [Hj Hm]. destruct (Jc g Hj) as (Hc & gr & Eg). unfold place_ok. cbn [fst snd]. split; [|split; [|intros _; now apply (mult_ok g gr)]].
      + destruct Hm as [->|Hm]; [split; [cbn; lia|discriminate]|]. apply Mi in Hm. pose proof (ms_nf u G g) as F. rewrite Forall_forall in F. apply F. tauto.
      + destruct Hm as [->|Hm]; [reflexivity|]. apply Mi in Hm. apply (ms_old u G g). tauto.
    - intros g. unfold T. split; [destruct (inJ g); [apply (ms_nf u G)|constructor]|]. split; [destruct (inJ g); [apply NoDup_map_filter, (ms_nodup u G NR)|constructor]|].
      intros t. rewrite ivals_in, in_map_iff. split.
      + intros (m & <- & Hm). apply filter_empty_in in Hm. destruct Hm as [Hm Em]. exists m. destruct (inJ g) eqn:Ej; [|destruct Hm]. split; [|auto]. apply Ml. split; [exact Ej|]. right. now apply Mi.
      + intros (m & Hm & Em & <-). exists m. split; [reflexivity|]. apply filter_empty_in. split; [|exact Em]. apply Ml in Hm. destruct Hm as [-> [->|Hm]]; [discriminate|]. apply Mi in Hm. tauto.
    - exists p. split; [exact E|]. split; [exact Po|]. rewrite Ep. unfold made_of, rowpm. assert (TC : T Constant = []). { unfold T. destruct (inJ Constant) eqn:X; [|reflexivity]. apply Jc in X. destruct X as [X _]. congruence. }
      rewrite TC. f_equal. f_equal. unfold row_groups.
      assert (X : forall ls, flat_map (fun g => if present g l then [(T g, Ku u g)] else []) ls = flat_map (fun g => match groups_at u g with Some gr => if inJ g then [gr] else [] | None => [] end) ls).
      { induction ls as [|g ls IH]; [reflexivity|]. cbn [flat_map]. rewrite IH. f_equal. assert (Pr : present g l = inJ g).
        { apply eq_true_iff_eq. unfold present. rewrite existsb_exists. split.
          - intros ([h m] & Hm & Eh). apply gidx_eqb_eq in Eh. cbn in Eh. subst h. now apply Ml in Hm.
          - intros Hj. exists (g, Null 0). split; [apply Ml; auto|unfold at_i; now apply gidx_eqb_eq]. }
        rewrite Pr. unfold T. destruct (inJ g) eqn:Ej; [|destruct (groups_at u g); reflexivity]. destruct (Jc g Ej) as (_ & gr & Eg). rewrite Eg. now rewrite (group_eq g gr Eg). }
      apply X.
  Qed.
  Lemma mapM_F2_ok {A B} (f : A -> res B) (R : A -> B -> Prop) l : (forall x, In x l -> exists y, f x = Ok y /\ R x y) -> exists ys, mapM f l = Ok ys /\ Forall2 R l ys.
  Proof.
    induction l as [|x l IH]; intros H; [exists []; split; [reflexivity|constructor]|]. destruct (H x (or_introl eq_refl)) as (y & Ey & Ry). destruct IH as (ys & Eys & Rys); [intros z Hz; apply H; now right|].
    exists (y :: ys). rewrite mapM_step, Ey. cbn [bind]. rewrite Eys. split; [reflexivity|now constructor].
  Qed.
  Lemma row_choice p s : pok p -> pm_str p = pm_str rowpm -> groups p <> [] -> In s (pm_ss so p) -> choice u inJ (constant s) /\ groups s = [] /\ constant s <> [] /\
    (forall m, In m (constant s) -> m = Null 0 \/ exists g m', In g J /\ In m' (isort (filter_empty (ms u g))) /\ str m' = str m).
  Proof.
    intros Po Ep N Hs. destruct (ss_spec so p s SO Po N Hs) as (H1 & H2 & H3 & H4). apply pm_str_key in Ep; [|exact Po|apply rowpm_ok]. unfold pkey in Ep. assert (Ec : map str (constant p) = map str (constant rowpm)) by congruence. assert (Eg : map gkey (groups p) = map gkey (groups rowpm)) by congruence. clear Ep.
    assert (X : forall m, In m (constant s) -> m = Null 0 \/ (is_empty m = false /\ exists g m', In g J /\ In m' (isort (filter_empty (ms u g))) /\ str m' = str m)).
    { intros m Hm. destruct H4 as [H4|[_ H4]]; [left; rewrite H4 in Hm; destruct Hm as [<-|[]]; reflexivity|]. right. destruct (H4 m Hm) as (Em & [Hc|(gr & Hg & Hmg)]); (split; [exact Em|]).
      - exfalso. change (map str (constant rowpm)) with ["E:"] in Ec. destruct (constant p) as [|c [|]] eqn:Ecp; try discriminate. destruct Hc as [->|[]]. injection Ec as Ec. destruct Po as [[Po1 _] _]. rewrite Ecp in Po1. inversion Po1; subst.
        assert (is_empty m = true) by (rewrite <- (is_empty_str (Null 0) m); auto using nf_wf; cbn; lia). congruence.
      - apply (in_map gkey) in Hg. rewrite Eg in Hg. apply in_map_iff in Hg. destruct Hg as (gr' & Egr & Hg'). unfold gkey in Egr. injection Egr as Egr _. apply (in_map str) in Hmg. rewrite <- Egr in Hmg. apply in_map_iff in Hmg. destruct Hmg as (m' & Em' & Hm').
        cbn [groups rowpm mk_pm] in Hg'. apply (Permutation_in _ (sort_perm _ _)) in Hg'. apply in_map_iff in Hg'. destruct Hg' as (gr0 & <- & Hg0). apply row_groups_in in Hg0. destruct Hg0 as (g & HgJ & ->). exists g, m'. auto. }
    split; [|split; [exact H1|split]].
    - split; [exact H2|]. split; [now apply NoDup_map_filter|]. intros m Hm. destruct (X m Hm) as [->|(Em & g & m' & Hg & Hm' & E)]; [now left|]. right. split; [exact Em|]. exists g, m'. split; [now apply inJ_in|]. split; [|exact E].
      apply (Permutation_in _ (sort_perm _ _)) in Hm'. apply filter_empty_in in Hm'. tauto.
    - destruct H4 as [H4|[H4 _]]; [rewrite H4; discriminate|exact H4].
    - intros m Hm. destruct (X m Hm) as [->|(_ & Y)]; auto.
  Qed.
  Lemma variations_ok J' : Permutation J' J -> J' <> [] -> exists p vs, variations_of so (PUsl None, bare_at (flat_map bv J')) = Ok vs /\ pok p /\ pm_str p = pm_str rowpm /\ groups p <> [] /\
    Forall2 (fun s v => map snd v = map UScript (constant s) /\ Forall (fun e => exists h, fst e = gpath u h) v) (pm_ss so p) vs.
  Proof.
    intros P NE. destruct (row_pm_ok J' P NE) as (p & E & Po & Ep). unfold variations_of. rewrite E. cbn [bind sequences usl_ss].
    assert (N : groups p <> []).
    { intros X. apply pm_str_key in Ep; [|exact Po|apply rowpm_ok]. unfold pkey in Ep. assert (Eg : map gkey (groups p) = map gkey (groups rowpm)) by congruence. rewrite X in Eg. symmetry in Eg. apply map_eq_nil in Eg.
      assert (Y : row_groups = []). { cbn [groups rowpm mk_pm] in Eg. pose proof (sort_perm group_lt (map (fun g : list script * nat => (isort (filter_empty (fst g)), snd g)) row_groups)) as Pg. match type of Pg with Permutation ?a _ => assert (Z : a = []) by exact Eg end. rewrite Z in Pg. apply Permutation_nil in Pg. now apply map_eq_nil in Pg. }
      destruct J' as [|g J']; [congruence|]. assert (Hg : In g J) by (eapply Permutation_in; [exact P|now left]). destruct (J_ok g Hg) as (Hc & _ & gr & Egr).
      assert (In gr row_groups); [|rewrite Y in *; auto]. apply in_flat_map. exists g. split; [destruct g; [congruence|cbn; auto..]|]. rewrite Egr. apply inJ_in in Hg. rewrite Hg. now left. }
    exists p. set (v := bare_at (flat_map bv J')).
    assert (L : forall m, (m = Null 0 \/ exists g m', In g J /\ In m' (isort (filter_empty (ms u g))) /\ str m' = str m) -> exists h, last_of m (map (fun e => (snd e, fst e)) v) = Ok (gpath u h)).
    { intros m Hm. destruct (last_of_in m (map (fun e => (snd e, fst e)) v)) as (e & He & Ee).
      - assert (Y : forall g x, In g J -> In (g, x) (bv g) -> In (x, gpath u g) (map (fun e => (snd e, fst e)) v)).
        { intros g x Hg Hx. apply in_map_iff. exists (itm barec (Ku u) (g, x)). split; [cbn; f_equal; destruct (J_ok g Hg) as (Hc & _); destruct g; [congruence|reflexivity..]|]. apply in_map. apply in_flat_map. exists g. split; [|exact Hx].
          apply (Permutation_in _ (Permutation_sym P)). exact Hg. }
        destruct Hm as [->|(g & m' & Hg & Hm' & Em)].
        + destruct J' as [|g J']; [congruence|]. exists (Null 0, gpath u g). split; [|reflexivity]. apply Y; [eapply Permutation_in; [exact P|now left]|now left].
        + exists (m', gpath u g). split; [|exact Em]. apply Y; [exact Hg|]. right. now apply in_map.
      - rewrite Ee. apply in_map_iff in He. destruct He as (e' & <- & He'). apply in_map_iff in He'. destruct He' as ([g x] & <- & Hx). exists g. cbn [snd fst itm]. apply in_flat_map in Hx. destruct Hx as (h & Hh' & Hx).
        assert (g = h) by (destruct Hx as [Hx|Hx]; [congruence|apply in_map_iff in Hx; destruct Hx as (y & Ey & _); congruence]). subst h.
        assert (Hg : In g J) by (eapply Permutation_in; [exact P|exact Hh']). destruct (J_ok g Hg) as (Hc & _). destruct g; [congruence|reflexivity..]. }
    match goal with |- context [mapM ?f (map UPm ?l)] => destruct (mapM_F2_ok f (fun x v => exists s, x = UPm s /\ map snd v = map UScript (constant s) /\ Forall (fun e => exists h, fst e = gpath u h) v) (map UPm l)) as (vs & Ev & Fv) end.
    - intros x Hx. apply in_map_iff in Hx. destruct Hx as (s & <- & Hs). destruct (row_choice p s Po Ep N Hs) as (_ & Gs & _ & Ms). rewrite items_leaves, flat_leaves by exact Gs. cbn [bind].
      assert (Y : forall d, incl d (constant s) -> exists y, mapM (fun e => do q <- last_of (snd e) (map (fun e => (snd e, fst e)) v); do p <- concat (PUsl None) q false; Ok (p, UScript (snd e))) (map (fun m => (PPoly Constant (Some m) None None, m)) d) = Ok y /\ map snd y = map UScript d /\ Forall (fun e => exists h, fst e = gpath u h) y).
      { induction d as [|m d IH]; intros Hd; [exists []; split; [reflexivity|split; [reflexivity|constructor]]|]. destruct IH as (y & Ey & My & Fy); [intros z Hz; apply Hd; now right|]. destruct (L m (Ms m (Hd m (or_introl eq_refl)))) as (h & Lh).
        exists ((gpath u h, UScript m) :: y). cbn [map]. rewrite mapM_step, Ey. cbn [snd]. rewrite Lh. split; [reflexivity|]. split; [cbn; now rewrite My|]. constructor; [now exists h|exact Fy]. }
      destruct (Y (constant s) (incl_refl _)) as (y & Ey & My & Fy). exists y. split; [exact Ey|]. exists s. auto.
    - exists vs. split; [exact Ev|]. split; [exact Po|]. split; [exact Ep|]. split; [exact N|]. clear - Fv. remember (map UPm (pm_ss so p)) as l eqn:El. revert El. generalize (pm_ss so p). induction Fv as [|x y l vs (s & -> & A & B) Fv IH]; intros [|s' ss] El; try discriminate; constructor.
      + injection El as <- _. auto.
      + apply IH. now injection El.
  Qed.
  Definition row_parts (s : pm) : list script := match J with [] => [] | _ => constant s end.
  Definition row (s : pm) : list (path * script) := items_at (map (pair Constant) (row_parts s)).
  Lemma inJ_rest g : inJ g = true -> g <> Constant /\ restb g = false.
  Proof.
    intros Hg. apply inJ_in in Hg. destruct (J_ok g Hg) as (Hc & _). split; [exact Hc|]. apply J_in in Hg. unfold restb. clear Hh. destruct hrow as [h|]; [|destruct g; congruence || reflexivity].
    subst g. assert (X : gidx_eqb h h = true) by (now apply gidx_eqb_eq). rewrite X. apply andb_false_r.
  Qed.
  Lemma as_constant_row d : mapM (fun e => do p <- as_constant (fst e) None; Ok (p, snd e)) (items_at (map (pair Constant) d)) = Ok (items_at (map (pair Constant) d)).
  Proof. induction d as [|m d IH]; [reflexivity|]. cbn [map]. rewrite mapM_step, IH. reflexivity. Qed.
  Lemma constants_row d : constants_of (items_at (map (pair Constant) d)) = Ok (items_at (map (pair Constant) d)).
  Proof. unfold constants_of. induction d as [|m d IH]; [reflexivity|]. cbn [map]. rewrite mapM_step, IH. reflexivity. Qed.
  Lemma row_items v d : map snd v = map UScript d -> Forall (fun e => exists h, fst e = gpath u h) v ->
    exists l, mapM (fun e : path * usl => do its <- items (snd e); mapM (fun i => do p <- concat (fst e) (fst i) false; do p <- as_constant p (Some (snd i)); Ok (p, snd i)) its) v = Ok l /\ List.concat l = items_at (map (pair Constant) d).
  Proof.
    revert d. induction v as [|[q x] v IH]; intros [|m d] E F; try discriminate; [exists []; split; reflexivity|]. cbn [map snd] in E. injection E as -> E. apply Forall_cons_iff in F. destruct F as [(h & Eh) F]. cbn [fst] in Eh. subst q. destruct (IH d E F) as (l & El & Ll).
    rewrite mapM_step, El. eexists. split; [reflexivity|]. cbn [List.concat map app]. rewrite Ll. reflexivity.
  Qed.
  Lemma rows_ok : exists S, Permutation (map pm_str S) (map pm_str (pm_ss so rowpm)) /\ Forall (fun s => choice u inJ (row_parts s) /\ flatpm s) S /\
    row_paths_variation so po wl (UPm u) (gpath u gi) rows_at = Ok (map row S) /\ StronglySorted (fun s t => pm_lt (cellp (row_parts t)) (cellp (row_parts s)) = false) S.
  Proof.
    destruct dimensions_ok as (dims & E & D1 & D2). unfold row_paths_variation. rewrite E. cbn [bind]. destruct (dims_spec dims D1 D2) as (F0 & J' & P & F1). rewrite F0, F1. rewrite by_pm_ok by (intros g Hg; eapply Permutation_in; [exact P|exact Hg]). cbn [mapM List.concat app bind].
    assert (K : forall l0 S0, l0 = map row S0 -> Permutation (map pm_str S0) (map pm_str (pm_ss so rowpm)) -> Forall (fun s => choice u inJ (row_parts s) /\ flatpm s) S0 ->
      exists S, Permutation (map pm_str S) (map pm_str (pm_ss so rowpm)) /\ Forall (fun s => choice u inJ (row_parts s) /\ flatpm s) S /\
      sort_by wl (fun l => do l <- mapM (fun e => do p <- as_constant (fst e) None; Ok (p, snd e)) l; do c <- constant_paths (UPm u) (gpath u gi) rows_at; usl_of_list so (l ++ c)%list) l0 = Ok (map row S) /\ StronglySorted (fun s t => pm_lt (cellp (row_parts t)) (cellp (row_parts s)) = false) S).
    { intros l0 S0 -> PS FS.
      match goal with |- context [sort_by wl ?f ?l] => destruct (sort_keys wl f (fun x => cellp (map snd x)) l) as (l' & E3 & P3 & SS) end.
      - intros x Hx. apply in_map_iff in Hx. destruct Hx as (s & <- & Hs). rewrite Forall_forall in FS. destruct (FS s Hs) as [FS' _]. unfold row. rewrite as_constant_row. cbn [bind]. rewrite constant_paths_ok. cbn [bind]. rewrite <- map_app.
        replace (map snd (items_at (map (pair Constant) (row_parts s)))) with (row_parts s) by (rewrite !map_map; cbn; now rewrite map_id). split; [now apply (cellp_ok inJ)|].
        destruct (cell_ok so SO u G NR restb rest_C inJ (row_parts s) (map (pair Constant) (row_parts s) ++ places u restb)) as (p & Ep & Po & _ & Tp); [exact FS'|apply inJ_rest| |exists p; auto].
        intros e. rewrite in_app_iff. tauto.
      - apply Permutation_map_inv in P3. destruct P3 as (S & -> & P3). exists S. split; [|split; [|split; [exact E3|]]].
        + rewrite <- PS. apply Permutation_map. now apply Permutation_sym.
        + apply Forall_forall. rewrite Forall_forall in FS. intros s Hs. apply FS. eapply Permutation_in; [apply Permutation_sym, P3|exact Hs].
        + apply (proj1 (sorted_map _ _ _)) in SS. refine (sorted_weaken _ _ (fun _ => True) _ _ _ SS); [now apply Forall_forall|]. intros x y _ _. unfold row. rewrite !map_map. cbn. now rewrite !map_id. }
    destruct J' as [|g J'].
    - apply Permutation_nil in P. cbn [mapM bind product]. apply (K [[]] [rowpm]).
      + unfold row, row_parts. rewrite P. reflexivity.
      + unfold pm_ss. assert (X : groups rowpm = []); [|rewrite X; reflexivity]. unfold rowpm, row_groups, inJ. rewrite P. cbn [existsb flat_map]. destruct (groups_at u Group0), (groups_at u Group1), (groups_at u Group2); reflexivity.
      + constructor; [|constructor]. split; [|exists []; split; [constructor|]; unfold rowpm; f_equal; unfold row_groups, inJ; rewrite P; cbn [existsb flat_map]; destruct (groups_at u Group0), (groups_at u Group1), (groups_at u Group2); reflexivity]. unfold row_parts. rewrite P. split; [constructor|]. split; [constructor|]. intros m [].
    - destruct (variations_ok (g :: J') P) as (p & vs & Ev & Po & Ep & N & Fv); [discriminate|]. rewrite mapM_step, Ev. cbn [mapM bind]. rewrite product_one.
      assert (NJ : J <> []) by (intros X; rewrite X in P; apply Permutation_sym, Permutation_nil in P; discriminate).
      assert (RP : forall s, row_parts s = constant s) by (intros s; unfold row_parts; destruct J; [congruence|reflexivity]).
      match goal with |- context [mapM ?f (map (fun x => [x]) vs)] => assert (X : forall ss vs, Forall2 (fun s v => map snd v = map UScript (constant s) /\ Forall (fun e => exists h, fst e = gpath u h) v) ss vs -> mapM f (map (fun x => [x]) vs) = Ok (map row ss)) end.
      { clear Fv Ev. induction 1 as [|s v ss vs' (A & B) _ IH]; [reflexivity|]. cbn [map]. rewrite mapM_step, IH. cbn [List.concat app]. rewrite app_nil_r. destruct (row_items v (constant s) A B) as (l & El & Ll). rewrite El. cbn [bind]. rewrite Ll. unfold row. rewrite RP. reflexivity. }
      rewrite (X _ _ Fv). cbn [bind]. apply (K _ (pm_ss so p) eq_refl).
      + apply ss_text; auto using rowpm_ok.
      + apply Forall_forall. intros s Hs. split; [rewrite RP; now apply (row_choice p s)|now apply (ss_flatpm so p s)].
  Qed.

  (** ** The cells *)
  Lemma gi_rest g : gidx_eqb g gi = true -> g <> Constant /\ restb g = false.
  Proof.
    intros Hg. apply gidx_eqb_eq in Hg. subst g. split; [apply gi_not|]. unfold restb. pose proof gi_not as GN. clear Hh. destruct hrow; [|clear Hi; destruct gi; congruence || reflexivity].
    assert (X : gidx_eqb gi gi = true) by (now apply gidx_eqb_eq). now rewrite X.
  Qed.
  Lemma gi_row g : gidx_eqb g gi = true -> inJ g = true -> False.
  Proof. intros Hg Jg. apply gidx_eqb_eq in Hg. subst g. apply inJ_in, J_ok in Jg. tauto. Qed.
  Lemma columns_constant C : column_paths_variation so wl (UPm u) (gpath u gi) rows_at = Ok (map col C) ->
    column_paths_constant so wl (UPm u) (gpath u gi) rows_at = Ok (map (fun s => items_at (map (pair Constant) (constant s))) C).
  Proof.
    intros E. unfold column_paths_constant. rewrite E. cbn [bind]. clear E. induction C as [|s C IH]; [reflexivity|]. cbn [map]. rewrite mapM_step, constants_col. cbn [bind]. now rewrite IH.
  Qed.
  Lemma rows_constant R : row_paths_variation so po wl (UPm u) (gpath u gi) rows_at = Ok (map row R) -> row_paths_constant so po wl (UPm u) (gpath u gi) rows_at = Ok (map row R).
  Proof.
    intros E. unfold row_paths_constant. rewrite E. cbn [bind]. clear E. induction R as [|s R IH]; [reflexivity|]. cbn [map]. rewrite mapM_step. unfold row at 1. rewrite constants_row. cbn [bind]. now rewrite IH.
  Qed.
  Lemma cells_ok : exists C R cells, Permutation C (pm_ss so (one gi)) /\ Permutation (map pm_str R) (map pm_str (pm_ss so rowpm)) /\
    Forall (fun s => choice u inJ (row_parts s) /\ flatpm s) R /\
    StronglySorted (fun s t => pm_lt (cellp (constant t)) (cellp (constant s)) = false) C /\
    StronglySorted (fun s t => pm_lt (cellp (row_parts t)) (cellp (row_parts s)) = false) R /\
    column_paths_variation so wl (UPm u) (gpath u gi) rows_at = Ok (map col C) /\
    row_paths_variation so po wl (UPm u) (gpath u gi) rows_at = Ok (map row R) /\
    table_cells so po wl (UPm u) (gpath u gi) rows_at = Ok cells /\
    Forall2 (fun r l => Forall2 (fun c x => exists p, x = UPm p /\ pok p /\ made p /\ pm_str p = pm_str (cellp (constant c ++ row_parts r))) C l) R cells.
  Proof.
    destruct columns_ok as (C & PC & EC & SC). destruct rows_ok as (R & PR & FR & ER & SR). exists C, R.
    unfold table_cells. rewrite (rows_constant R ER). cbn [bind].
    match goal with |- context [mapM ?f (map row R)] => destruct (mapM_F2_ok (fun r => f (row r)) (fun r l => Forall2 (fun c x => exists p, x = UPm p /\ pok p /\ made p /\ pm_str p = pm_str (cellp (constant c ++ row_parts r))) C l) R) as (cells & E1 & E2); [|assert (Em : forall l, mapM f (map row l) = mapM (fun r => f (row r)) l) by (induction l as [|x l IH]; [reflexivity|]; cbn [map]; now rewrite !mapM_step, IH)] end.
    - intros r Hr. rewrite (columns_constant C EC). cbn [bind].
      match goal with |- context [mapM ?f (map ?h C)] => assert (Em : forall l, mapM f (map h l) = mapM (fun r => f (h r)) l) by (induction l as [|x l IH]; [reflexivity|]; cbn [map]; now rewrite !mapM_step, IH); rewrite Em; clear Em end.
      apply mapM_F2_ok. intros c Hc. rewrite constant_paths_ok. cbn [bind]. unfold row. rewrite <- !map_app.
      assert (Cc : choice u (fun h => gidx_eqb h gi) (constant c)) by (apply one_choice; eapply Permutation_in; [exact PC|exact Hc]).
      assert (Cr : choice u inJ (row_parts r)) by (rewrite Forall_forall in FR; now apply FR).
      destruct (cell_ok so SO u G NR restb rest_C (fun g => (gidx_eqb g gi || inJ g)%bool) (constant c ++ row_parts r) (places u restb ++ map (pair Constant) (constant c ++ row_parts r))) as (p & Ep & Po & Ma & Tp).
      + apply (choice_app u G NR); auto. apply gi_row.
      + intros g Hg. apply orb_true_iff in Hg. destruct Hg; [now apply gi_rest|now apply inJ_rest].
      + intros e. apply in_app_iff.
      + exists (UPm p). split; [exact Ep|]. exists p. auto.
    - exists cells. rewrite Em. repeat (split; [assumption|]). exact E2.
  Qed.

  (** ** The headers of the rows *)
  Definition headb (g : gidx) : bool := (restb g || gidx_eqb g gi)%bool.
  Definition headp (d : list script) : pm := mk_pm (constant u ++ d) (rest_groups u headb).
  Lemma covered m : In m (ms u gi) -> exists s m', In s (pm_ss so (one gi)) /\ In m' (constant s) /\ str m' = str m.
  Proof.
    intros Hm. destruct Hi_some as (gr & E). pose proof (mult_ok gi gr E) as MO. pose proof (ms_full u G gi m gi_not Hm) as Fm.
    assert (Nm : nf m) by (pose proof (ms_nf u G gi) as F; rewrite Forall_forall in F; auto). assert (Nn : nf (Null 0)) by (split; [cbn; lia|discriminate]).
    destruct (one_ok gi) as [[[O1 O2] _] N]. rewrite pm_ss_groups by auto. destruct (traits_spec so (groups (one gi)) (constant (one gi)) SO N O2 O1) as (X1 & X2 & X3).
    assert (B : In (pm_str (mk_pm [m; Null 0] [])) (map pm_str (traits so (groups (one gi)) (constant (one gi))))).
    { apply X2. exists [[m]]. split.
      - exists 0. split; [repeat constructor; cbn; lia|]. constructor; [|constructor]. cbn [fst snd]. split.
        + apply subseq_one. apply (Permutation_in _ (Permutation_sym (sort_perm _ _))). apply filter_In. split; [exact Hm|]. now rewrite Fm.
        + right. split; [reflexivity|]. left. lia.
      - exists [m; Null 0]. split; [|split; [cbn; lia|reflexivity]]. split.
        + constructor; [|repeat constructor; intros []]. intros [H|[]]. assert (is_empty m = true) by (rewrite <- (is_empty_str (Null 0) m); auto using nf_wf). congruence.
        + split; [intros x Hx; exact Hx|]. intros x [<-|[<-|[]]]; [now left|right; now left]. }
    apply in_map_iff in B. destruct B as (s & Es & Hs). exists s.
    assert (Ps : pok s). { destruct (X3 s Hs) as (cs & d & K & D & _ & ->). apply mk_pm_ok; [|constructor]. now apply (distinct_nf (groups (one gi)) cs (constant (one gi))). }
    apply pm_str_key in Es; [|exact Ps|apply mk_pm_ok; auto]. unfold pkey in Es. assert (Ec : map str (constant s) = map str (constant (mk_pm [m; Null 0] []))) by congruence. cbn [mk_pm constant filter_empty filter] in Ec. rewrite Fm in Ec. cbn in Ec.
    destruct (constant s) as [|m' l]; [discriminate|]. injection Ec as Ec _. exists m'. split; [exact Hs|]. split; [now left|exact Ec].
  Qed.
  Lemma headb_C : headb Constant = true.
  Proof. unfold headb. now rewrite rest_C. Qed.
  Definition bareh (g : gidx) : bool := gidx_eqb g gi.
  Lemma bareh_items l : (forall e, In e l -> fst e <> gi) -> items_at l = map (itm bareh (Ku u)) l.
  Proof.
    intros H. apply map_ext_in. intros [g m] He. specialize (H _ He). cbn [fst] in H. unfold itm, nobare, bareh. cbn [fst snd]. destruct (gidx_eqb g gi) eqn:E; [apply gidx_eqb_eq in E; congruence|reflexivity].
  Qed.
  Lemma headers_ok C R : Permutation C (pm_ss so (one gi)) -> Forall (fun s => choice u inJ (row_parts s) /\ flatpm s) R -> column_paths_variation so wl (UPm u) (gpath u gi) rows_at = Ok (map col C) ->
    row_paths_variation so po wl (UPm u) (gpath u gi) rows_at = Ok (map row R) ->
    exists hs, table_rows so po wl (UPm u) (gpath u gi) rows_at = Ok hs /\ Forall2 (fun r x => exists p, x = UPm p /\ pok p /\ made p /\ pm_str p = pm_str (headp (row_parts r))) R hs.
  Proof.
    intros PC FR EC ER. unfold table_rows. rewrite EC, (rows_constant R ER). cbn [bind]. rewrite constant_paths_ok. cbn [bind].
    match goal with |- context [mapM ?f (map row R)] => assert (Em : forall l, mapM f (map row l) = mapM (fun r => f (row r)) l) by (induction l as [|x l IH]; [reflexivity|]; cbn [map]; now rewrite !mapM_step, IH); rewrite Em; clear Em end.
    apply mapM_F2_ok. intros r Hr. rewrite Forall_forall in FR. apply FR in Hr as [FR' _]. clear FR. rename FR' into FR.
    assert (Ecol : List.concat (map col C) = map (itm bareh (Ku u)) (map (pair gi) (flat_map constant C))).
    { pose proof gi_not as GN. clear - GN. induction C as [|s C IH]; [reflexivity|]. cbn [map List.concat flat_map]. rewrite IH, !map_app. f_equal. unfold col. rewrite map_map. apply map_ext. intros m. unfold itm, bareh, gpath. cbn [fst snd]. assert (X : gidx_eqb gi gi = true) by (now apply gidx_eqb_eq). rewrite X. destruct gi; [congruence|reflexivity..]. }
    rewrite Ecol. unfold row. rewrite (bareh_items (places u restb)), (bareh_items (map (pair Constant) (row_parts r))).
    - rewrite <- !map_app.
      assert (NC : forall g, g <> Constant -> headb g = true -> g <> gi -> restb g = true).
      { intros g _ Hg Hn. unfold headb in Hg. apply orb_true_iff in Hg. destruct Hg as [Hg|Hg]; [exact Hg|]. apply gidx_eqb_eq in Hg. congruence. }
      destruct (cell_gen so SO u G NR headb headb_C bareh inJ (row_parts r) (places u restb ++ map (pair Constant) (row_parts r) ++ map (pair gi) (flat_map constant C))) as (p & Ep & Po & Ma & Tp).
      + unfold bareh. pose proof gi_not. clear Hi Hh PC EC ER FR Ecol NC. destruct gi; [congruence|reflexivity..].
      + exact FR.
      + intros g Hg. destruct (inJ_rest g Hg) as [A B]. split; [exact A|]. unfold headb. rewrite B. cbn. apply not_true_iff_false. intros X. now apply (gi_row g).
      + intros g m [H|H]; [|exists m; split; [rewrite !in_app_iff; auto|auto]]. apply places_in in H. destruct H as [Hg Hm]. unfold headb in Hg. apply orb_true_iff in Hg. destruct Hg as [Hg|Hg].
        * exists m. split; [|auto]. apply in_or_app. left. apply places_in. auto.
        * apply gidx_eqb_eq in Hg. subst g. destruct (covered m Hm) as (s & m' & Hs & Hm' & Em). exists m'. split; [|split; [|exact Em]].
          -- apply in_or_app. right. apply in_or_app. right. apply in_map. apply in_flat_map. exists s. split; [|exact Hm']. eapply Permutation_in; [apply Permutation_sym, PC|exact Hs].
          -- destruct (one_choice gi s Hs) as [(F & _) _]. rewrite Forall_forall in F. pose proof (ms_nf u G gi) as F'. rewrite Forall_forall in F'. apply is_empty_str; auto using nf_wf.
      + intros g m H. rewrite !in_app_iff in H. destruct H as [H|[H|H]].
        * left. apply places_in in H. apply places_in. unfold headb. destruct H as [-> H]. auto.
        * right. now left.
        * apply in_map_iff in H. destruct H as (x & Ex & Hx). injection Ex as <- <-. apply in_flat_map in Hx. destruct Hx as (s & Hs & Hx). apply (Permutation_in _ PC) in Hs.
          assert (Hb : headb gi = true) by (unfold headb; apply orb_true_iff; right; now apply gidx_eqb_eq).
          destruct (one_in_or gi s x Hs Hx) as [->|Hx']; [right; right; repeat split; auto using gi_not|]. left. apply places_in. split; [exact Hb|]. apply (Permutation_in _ (sort_perm _ _)) in Hx'. apply filter_empty_in in Hx'. tauto.
      + exists (UPm p). split; [exact Ep|]. exists p. auto.
    - intros e He. apply in_map_iff in He. destruct He as (m & <- & _). cbn. intros X. symmetry in X. now apply gi_not.
    - intros [g m] He. apply places_in in He. destruct He as [He _]. cbn. intros ->. destruct (gi_rest gi) as [_ X]; [now apply gidx_eqb_eq|]. congruence.
  Qed.
End Grid.
