(** Proofs about the lexemes built from the morphemes of their flexion, at the places of a flexion or
    at its path, and from those of their content, in any of the orders found in tables of words. *)
From Coq Require Import List String Ascii Bool Arith Lia Permutation Sorted.
From Verif Require Import Base Script ScriptParser SortProofs ScriptWf ScriptStrProofs ScriptOrderProofs ScriptSpec ScriptCtorProofs ScriptParseProofs ScriptAlgProofs ScriptMoreProofs OrderTheory Commons Usl UslProofs UslSpec UslSsProofs
  Sfun SfunProofs SfunListProofs SfunWordProofs SfunSpec UslParser UslParserProofs UslRoundProofs Path PathLexProofs PathSpec PathProofs PathAlgProofs PathTextProofs PathDerefProofs PathBuildProofs Instance UslTable UslTableProofs UslTableSpec UslTableOrderProofs UslTableSsProofs LexBuildProofs LexTableProofs.
Import ListNotations.
Local Open Scope string_scope.

Section Parts.
  Variable so : list script -> list script.
  Hypothesis SO : set_order so.
  Notation CP := (CP so).
  Definition mlex (l : list (path * script)) (z : lexeme) : Prop := exists b, group_all (path_to_value (map CP l)) new_bin = Ok b /\ build_nodes b = Ok (NLexeme z).
  Definition mpm (l : list (path * script)) (p : pm) : Prop := exists b, group_all (path_to_value (map CP l)) new_bin = Ok b /\ build_nodes b = Ok (NPm p).
  Definition raise (e : path * script) : path * script := (PLex Flexion (Some (fst e)), snd e).
  Definition FLs (u : pm) : list (path * script) := map raise (flex_leaves u).
  Lemma raise_str p : path_str (PLex Flexion (Some p)) = ">flexion" ++ path_str p.
  Proof. reflexivity. Qed.
  Lemma add_value_raise p v l : add_value (PLex Flexion (Some p)) v (below LF l) = below LF (add_value p v l).
  Proof.
    induction l as [|[q vs] l IH]; [reflexivity|]. cbn [below map add_value fst snd set_child LF]. unfold path_eqb. rewrite !raise_str, app_eqb. destruct (String.eqb (path_str q) (path_str p)); [reflexivity|]. cbn [below map fst snd set_child LF]. f_equal. exact IH.
  Qed.
  Lemma pv_raise l : path_to_value (map raise l) = below LF (path_to_value l).
  Proof.
    unfold path_to_value. change (@nil (path * list script)) with (below LF []) at 1. generalize (@nil (path * list script)) as acc. induction l as [|x l IH]; intros acc; [reflexivity|]. cbn [map fold_left raise fst snd]. rewrite add_value_raise. apply IH.
  Qed.
  Lemma CP_raise u : map CP (FLs u) = map raise (map CP (flex_leaves u)).
  Proof. unfold FLs, flex_leaves. rewrite !map_map. reflexivity. Qed.
  Lemma pv_leaves l : Forall item_ok l -> NoDup (map raw0 (map fst l)) -> path_to_value (map CP l) = map (C so) l.
  Proof.
    intros F N. pose proof (distinct_paths so SO l F N) as D. rewrite path_to_value_distinct.
    - rewrite map_map. reflexivity.
    - rewrite !map_map in *. exact D.
  Qed.
  Lemma flex_made u : flex_good u -> exists p, mpm (flex_leaves u) p /\ pok p /\ pm_str p = pm_str u.
  Proof.
    intros G. destruct (flex_bin so SO u G) as (b & p & E & B & K & S). exists p. split; [|auto]. exists b. split; [|exact B]. rewrite pv_leaves; [exact E| |now apply flex_leaves_raw]. apply Forall_forall. intros e He. now apply (flex_leaf_ok u).
  Qed.
  Lemma leaves_made u : pm_good u -> exists p, mpm (leaves u) p /\ pok p /\ pm_str p = pm_str u.
  Proof.
    intros G. destruct (pm_bin so SO u G) as (b & p & E & B & K & S). exists p. split; [|auto]. exists b. split; [|exact B]. rewrite pv_leaves; [exact E| |now apply leaves_raw]. apply Forall_forall. intros e. now apply leaf_ok.
  Qed.
  Lemma flex_leaves_some u : flex_good u -> flex_leaves u <> [].
  Proof. intros G X. unfold flex_leaves, flex_ms in X. apply map_eq_nil in X. apply map_eq_nil in X. apply leaves_nonempty in X; [auto|]. apply G. Qed.
  Lemma mapCP_some l : l <> [] -> path_to_value (map CP l) <> [].
  Proof. intros N. apply pv_nonempty. intros X. now apply map_eq_nil in X. Qed.
  Lemma apart p q : path_str (PLex Flexion (Some p)) <> path_str (PLex Content (Some q)). Proof. discriminate. Qed.
  (** Both parts, in both orders, and each part alone. *)
  Lemma both u p q c : flex_good u -> mpm (flex_leaves u) p -> c <> [] -> mpm c q -> map CP (map lower c) = map lower (map CP c) ->
    mlex (FLs u ++ map lower c) {| pm_flexion := p; pm_content := q |} /\ mlex (map lower c ++ FLs u) {| pm_flexion := p; pm_content := q |}.
  Proof.
    intros G (b1 & E1 & B1) Nc (b2 & E2 & B2) Lc. pose proof (mapCP_some _ (flex_leaves_some u G)) as N1. pose proof (mapCP_some _ Nc) as N2. unfold mlex. rewrite !map_app, CP_raise, Lc. split.
    - rewrite pv_app, pv_raise, pv_lower.
      2:{ intros e e' He He'. apply in_map_iff in He, He'. destruct He as (z & <- & _), He' as (z' & <- & _). apply apart. }
      rewrite group_all_app. unfold new_bin. rewrite group_below; [|reflexivity|constructor|now left|exact N1]. fold new_bin. rewrite E1. cbn [bind app]. rewrite group_below; [|reflexivity|repeat constructor; discriminate|now right|exact N2]. rewrite E2. cbn [bind app class_of]. eexists. split; [reflexivity|].
      rewrite build_nodes_eq, !mapM_step. cbn [fst snd]. rewrite B1. cbn [bind]. rewrite B2. reflexivity.
    - rewrite pv_app, pv_raise, pv_lower.
      2:{ intros e e' He He'. apply in_map_iff in He, He'. destruct He as (z & <- & _), He' as (z' & <- & _). apply not_eq_sym, apart. }
      rewrite group_all_app. unfold new_bin. rewrite group_below; [|reflexivity|constructor|now left|exact N2]. fold new_bin. rewrite E2. cbn [bind app]. rewrite group_below; [|reflexivity|repeat constructor; discriminate|now right|exact N1]. rewrite E1. cbn [bind app class_of]. eexists. split; [reflexivity|].
      rewrite build_nodes_eq, !mapM_step. cbn [fst snd]. rewrite B2. cbn [bind]. rewrite B1. reflexivity.
  Qed.
  (** The content around the flexion. *)
  Lemma around u p q c1 c2 : flex_good u -> mpm (flex_leaves u) p -> (c1 ++ c2)%list <> [] -> mpm (c1 ++ c2) q ->
    map CP (map lower c1) = map lower (map CP c1) -> map CP (map lower c2) = map lower (map CP c2) -> mlex (map lower c1 ++ FLs u ++ map lower c2) {| pm_flexion := p; pm_content := q |}.
  Proof.
    intros G (b1 & E1 & B1) Nc (b2 & E2 & B2) L1 L2. pose proof (mapCP_some _ (flex_leaves_some u G)) as N1. pose proof (mapCP_some _ Nc) as N2. unfold mlex. rewrite !map_app, CP_raise, L1, L2. rewrite map_app in E2, N2.
    set (fl := path_to_value (map CP (flex_leaves u))) in *.
    destruct (pv_split (map CP c2) (path_to_value (map CP c1)) []) as (x & y & E & H). rewrite app_nil_r in E.
    assert (Exy : path_to_value (map CP c1 ++ map CP c2)%list = (x ++ y)%list) by (unfold path_to_value at 1; rewrite fold_left_app; exact E).
    assert (Ep : path_to_value (map lower (map CP c1) ++ map raise (map CP (flex_leaves u)) ++ map lower (map CP c2))%list = (below LC x ++ below LF fl ++ below LC y)%list).
    { rewrite app_assoc. unfold path_to_value. rewrite fold_left_app. fold (path_to_value (map lower (map CP c1) ++ map raise (map CP (flex_leaves u)))). rewrite pv_app.
      - rewrite pv_lower, pv_raise. fold fl. rewrite <- (app_nil_r (below LF fl)) at 1. apply (H (below LF fl)). intros e q0 He. apply in_map_iff in He. destruct He as (e' & <- & _). apply apart.
      - intros e e' He He'. apply in_map_iff in He, He'. destruct He as (z & <- & _), He' as (z' & <- & _). apply not_eq_sym, apart. }
    rewrite Ep. rewrite Exy in E2, N2. rewrite group_all_app. destruct x as [|e0 x0] eqn:Ex.
    - change (group_all (below LC []) new_bin) with (Ok new_bin). cbn [bind]. rewrite group_all_app. unfold new_bin. rewrite group_below; [|reflexivity|constructor|now left|exact N1]. fold new_bin. rewrite E1. cbn [bind app]. rewrite group_below; [|reflexivity|repeat constructor; discriminate|now right|exact N2]. cbn [app] in E2. rewrite E2. cbn [bind app class_of]. eexists. split; [reflexivity|].
      rewrite build_nodes_eq, !mapM_step. cbn [fst snd]. rewrite B1. cbn [bind]. rewrite B2. reflexivity.
    - rewrite <- Ex in *. assert (Nx : x <> []) by now rewrite Ex. clear Ex. rewrite group_all_app in E2. destruct (group_all x new_bin) as [b0|] eqn:E0; [|discriminate]. cbn [bind] in E2.
      unfold new_bin. rewrite group_below; [|reflexivity|constructor|now left|exact Nx]. fold new_bin. rewrite E0. cbn [bind app]. rewrite group_all_app. rewrite group_below; [|reflexivity|repeat constructor; discriminate|now right|exact N1]. rewrite E1. cbn [bind app].
      change (class_of LF) with (class_of LC). rewrite group_head by reflexivity. rewrite E2. cbn [bind class_of]. eexists. split; [reflexivity|]. rewrite build_nodes_eq, !mapM_step. cbn [fst snd]. rewrite B2. cbn [bind]. rewrite B1. reflexivity.
  Qed.
  Lemma flexion_alone u p : flex_good u -> mpm (flex_leaves u) p -> mlex (FLs u) {| pm_flexion := p; pm_content := mk_pm [] [] |}.
  Proof.
    intros G (b1 & E1 & B1). pose proof (mapCP_some _ (flex_leaves_some u G)) as N1. unfold mlex. rewrite CP_raise, pv_raise. unfold new_bin. rewrite group_below; [|reflexivity|constructor|now left|exact N1]. fold new_bin. rewrite E1. cbn [bind app class_of]. eexists. split; [reflexivity|].
    rewrite build_nodes_eq, !mapM_step. cbn [fst snd]. rewrite B1. reflexivity.
  Qed.
  Lemma lex_inv l z : l <> [] -> Forall item_ok l -> usl_of_list so l = Ok (ULexeme z) -> mlex l z.
  Proof.
    intros NE F E. assert (X : usl_of_list so l = from_path_values so l) by (clear - NE; destruct l; [congruence|reflexivity]). rewrite X, (from_items_all so SO) in E by exact F.
    fold CP in E. destruct (group_all _ new_bin) as [b|] eqn:Eb; [|discriminate]. exists b. split; [exact Eb|]. cbn [bind] in E. destruct (build_nodes b) as [[]|]; try discriminate E. cbn in E. injection E as ->. reflexivity.
  Qed.
  Lemma items_of_pm K l p : Forall (place_ok K) l -> l <> [] -> mpm (map (itm nobare K) l) p -> usl_of_list so (map (itm nobare K) l) = Ok (UPm p).
  Proof.
    intros F NE (b & E & B). assert (X : usl_of_list so (map (itm nobare K) l) = from_path_values so (map (itm nobare K) l)) by (clear - NE; destruct l; [congruence|reflexivity]). rewrite X, (from_items_all so SO).
    - fold CP. rewrite E. cbn [bind]. rewrite B. reflexivity.
    - rewrite Forall_map. eapply Forall_impl; [|exact F]. intros e. apply itm_ok.
  Qed.
End Parts.
