(** Proofs about the lexeme built from the morphemes of its flexion, all at the path of the flexion,
    and from the morphemes of the places of its content. *)
From Coq Require Import List String Ascii Bool Arith Lia Permutation Sorted.
From Verif Require Import Base Script ScriptParser SortProofs ScriptWf ScriptStrProofs ScriptOrderProofs ScriptSpec ScriptCtorProofs ScriptParseProofs ScriptAlgProofs ScriptMoreProofs OrderTheory Commons Usl UslProofs UslSpec UslSsProofs
  Sfun SfunProofs SfunListProofs SfunWordProofs SfunSpec UslParser UslParserProofs UslRoundProofs Path PathLexProofs PathSpec PathProofs PathAlgProofs PathTextProofs PathDerefProofs PathBuildProofs Instance UslTable UslTableProofs UslTableSsProofs UslTableOrderProofs.
Import ListNotations.
Local Open Scope string_scope.

(** ** The dictionary of sets *)
Lemma add_value_right p v a b : Forall (fun e => path_str (fst e) <> path_str p) a -> add_value p v (a ++ b)%list = (a ++ add_value p v b)%list.
Proof.
  induction 1 as [|[q vs] a H F IH]; [reflexivity|]. cbn [app add_value]. unfold path_eqb. cbn [fst] in H. apply String.eqb_neq in H. now rewrite H, IH.
Qed.
Lemma add_value_paths p v l : forall e, In e (add_value p v l) -> path_str (fst e) = path_str p \/ exists e', In e' l /\ fst e = fst e'.
Proof.
  induction l as [|[q vs] l IH]; intros e He; cbn [add_value] in He.
  - destruct He as [<-|[]]. now left.
  - destruct (path_eqb q p) eqn:E.
    + destruct He as [<-|He]; right; [exists (q, vs)|exists e]; (split; [|reflexivity]); [now left|now right].
    + destruct He as [<-|He]; [right; exists (q, vs); split; [now left|reflexivity]|]. destruct (IH e He) as [H|(e' & H & H')]; [now left|]. right. exists e'. split; [now right|exact H'].
Qed.
Definition pv_from (l : list (path * script)) acc := fold_left (fun acc e => add_value (fst e) (snd e) acc) l acc.
Lemma pv_from_paths l acc : forall e, In e (pv_from l acc) -> (exists x, In x l /\ path_str (fst e) = path_str (fst x)) \/ exists e', In e' acc /\ fst e = fst e'.
Proof.
  revert acc. induction l as [|x l IH]; intros acc e He; [right; exists e; auto|]. cbn [pv_from fold_left] in He. destruct (IH _ e He) as [(y & Hy & E)|(e' & He' & E)].
  - left. exists y. split; [now right|exact E].
  - apply add_value_paths in He'. destruct He' as [H|(e2 & H & H')]; [left; exists x; split; [now left|congruence]|right; exists e2; split; [exact H|congruence]].
Qed.
Lemma pv_from_app l a b : (forall x e, In x l -> In e a -> path_str (fst x) <> path_str (fst e)) -> pv_from l (a ++ b)%list = (a ++ pv_from l b)%list.
Proof.
  revert b. induction l as [|x l IH]; intros b H; [reflexivity|]. cbn [pv_from fold_left]. rewrite add_value_right.
  - apply IH. intros y e Hy. apply H. now right.
  - apply Forall_forall. intros e He E. apply (H x e); auto. now left.
Qed.
Lemma pv_app a b : (forall x y, In x a -> In y b -> path_str (fst x) <> path_str (fst y)) -> path_to_value (a ++ b)%list = (path_to_value a ++ path_to_value b)%list.
Proof.
  intros H. unfold path_to_value. rewrite fold_left_app. fold (pv_from a []). fold (pv_from b (pv_from a [])). fold (pv_from b []). rewrite <- (app_nil_r (pv_from a [])) at 1. apply pv_from_app.
  intros y e Hy He E. apply pv_from_paths in He. destruct He as [(x & Hx & E')|(e' & [] & _)]. apply (H x y Hx Hy). congruence.
Qed.
Definition lower (e : path * script) : path * script := (PLex Content (Some (fst e)), snd e).
Lemma lower_str p : path_str (PLex Content (Some p)) = ">content" ++ path_str p.
Proof. reflexivity. Qed.
Lemma app_eqb a b c : String.eqb (a ++ b) (a ++ c) = String.eqb b c.
Proof. induction a as [|x a IH]; [reflexivity|]. cbn [append String.eqb]. now rewrite Ascii.eqb_refl. Qed.
Lemma add_value_lower p v l : add_value (PLex Content (Some p)) v (below (PLex Content None) l) = below (PLex Content None) (add_value p v l).
Proof.
  induction l as [|[q vs] l IH]; [reflexivity|]. cbn [below map add_value fst snd set_child]. unfold path_eqb. rewrite !lower_str, app_eqb. destruct (String.eqb (path_str q) (path_str p)); [reflexivity|]. cbn [below map fst snd set_child]. f_equal. exact IH.
Qed.
Lemma pv_lower l : path_to_value (map lower l) = below (PLex Content None) (path_to_value l).
Proof.
  unfold path_to_value. change (@nil (path * list script)) with (below (PLex Content None) []) at 1. generalize (@nil (path * list script)) as acc. induction l as [|x l IH]; intros acc; [reflexivity|]. cbn [map fold_left lower fst snd]. rewrite add_value_lower. apply IH.
Qed.
(** The distinct texts of a list, the first of each. *)
Definition uniq_from (vs acc : list script) : list script := fold_left (fun acc v => if in_scripts v acc then acc else (acc ++ [v])%list) vs acc.
Definition uniq (vs : list script) : list script := uniq_from vs [].
Lemma pv_same p vs : vs <> [] -> path_to_value (map (pair p) vs) = [(p, uniq vs)].
Proof.
  destruct vs as [|v vs]; [congruence|]. intros _. unfold path_to_value, uniq, uniq_from. cbn [map fold_left fst snd add_value in_scripts existsb app]. generalize [v] as acc. induction vs as [|w vs IH]; intros acc; [reflexivity|].
  cbn [map fold_left fst snd add_value]. unfold path_eqb. rewrite String.eqb_refl. apply IH.
Qed.
Lemma uniq_spec vs : NoDup (map str (uniq vs)) /\ (forall t, In t (map str (uniq vs)) <-> In t (map str vs)) /\ incl (uniq vs) vs.
Proof.
  assert (X : forall acc, NoDup (map str acc) -> NoDup (map str (uniq_from vs acc)) /\ (forall t, In t (map str (uniq_from vs acc)) <-> In t (map str acc) \/ In t (map str vs)) /\ incl (uniq_from vs acc) (acc ++ vs)).
  { unfold uniq_from. induction vs as [|v vs IH]; intros acc N; cbn [fold_left map In].
    - split; [exact N|]. split; [tauto|]. rewrite app_nil_r. apply incl_refl.
    - destruct (in_scripts v acc) eqn:E.
      + destruct (IH acc N) as (A & B & C). split; [exact A|]. split.
        * intros t. rewrite B. apply in_scripts_iff in E. split; [tauto|]. intros [H|[<-|H]]; auto.
        * intros x Hx. apply C, in_app_or in Hx. apply in_or_app. destruct Hx; [now left|right; now right].
      + destruct (IH (acc ++ [v])%list) as (A & B & C).
        * rewrite map_app. apply NoDup_app_both; [exact N|repeat constructor; intros []|]. intros t Ht [<-|[]]. apply in_scripts_iff in Ht. congruence.
        * split; [exact A|]. split.
          -- intros t. rewrite B, map_app, in_app_iff. cbn. tauto.
          -- intros x Hx. apply C in Hx. rewrite <- app_assoc in Hx. exact Hx. }
  destruct (X [] (NoDup_nil _)) as (A & B & C). split; [exact A|]. split; [|exact C]. intros t. rewrite B. cbn. tauto.
Qed.

(** ** The flexion of a set of morphemes *)
Definition root_set (r : list script) (ms : list script) : list script := dedup script_eqb (filter (fun m => in_scripts m r) ms).
Lemma script_eqb_sym a b : script_eqb a b = script_eqb b a. Proof. apply String.eqb_sym. Qed.
Lemma script_eqb_refl a : script_eqb a a = true. Proof. apply String.eqb_refl. Qed.
Lemma root_set_spec r ms : NoDup (map str (root_set r ms)) /\ (forall t, In t (map str (root_set r ms)) <-> In t (map str ms) /\ In t (map str r)) /\ incl (root_set r ms) ms.
Proof.
  unfold root_set. split; [|split].
  - pose proof (SortProofs.dedup_distinct script_eqb script_eqb_sym (filter (fun m => in_scripts m r) ms)) as D. induction D as [|x l Hx D IH]; constructor; [|exact IH].
    intros H. apply in_map_iff in H. destruct H as (y & E & Hy). rewrite Forall_forall in Hx. specialize (Hx y Hy). unfold script_eqb in Hx. rewrite E, String.eqb_refl in Hx. discriminate.
  - intros t. split.
    + intros H. apply in_map_iff in H. destruct H as (m & <- & Hm). apply dedup_in in Hm. apply filter_In in Hm. destruct Hm as [Hm Hr]. split; [now apply in_map|now apply in_scripts_iff].
    + intros [H Hr]. apply in_map_iff in H. destruct H as (m & <- & Hm). assert (Hf : In m (filter (fun m => in_scripts m r) ms)) by (apply filter_In; split; [exact Hm|now apply in_scripts_iff]).
      destruct (SortProofs.dedup_complete script_eqb script_eqb_refl _ _ Hf) as (y & Hy & E). unfold script_eqb in E. apply String.eqb_eq in E. rewrite E. now apply in_map.
  - intros m Hm. apply dedup_in in Hm. apply filter_In in Hm. tauto.
Qed.
Lemma root_set_perm r ms ms' : (forall t, In t (map str r) -> In t (map str ms) <-> In t (map str ms')) -> Permutation (map str (root_set r ms)) (map str (root_set r ms')).
Proof.
  intros H. destruct (root_set_spec r ms) as (A & B & _), (root_set_spec r ms') as (A' & B' & _). apply NoDup_Permutation; auto. intros t. rewrite B, B'. specialize (H t). tauto.
Qed.
Lemma flexion_nf ms : Forall nf ms -> Forall nf (flat_map single (flexion_sets ms)) /\ Forall gok (flat_map multi (flexion_sets ms)).
Proof.
  intros F. rewrite Forall_forall in F. assert (X : forall q, In q (flexion_sets ms) -> Forall nf q).
  { intros q Hq. unfold flexion_sets in Hq. apply in_map_iff in Hq. destruct Hq as (r & <- & _). apply Forall_forall. intros m Hm. apply F. now apply (root_set_spec r ms). }
  split; apply Forall_forall; intros x Hx; apply in_flat_map in Hx; destruct Hx as (q & Hq & Hx); specialize (X q Hq).
  - destruct q as [|a [|]]; cbn in Hx; try contradiction. destruct Hx as [<-|[]]. now inversion X.
  - destruct q as [|a [|b q]]; cbn in Hx; try contradiction. destruct Hx as [<-|[]]. exact X.
Qed.
Lemma flexion_of_eq ms : flexion_of ms = mk_pm (flat_map single (flexion_sets ms)) (flat_map multi (flexion_sets ms)).
Proof. reflexivity. Qed.
Lemma flexion_made ms : Forall nf ms -> made (flexion_of ms) /\ pok (flexion_of ms).
Proof.
  intros F. destruct (flexion_nf ms F) as [A B]. rewrite flexion_of_eq. split; [exists (flat_map single (flexion_sets ms)), (flat_map multi (flexion_sets ms)); auto|now apply mk_pm_ok].
Qed.
Lemma root_full r t : In r FLEXION_ROOTS -> In t (map str r) -> t <> "E:".
Proof.
  intros Hr Ht E. unfold FLEXION_ROOTS in Hr. apply in_map_iff in Hr. destruct Hr as (n & <- & Hn). apply in_map_iff in Ht. destruct Ht as (m & Em & Hm). apply (root_empty n m Hn); [congruence|]. apply in_scripts_iff. now apply in_map.
Qed.
Lemma flexion_text ms ms' : Forall nf ms -> Forall nf ms' -> (forall t, t <> "E:" -> In t (map str ms) <-> In t (map str ms')) -> pm_str (flexion_of ms) = pm_str (flexion_of ms').
Proof.
  intros F F' H. destruct (flexion_nf ms F) as [A B], (flexion_nf ms' F') as [A' B']. rewrite !flexion_of_eq.
  assert (S : Forall2 (fun a b => Forall nf a /\ Forall nf b /\ Permutation (map str a) (map str b)) (flexion_sets ms) (flexion_sets ms')).
  { unfold flexion_sets. pose proof root_full as RF. revert RF. generalize FLEXION_ROOTS as roots. induction roots as [|r rs IH]; intros RF; cbn [map]; constructor; [|apply IH; intros r' t Hr; apply RF; now right]. rewrite Forall_forall in F, F'.
    split; [apply Forall_forall; intros m Hm; apply F; now apply (root_set_spec r ms)|]. split; [apply Forall_forall; intros m Hm; apply F'; now apply (root_set_spec r ms')|]. apply root_set_perm. intros t Ht. apply H. apply (RF r t); [now left|exact Ht]. }
  apply pm_str_key; [now apply mk_pm_ok..|]. unfold pkey. f_equal.
  - apply mk_pm_constant_key; auto. apply Permutation_refl'. apply filter_empty_str; [exact A|exact A'|].
    clear - S. induction S as [|a b la lb (_ & _ & P) S IH]; [reflexivity|]. cbn [flat_map]. rewrite !map_app, IH. f_equal. assert (L := Permutation_length P). rewrite !map_length in L.
    destruct a as [|x [|x' a]], b as [|y [|y' b]]; try discriminate L; try reflexivity. cbn in *. apply Permutation_length_1 in P. congruence.
  - assert (G : map (fun g => gkey (gnorm g)) (flat_map multi (flexion_sets ms)) = map (fun g => gkey (gnorm g)) (flat_map multi (flexion_sets ms'))).
    { clear - S. induction S as [|a b la lb (Fa & Fb & P) S IH]; [reflexivity|]. cbn [flat_map]. rewrite !map_app, IH. f_equal. assert (L := Permutation_length P). rewrite !map_length in L.
      destruct a as [|x [|x' a]], b as [|y [|y' b]]; try discriminate L; try reflexivity. cbn [multi map]. f_equal. unfold gkey, gnorm. cbn [fst snd]. f_equal. apply isort_key; auto using filter_nf.
      now apply meaningful_perm. }
    apply mk_pm_groups_key; auto. rewrite G. reflexivity.
Qed.

(** ** The builder *)
Section Build.
  Variable so : list script -> list script.
  Hypothesis SO : set_order so.
  Variable K : gidx -> nat.
  Definition LF : path := PLex Flexion None.
  Definition LC : path := PLex Content None.
  Definition FI (f : list script) : list (path * script) := map (pair LF) f.
  Definition CI (c : list (gidx * script)) : list (path * script) := map lower (map (itm nobare K) c).
  Definition named (m : script) : Prop := nf m /\ old_class (str m) = None.
  Definition CP (e : path * script) : path * script := (canon so (fst e), P so (snd e)).
  Lemma FI_ok f : Forall named f -> Forall item_ok (FI f).
  Proof.
    intros F. unfold FI. rewrite Forall_map. eapply Forall_impl; [|exact F]. intros m [N O]. unfold item_ok. cbn [fst snd]. split; [apply proper_lexeme; constructor|]. split; [exact Logic.I|auto].
  Qed.
  Lemma CI_ok c : Forall (place_ok K) c -> Forall item_ok (CI c).
  Proof.
    intros F. unfold CI. rewrite !Forall_map. eapply Forall_impl; [|exact F]. intros e He. pose proof (itm_ok nobare K e He) as (H1 & H2 & H3 & H4). destruct He as (N & _). unfold item_ok, lower. cbn [fst snd].
    split; [apply proper_lexeme; constructor; constructor; exact N|]. split; [exact H2|auto].
  Qed.
  Lemma CP_FI f : map CP (FI f) = FI (map (P so) f).
  Proof. unfold FI. rewrite !map_map. reflexivity. Qed.
  Lemma CP_CI c : map CP (CI c) = map lower (map CP (map (itm nobare K) c)).
  Proof. unfold CI. rewrite !map_map. reflexivity. Qed.
  (** Entries of the content around the entry of the flexion. *)
  Lemma add_split p v x y : exists x' y', add_value p v (x ++ y)%list = (x' ++ y')%list /\
    forall d, (forall e, In e d -> path_str (fst e) <> path_str (PLex Content (Some p))) ->
    add_value (PLex Content (Some p)) v (below LC x ++ d ++ below LC y)%list = (below LC x' ++ d ++ below LC y')%list.
  Proof.
    induction x as [|[q vs] x (x' & y' & E & H)]; cbn [app].
    - exists [], (add_value p v y). split; [reflexivity|]. intros d Hd. cbn [below map app]. rewrite add_value_right by now apply Forall_forall. f_equal. apply add_value_lower.
    - cbn [add_value]. destruct (path_eqb q p) eqn:E1.
      + exists ((q, if in_scripts v vs then vs else (vs ++ [v])%list) :: x), y. split; [reflexivity|]. intros d Hd. cbn [below map app add_value fst snd set_child LC]. unfold path_eqb in *. rewrite !lower_str, app_eqb, E1. reflexivity.
      + exists ((q, vs) :: x'), y'. split; [cbn [app]; now rewrite E|]. intros d Hd. cbn [below map app add_value fst snd set_child LC]. unfold path_eqb in *. rewrite !lower_str, app_eqb, E1. f_equal. now apply H.
  Qed.
  Lemma pv_split l : forall x y, exists x' y', pv_from l (x ++ y)%list = (x' ++ y')%list /\
    forall d, (forall e p, In e d -> path_str (fst e) <> path_str (PLex Content (Some p))) -> pv_from (map lower l) (below LC x ++ d ++ below LC y)%list = (below LC x' ++ d ++ below LC y')%list.
  Proof.
    induction l as [|[p v] l IH]; intros x y; [exists x, y; auto|]. cbn [pv_from fold_left map lower fst snd]. destruct (add_split p v x y) as (x1 & y1 & E1 & H1). destruct (IH x1 y1) as (x2 & y2 & E2 & H2). exists x2, y2.
    rewrite E1. split; [exact E2|]. intros d Hd. rewrite H1 by (intros e; apply Hd). now apply H2.
  Qed.
  Lemma LF_apart p : path_str LF <> path_str (PLex Content (Some p)). Proof. discriminate. Qed.
  Lemma pv_around a f b : f <> [] -> exists x y, path_to_value (a ++ b)%list = (x ++ y)%list /\ path_to_value (map lower a ++ FI f ++ map lower b)%list = (below LC x ++ [(LF, uniq f)] ++ below LC y)%list.
  Proof.
    intros NE. destruct (pv_split b (path_to_value a) []) as (x & y & E & H). exists x, y. rewrite app_nil_r in E. split.
    - unfold path_to_value at 1. rewrite fold_left_app. exact E.
    - rewrite app_assoc. unfold path_to_value. rewrite fold_left_app. fold (path_to_value (map lower a ++ FI f)). rewrite pv_app.
      + rewrite pv_lower. unfold FI. rewrite pv_same by exact NE. rewrite <- (app_nil_r [(LF, uniq f)]). apply (H [(LF, uniq f)]). intros e p [<-|[]]. apply LF_apart.
      + intros e e' He He'. apply in_map_iff in He, He'. destruct He as (z & <- & _), He' as (z' & <- & _). cbn [fst lower]. apply not_eq_sym, LF_apart.
  Qed.
  Lemma group_head h l b rest : child_of h = None -> group_all (below h l) (Bin (Some (class_of h)) None ((h, b) :: rest)) = do b <- group_all l b; Ok (Bin (Some (class_of h)) None ((h, b) :: rest)).
  Proof.
    intros Hc. revert b. induction l as [|[p vs] l IH]; intros b; [reflexivity|]. cbn [below map group_all fst snd]. assert (T : isinstance (set_child h (Some p)) (class_of h) = true) by (unfold isinstance; now rewrite class_set, pclass_eqb_refl, orb_true_r). rewrite group_by_eq, T. cbn [bind].
    rewrite child_set, alone_set, set_set. assert (A : set_child h None = h) by (rewrite <- Hc; apply set_child_id). rewrite A. cbn [update]. unfold path_eqb. rewrite String.eqb_refl. destruct (group_by p vs b) as [b'|]; cbn [bind]; [apply IH|reflexivity].
  Qed.
  Lemma lex_kids x f y b p : (x ++ y <> [])%list -> group_all (x ++ y)%list new_bin = Ok b -> build_nodes b = Ok (NPm p) ->
    exists c, group_all (below LC x ++ [(LF, f)] ++ below LC y)%list new_bin = Ok c /\ build_nodes c = Ok (NLexeme {| pm_flexion := flexion_of f; pm_content := p |}).
  Proof.
    intros NE E B. rewrite group_all_app. destruct x as [|e0 x0] eqn:Ex.
    - assert (S1 : group_all ([(LF, f)] ++ below LC y)%list new_bin = group_all (below LC y) (Bin (Some ClLex) None [(LF, Bin None (Some f) [])])) by reflexivity.
      cbn [below map group_all bind]. rewrite S1. pose proof (group_below LC y (Some ClLex) [(LF, Bin None (Some f) [])] eq_refl) as G. rewrite G; [|repeat constructor; discriminate|now right|exact NE].
      cbn [app] in E. rewrite E. cbn [bind app]. eexists. split; [reflexivity|]. rewrite build_nodes_eq, !mapM_step. cbn [fst snd]. rewrite B. reflexivity.
    - rewrite <- Ex in *. assert (Nx : x <> []) by now rewrite Ex. clear Ex. rewrite group_all_app in E. destruct (group_all x new_bin) as [b1|] eqn:E1; [|discriminate]. cbn [bind] in E.
      unfold new_bin. rewrite group_below; [|reflexivity|constructor|now left|exact Nx]. fold new_bin. rewrite E1. cbn [bind].
      assert (S1 : group_all ([(LF, f)] ++ below LC y)%list (Bin (Some (class_of LC)) None ([] ++ [(LC, b1)])) = group_all (below LC y) (Bin (Some (class_of LC)) None [(LC, b1); (LF, Bin None (Some f) [])])) by reflexivity.
      rewrite S1, group_head by reflexivity. rewrite E. cbn [bind]. eexists. split; [reflexivity|]. cbn [class_of LC]. rewrite build_nodes_eq, !mapM_step. cbn [fst snd]. rewrite B. reflexivity.
  Qed.
  Lemma pm_inv l p : l <> [] -> Forall (place_ok K) l -> usl_of_list so (map (itm nobare K) l) = Ok (UPm p) ->
    exists b, group_all (path_to_value (map CP (map (itm nobare K) l))) new_bin = Ok b /\ build_nodes b = Ok (NPm p).
  Proof.
    intros NE F E. assert (X : usl_of_list so (map (itm nobare K) l) = from_path_values so (map (itm nobare K) l)) by (clear - NE; destruct l; [congruence|reflexivity]). rewrite X, (from_items_all so SO) in E.
    - fold CP in E. destruct (group_all _ new_bin) as [b|]; [|discriminate]. exists b. split; [reflexivity|]. cbn [bind] in E. destruct (build_nodes b) as [[]|]; try discriminate E. cbn in E. injection E as ->. reflexivity.
    - rewrite Forall_map. eapply Forall_impl; [|exact F]. intros e. apply itm_ok.
  Qed.
  Lemma pv_nonempty l : l <> [] -> path_to_value l <> [].
  Proof.
    destruct l as [|[p v] l]; [congruence|]. intros _. unfold path_to_value. cbn [fold_left fst snd].
    assert (A : forall p v acc, add_value p v acc <> []) by (intros q w [|[k vs] acc]; cbn; [discriminate|destruct (path_eqb k q); discriminate]).
    assert (X : forall l acc, acc <> [] -> fold_left (fun acc e => add_value (fst e) (snd e) acc) l acc <> []); [|now apply X].
    clear l. intros l. induction l as [|e l IH]; intros acc H; [exact H|]. apply IH, A.
  Qed.
  (** The flexion with the content around it. *)
  Lemma lex_build a f b p : f <> [] -> (a ++ b <> [])%list -> Forall named f -> Forall (place_ok K) (a ++ b)%list -> usl_of_list so (map (itm nobare K) (a ++ b)%list) = Ok (UPm p) ->
    usl_of_list so (CI a ++ FI f ++ CI b)%list = Ok (ULexeme {| pm_flexion := flexion_of (uniq (map (P so) f)); pm_content := p |}).
  Proof.
    intros Nf Nc Ff Fc E. assert (X : usl_of_list so (CI a ++ FI f ++ CI b)%list = from_path_values so (CI a ++ FI f ++ CI b)%list) by (clear - Nf; destruct a; [destruct f; [congruence|reflexivity]|reflexivity]). rewrite X, (from_items_all so SO).
    - fold CP. rewrite !map_app, !CP_CI, CP_FI. destruct (pm_inv _ _ Nc Fc E) as (b0 & E1 & B1). rewrite !map_app in E1.
      destruct (pv_around (map CP (map (itm nobare K) a)) (map (P so) f) (map CP (map (itm nobare K) b))) as (x & y & Exy & Ep); [now destruct f|]. rewrite Ep, Exy in *.
      destruct (lex_kids x (uniq (map (P so) f)) y b0 p) as (c & E2 & B2); auto.
      + rewrite <- Exy. apply pv_nonempty. intros H. apply Nc. rewrite <- map_app in H. apply map_eq_nil in H. rewrite <- map_app in H. now apply map_eq_nil in H.
      + rewrite E2. cbn [bind]. now rewrite B2.
    - apply Forall_app in Fc. apply Forall_app. split; [apply CI_ok; tauto|]. apply Forall_app. split; [now apply FI_ok|apply CI_ok; tauto].
  Qed.
  Lemma lex_build_content c p : c <> [] -> Forall (place_ok K) c -> usl_of_list so (map (itm nobare K) c) = Ok (UPm p) ->
    usl_of_list so (CI c) = Ok (ULexeme {| pm_flexion := mk_pm [] []; pm_content := p |}).
  Proof.
    intros Nc Fc E. assert (X : usl_of_list so (CI c) = from_path_values so (CI c)) by (clear - Nc; destruct c; [congruence|reflexivity]). rewrite X, (from_items_all so SO) by now apply CI_ok.
    fold CP. rewrite CP_CI, pv_lower. destruct (pm_inv _ _ Nc Fc E) as (b0 & E1 & B1). unfold new_bin. rewrite group_below; [|reflexivity|constructor|now left|].
    - fold new_bin. rewrite E1. cbn [bind app class_of LC]. rewrite build_nodes_eq, !mapM_step. cbn [fst snd]. rewrite B1. reflexivity.
    - apply pv_nonempty. intros H. apply map_eq_nil in H. now apply map_eq_nil in H.
  Qed.
  Lemma lex_build_flexion f : f <> [] -> Forall named f -> usl_of_list so (FI f) = Ok (ULexeme {| pm_flexion := flexion_of (uniq (map (P so) f)); pm_content := mk_pm [] [] |}).
  Proof.
    intros Nf Ff. assert (X : usl_of_list so (FI f) = from_path_values so (FI f)) by (clear - Nf; destruct f; [congruence|reflexivity]). rewrite X, (from_items_all so SO) by now apply FI_ok.
    fold CP. rewrite CP_FI. unfold FI. rewrite pv_same by now destruct f. reflexivity.
  Qed.
End Build.
