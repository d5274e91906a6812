(** Lemmas on the dictionary of a folder and on the effects of the transactions on paradigms. *)
From Coq Require Import List String Ascii Bool NArith Arith Lia Permutation.
From Verif Require Import Base Script ScriptParser ScriptSpec ScriptWf ScriptCtorProofs ScriptParseProofs ScriptEqProofs ScriptMoreProofs ScriptSeqProofs TablesProofs TablesGridProofs UslProofs SortProofs Factor
  Dictionary DictionarySpec DictTableProofs DictLoadProofs DictTopProofs
  Database DatabaseSpec DatabaseProofs DatabaseRefine Git GitProofs Cache Transactions TransactionsProofs Properties3 Properties4 Properties6 Properties16 Paradigms ParadigmsSpec ParadigmsProofs.
Import ListNotations.
Local Open Scope string_scope.

(** * The roots met *)
Lemma same_root_refl r : same_root r r = true.
Proof. destruct r as [r|]; [|reflexivity]. cbn. apply String.eqb_refl. Qed.
Lemma dedup_same r l : l <> [] -> (forall x, In x l -> x = r) -> dedup same_root l = [r].
Proof.
  intros N H. destruct l as [|x l]; [congruence|]. rewrite (H x) in * by (simpl; auto). unfold dedup. cbn [dedup_aux memb existsb]. f_equal.
  assert (K : forall y, In y l -> y = r) by (intros; apply H; simpl; auto). clear N H. induction l as [|y l IH]; [reflexivity|]. rewrite (K y) by (simpl; auto). cbn [dedup_aux memb existsb]. rewrite same_root_refl. cbn [orb]. apply IH. intros z Hz. apply K. simpl. auto.
Qed.
Lemma dedup_all l c : dedup same_root l = [c] -> forall x, In x l -> same_root x c = true.
Proof.
  intros E x Hx. destruct (SortProofs.dedup_complete same_root same_root_refl l x Hx) as (y & Hy & S). rewrite E in Hy. destruct Hy as [<-|[]]. exact S.
Qed.
Lemma ss_some s l : wf s -> ss s = Ok l -> l <> [].
Proof.
  intros W E. destruct (some_word s W) as [w Hw]. destruct (ss_find s l w W E Hw) as (x & Hx & _). intros ->. destruct Hx.
Qed.

Section Dict.
  Variable so : list script -> list script.
  Hypothesis SO : set_order so.
  Variables (P : list string) (rows : list (string * string * string)) (d : dictionary).
  Hypothesis Made : make_dictionary so P rows = Ok d.

  Lemma roots_same r r' : In r (d_root_scripts d) -> In r' (d_root_scripts d) -> str r = str r' -> r = r'.
  Proof.
    intros H H' E. destruct (make_spec so SO _ _ _ Made) as (all & A). pose proof A as (_ & _ & _ & Wr & Dj & _). rewrite Forall_forall in Wr.
    destruct (some_word r (Wr r H)) as [w Hw]. apply (disjoint_one _ r r' w Dj H H' Hw). apply (same_text r r'); auto.
  Qed.
  Lemma roots_met_some s r : wf s -> In r (d_root_scripts d) -> included s r -> roots_met d s = Ok [Some r].
  Proof.
    intros W Hr I. destruct (make_spec so SO _ _ _ Made) as (all & A). destruct (ss_total s W) as (l & El & _). unfold roots_met. rewrite El. cbn [bind]. f_equal. apply dedup_same.
    - intros E. apply map_eq_nil in E. exact (ss_some s l W El E).
    - intros x Hx. apply in_map_iff in Hx as (y & <- & Hy). pose proof (ss_sing s l y W El Hy) as (Wy & Cy & Ly).
      assert (Iy : included y r) by (split; [destruct I; congruence|intros w Hw; apply I; eapply ss_word; eauto]).
      assert (Wr : wf r) by (pose proof (Wroots so _ _ _ _ A) as X; rewrite Forall_forall in X; auto).
      destruct (ss_total r Wr) as (lr & Er & _). destruct (some_word y Wy) as [w Hw]. destruct (ss_find r lr w Wr Er (proj2 Iy w Hw)) as (z & Hz & Zw & Sz).
      destruct (C65_singular_sequences so SO P rows d Made r lr z Hr Er Hz) as (m & Hm & Em).
      assert (Eyz : str z = str y). { destruct Iy as [Liy _]. apply (sing1_text (layer r)); [exact Sz|split; auto|]. destruct Sz as (Wz & Cz & _). apply wordof_means in Zw; auto. apply wordof_means in Hw; auto. congruence. }
      eapply root_of_total; eauto. exists m. split; [exact Hm|congruence].
  Qed.
  Lemma roots_met_inv s r : wf s -> roots_met d s = Ok [Some r] -> In r (d_root_scripts d) /\ included s r.
  Proof.
    intros W E. destruct (make_spec so SO _ _ _ Made) as (all & A). destruct (ss_total s W) as (l & El & _). unfold roots_met in E. rewrite El in E. cbn [bind] in E. apply Ok_inj in E.
    assert (K : forall x, In x l -> root_of d x = Some r /\ In r (d_root_scripts d) /\ included x r).
    { assert (Hr : exists y, In y l /\ root_of d y = Some r).
      { assert (H : In (Some r) (dedup same_root (map (root_of d) l))) by (rewrite E; simpl; auto). apply dedup_in in H. apply in_map_iff in H as (y & H & Hy). eauto. }
      destruct Hr as (y & Hy & Ry). pose proof (ss_sing s l y W El Hy) as (Wy & _). destruct (root_of_spec so SO _ _ _ _ A y r Wy Ry) as [Hr _].
      intros x Hx. pose proof (dedup_all _ _ E (root_of d x) (in_map _ _ _ Hx)) as S. destruct (root_of d x) as [r'|] eqn:Rx; [|discriminate]. cbn [same_root] in S. apply script_eqb_str in S.
      pose proof (ss_sing s l x W El Hx) as (Wx & _). destruct (root_of_spec so SO _ _ _ _ A x r' Wx Rx) as [Hr' Ix]. assert (r' = r) as -> by (apply roots_same; auto). auto. }
    destruct (some_word s W) as [w0 Hw0]. destruct (ss_find s l w0 W El Hw0) as (x0 & Hx0 & _). destruct (K x0 Hx0) as (_ & Hr & I0). split; [exact Hr|]. split.
    - pose proof (ss_sing s l x0 W El Hx0) as (_ & _ & L0). destruct I0. congruence.
    - intros w Hw. destruct (ss_find s l w W El Hw) as (x & Hx & Xw & _). destruct (K x Hx) as (_ & _ & _ & Ix). auto.
  Qed.
  Lemma roots_met_total s : wf s -> exists c, roots_met d s = Ok c.
  Proof. intros W. destruct (ss_total s W) as (l & El & _). unfold roots_met. rewrite El. cbn [bind]. eauto. Qed.
  Lemma forest_roots : map fst (d_forest d) = d_root_scripts d.
  Proof.
    destruct (make_spec so SO _ _ _ Made) as (all & A). destruct A as (_ & _ & B & _). unfold build_tables in B. destruct (mapM _ (d_root_scripts d)) as [ls|] in B; cbn [bind] in B; [|discriminate]. destruct (assign ls all) as [m|]; cbn [bind] in B; [|discriminate].
    revert B. generalize (d_forest d). induction (d_root_scripts d) as [|r rs IH]; intros f B; cbn [mapM] in B.
    - apply Ok_inj in B. subst f. reflexivity.
    - destruct (define_root so r _) as [l|]; cbn [bind] in B; [|discriminate]. destruct (mapM _ rs) as [ys|]; cbn [bind] in B; [|discriminate]. apply Ok_inj in B. subst f. cbn [map fst]. f_equal. now apply IH.
  Qed.
  Lemma member_plural s : tidy so P -> wf s -> member d s -> cardinal s <> 1%N -> In (str s) P.
  Proof.
    intros T W (x & Hx & Ex) C. destruct (make_spec so SO _ _ _ Made) as (all & A). destruct (C65_from_given so SO _ _ _ Made x Hx) as (p & v & Hp & Pv & [E|[E _]]).
    - rewrite <- Ex, E, (T p v Hp Pv). exact Hp.
    - pose proof (scripts_wf so _ _ _ _ A x Hx) as Wx. destruct (eq_attributes x s Wx W Ex) as [(_ & _ & Cc & _) _]. congruence.
  Qed.
End Dict.

(** * The dictionary of a folder *)
(** The structure says this with a true value. *)
Definition states (T : list srecord) (i k : string) : Prop := exists v, true_value v /\ In (i, k, v) T.
(** The expression has a descriptor. *)
Definition described (D : list drecord) (i : string) : Prop := exists r, In r D /\ dieml r = i.
Definition plural (so : list script -> list script) (i : string) : Prop := exists s, parse so i = Ok s /\ cardinal s <> 1%N.

Section Folder2.
  Variable so : list script -> list script.
  Hypothesis SO : set_order so.
  Variable parse_ieml : string -> res string.
  Variable path : bool -> string -> string.
  Variables is_desc listed : string -> bool.
  Variable fo : fsys -> fsys.
  Hypothesis ok : paradigms_folder so parse_ieml path is_desc listed.
  Hypothesis Fo : file_order fo.
  Let fok := pf_folder _ _ _ _ _ ok.
  Notation Inv := (Inv parse_ieml path).
  Notation dict := (get_dictionary so is_desc fo listed).

  Lemma read_rows_in fs st rows : Inv fs st -> get_structure is_desc fo fs = Ok rows -> forall row, In row rows <-> In row (snd st).
  Proof.
    intros HI E row. destruct (read_structure parse_ieml path is_desc fok fs st fo HI Fo) as [H0 H1].
    destruct (snd st) as [|r T] eqn:ET; [rewrite H0 in E by reflexivity; discriminate|]. rewrite <- ET in *. destruct H1 as (rows' & E' & F); [congruence|].
    rewrite E in E'. apply Ok_inj in E'. subst rows'. specialize (F (sieml row) (fun _ => true)).
    split; intros H.
    - assert (X : In row (filter (fun r => (String.eqb (sieml r) (sieml row) && true)%bool) rows)) by (apply filter_In; rewrite String.eqb_refl; auto). rewrite F in X. apply filter_In in X. tauto.
    - assert (X : In row (filter (fun r => (String.eqb (sieml r) (sieml row) && true)%bool) (snd st))) by (apply filter_In; rewrite String.eqb_refl; auto). rewrite <- F in X. apply filter_In in X. tauto.
  Qed.
  Lemma dict_state fs st d : Inv fs st -> dict fs = Ok d -> exists P rows, make_dictionary so P rows = Ok d /\ tidy so P /\
    (forall i, In i P <-> plural so i /\ described (fst st) i) /\ (forall row, In row rows <-> In row (snd st)).
  Proof.
    intros HI E. unfold get_dictionary in E. destruct (get_structure is_desc fo fs) as [rows|] eqn:Er; cbn [bind] in E; [|discriminate].
    pose proof (list_paradigms_spec so SO parse_ieml path is_desc listed fo ok Fo fs st) as L.
    exists (list_paradigms fo listed fs), (sort row_lt rows). split; [exact E|]. split; [|split].
    - intros p s Hp Ps. apply (L p HI) in Hp as (_ & r & Hr & <-). apply (normal_text so parse_ieml path is_desc listed ok _ _); [|exact Ps].
      destruct HI as (_ & _ & _ & GD & _). specialize (GD r Hr). destruct r as [[[j l] c] v]. destruct GD as (G & _). exact G.
    - intros i. apply (L i HI).
    - intros row. rewrite <- (read_rows_in fs st rows HI Er row). split; apply Permutation_in; [|apply Permutation_sym]; apply sort_perm.
  Qed.
  Lemma record_normal fs st i k v : Inv fs st -> In (i, k, v) (snd st) -> parse_ieml i = Ok i.
  Proof. intros (_ & _ & _ & _ & GS) H. specialize (GS _ H). destruct GS as (G & _). exact G. Qed.

  (** The roots of the dictionary are the plural scripts which have a descriptor and are said to be
      roots and not to be ignored. *)
  Lemma roots_exact fs st d : Inv fs st -> dict fs = Ok d -> forall i,
    In i (roots_of d) <-> plural so i /\ described (fst st) i /\ states (snd st) i "is_root" /\ ~ states (snd st) i "is_ignored".
  Proof.
    intros HI E. destruct (dict_state fs st d HI E) as (P & rows & M & T & HP & HR). pose proof (C50_roots so SO P rows d M) as [R1 R2].
    destruct (make_spec so SO _ _ _ M) as (all & A). intros i. split.
    - intros H. apply in_map_iff in H as (r & <- & Hr). destruct (C65_roots_inside so SO P rows d M r Hr) as [Mr Cr].
      assert (Wr : wf r) by (pose proof (Wroots so _ _ _ _ A) as X; rewrite Forall_forall in X; auto).
      pose proof (member_plural so SO P rows d M r T Wr Mr Cr) as Hp. pose proof Hp as Hp'. apply HP in Hp' as [Pl De]. split; [exact Pl|]. split; [exact De|]. split.
      + destruct (R1 r Hr) as (value & (p & v & Hin & Pv & Ev) & Tv). apply HR in Hin. exists value. split; [exact Tv|].
        rewrite <- Ev, (normal_text so parse_ieml path is_desc listed ok p v); auto. eapply record_normal; eauto.
      + intros (v & Tv & Hin). apply HR in Hin. destruct Pl as (s & Ps & _). refine (C65_ignored so SO P rows d M T (str r) s v Hp Ps Hin Tv _).
        destruct Mr as (x & Hx & Ex). exists x. split; [exact Hx|]. rewrite Ex. symmetry. apply (T _ _ Hp Ps).
    - intros ((s & Ps & Cs) & De & (v & Tv & Hin) & Ni). assert (Hp : In i P) by (apply HP; split; [exists s; auto|exact De]).
      destruct (R2 i s v Hp Ps) as (r & Hr & Er); [now apply HR|exact Tv| |].
      + intros t (value & (p & v' & Hin' & Pv' & Ev') & Tv') Et. apply Ni. apply HR in Hin'. exists value. split; [exact Tv'|].
        assert (p = i) as <-; [|exact Hin']. rewrite <- (normal_text so parse_ieml path is_desc listed ok p v'), Ev', Et by (auto; eapply record_normal; eauto). apply (T _ _ Hp Ps).
      + apply in_map_iff. exists r. split; [|exact Hr]. rewrite Er. apply (T _ _ Hp Ps).
  Qed.

  (** * Transactions whose calls succeed *)
  Lemma steps_body ops fs : steps parse_ieml path (map (@Ok op) ops) fs = body parse_ieml path ops fs.
  Proof.
    revert fs. induction ops as [|o ops IH]; intros fs; [reflexivity|]. cbn [map steps body]. destruct (exec parse_ieml path fs o); [apply IH|reflexivity].
  Qed.
  Lemma transaction_ext r b b' a : (forall fs, b fs = b' fs) -> transaction r b a = transaction r b' a.
  Proof. intros H. unfold transaction. rewrite H. reflexivity. Qed.

  (** A call of one of the transactions succeeds. *)
  Definition feasible (o : op) : Prop :=
    match o with
    | AddDescriptor i l c v => parse_ieml i = Ok i /\ plain i /\ In l LANGUAGES /\ In c DESCRIPTORS_CLASS /\ plain v /\ ~ In (normalize_value v) NA_VALUES
    | RemoveDescriptor i None None None => parse_ieml i = Ok i /\ plain i
    | AddStructure i k v => parse_ieml i = Ok i /\ plain i /\ svalue k v <> None
    | RemoveStructure i None None => parse_ieml i = Ok i /\ plain i
    | _ => False
    end.
  Lemma svalue_nonempty k v : svalue k v <> None -> v <> "" /\ k <> "".
  Proof.
    intros H. split; intros ->; apply H; unfold svalue, structure_value.
    - destruct (String.eqb k "inhibition"); [reflexivity|]. destruct (mem k _); reflexivity.
    - reflexivity.
  Qed.
  Lemma feasible_plain o : feasible o -> plain_op parse_ieml o.
  Proof.
    destruct o as [i l c v|i [l|] [c|] [v|]|i k v|i [k|] [v|]]; cbn [feasible]; try tauto.
    - intros (Hi & Hp & _ & _ & Hv & Hn). split; [|auto]. split; [intros n E; congruence|]. apply Hv.
    - intros (Hi & Hp). split; [|exact Logic.I]. split; [intros n E; congruence|congruence].
    - intros (Hi & Hp & S). split; [|exact Logic.I]. split; [intros n E; congruence|]. apply (svalue_nonempty k v S).
    - intros (Hi & Hp). split; [|exact Logic.I]. split; [intros n E; congruence|congruence].
  Qed.
  Lemma feasible_exec o fs : feasible o -> exists fs', exec parse_ieml path fs o = Ok fs'.
  Proof.
    destruct o as [i l c v|i [l|] [c|] [v|]|i k v|i [k|] [v|]]; cbn [feasible]; try tauto.
    - intros (Hi & _ & Hl & Hc & _). apply (exec_add parse_ieml path is_desc fok); auto.
    - intros (Hi & _). apply (exec_remove_all parse_ieml path is_desc fok); auto.
    - intros (Hi & _ & S). destruct (svalue_nonempty k v S) as [Nv Nk]. unfold exec, add_structure. rewrite (nk_svalue parse_ieml path is_desc fok _ _ _ _ _ Hi Nv Nk). destruct (svalue k v); [|congruence]. cbn [bind].
      rewrite path_of_parsed by auto. cbn [bind]. eauto.
    - intros (Hi & _). unfold exec, remove_structure. assert (N : forall x, parse_ieml "" = Ok x -> False) by (intros x; apply (parse_empty _ _ _ fok)).
      unfold normalize_key. cbn [orb negb Database.truthy andb]. destruct (String.eqb_spec i "") as [->|]; [exfalso; eapply N; eauto|]. cbn [negb andb]. rewrite Hi. cbn [bind]. rewrite path_of_parsed by auto. cbn [bind]. destruct (fs_get _ _); eauto.
  Qed.

  Variable ops : list op.
  Hypothesis Hops : Forall (plain_op parse_ieml) ops.
  Let D := fst (multimap parse_ieml ops).
  Let T := snd (multimap parse_ieml ops).

  Lemma history_inv o : Forall (plain_op parse_ieml) o -> Inv (run parse_ieml path [] o) (multimap parse_ieml o).
  Proof.
    intros H. destruct (multimap_run parse_ieml o H) as [E _]. rewrite <- E. apply (run_inv parse_ieml path is_desc fok); [apply Inv_empty|]. eapply Forall_impl; [|exact H]. intros x [X _]. exact X.
  Qed.
  Lemma run_calls r new : work r = run parse_ieml path [] ops -> nothing_to_commit r -> Forall feasible new ->
    exists r', transaction r (steps parse_ieml path (map (@Ok op) new)) NoAccident = (Ok tt, r') /\
      work r' = run parse_ieml path [] (ops ++ new) /\ nothing_to_commit r' /\ one_commit r r' /\ Forall (plain_op parse_ieml) (ops ++ new).
  Proof.
    intros Hw Hc Hn. pose proof (history_inv ops Hops) as HI. rewrite <- Hw in HI.
    assert (Hp : Forall (plain_op parse_ieml) new) by (eapply Forall_impl; [|exact Hn]; intros o; apply feasible_plain).
    destruct (transaction_ok r (body parse_ieml path new) (run parse_ieml path (work r) new) Hc) as (r1 & E1 & W1 & N1 & C1).
    - apply (body_run parse_ieml path is_desc fok new _ _ HI).
      + eapply Forall_impl; [|exact Hp]. intros o [H _]. exact H.
      + intros o fs st Ho _. rewrite Forall_forall in Hn. apply feasible_exec, Hn, Ho.
    - exists r1. rewrite (transaction_ext _ _ (body parse_ieml path new)) by (intros; apply steps_body). split; [exact E1|]. split; [|split; [exact N1|split; [exact C1|apply Forall_app; auto]]].
      rewrite W1, Hw. unfold run. rewrite <- fold_left_app. reflexivity.
  Qed.
  Lemma structure_of_spec o i k : Forall (plain_op parse_ieml) o ->
    structure_of is_desc fo (run parse_ieml path [] o) i k = svalues_of (snd (multimap parse_ieml o)) i k.
  Proof.
    intros H. pose proof (C40_structure_is_a_multimap parse_ieml path is_desc fo o fok Fo H) as X. unfold structure_of.
    destruct (get_structure is_desc fo (run parse_ieml path [] o)) as [rows|]; [apply X|]. destruct X as [-> _]. reflexivity.
  Qed.
  Lemma message_ok o i : Forall (plain_op parse_ieml) o -> message_of parse_ieml is_desc fo (run parse_ieml path [] o) i = Ok tt.
  Proof.
    intros H. unfold message_of.
    assert (K : forall l, In l LANGUAGES -> (do vs <- descriptor_values parse_ieml is_desc fo (run parse_ieml path [] o) i l "translations";
                if existsb (fun v => match v with None => true | Some _ => false end) vs then @Err unit TypeError else Ok tt) = Ok tt).
    { intros l Hl. rewrite (C40_database_is_a_multimap_partial parse_ieml path is_desc fo o fok Fo H i l "translations" Hl) by (simpl; auto). cbn [bind].
      match goal with |- (if ?b then _ else _) = _ => assert (b = false) as ->; [|reflexivity] end. induction (values_of _ i l _) as [|v vs IH]; [reflexivity|exact IH]. }
    unfold LANGUAGES in *. cbn [mapM]. rewrite !K by (simpl; auto). reflexivity.
  Qed.
End Folder2.
