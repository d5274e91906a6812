(** Proofs about iter_structure_path and deference. *)
From Coq Require Import List String Ascii Bool Arith Lia Permutation.
From Verif Require Import Base Script SortProofs Commons Usl UslProofs UslSpec Sfun SfunProofs SfunListProofs SfunWordProofs SfunSpec UslParser Path PathSpec PathProofs PathAlgProofs.
Import ListNotations.
Local Open Scope string_scope.

Lemma in_scripts_in m l : In m l -> in_scripts m l = true.
Proof. intros H. unfold in_scripts. apply existsb_exists. exists m. split; [auto|]. unfold script_eqb. apply String.eqb_refl. Qed.

(** ** Polymorphemes *)
Inductive pm_item (u : pm) : path -> usl -> Prop :=
| item_constant : pm_item u (PPoly Constant None None None) (UPm (mk_pm (constant u) []))
| item_constant_m m : In m (constant u) -> pm_item u (PPoly Constant (Some m) None None) (UScript m)
| item_group g gr : groups_at u g = Some gr -> pm_item u (PPoly g None (Some (snd gr)) None) (UPm (mk_pm [] [gr]))
| item_group_m g gr m : groups_at u g = Some gr -> In m (fst gr) -> pm_item u (PPoly g (Some m) (Some (snd gr)) None) (UScript m).
Lemma iter_pm_item u p x : In (p, x) (iter_pm u) <-> pm_item u p x.
Proof.
  unfold iter_pm. split.
  - intros [H|H]; [injection H as <- <-; constructor|]. apply in_app_or in H. destruct H as [H|H].
    + apply in_map_iff in H. destruct H as (m & [= <- <-] & H). now constructor.
    + apply in_flat_map in H. destruct H as (g & _ & H). destruct (groups_at u g) as [gr|] eqn:E; [|contradiction]. destruct H as [H|H]; [injection H as <- <-; now constructor|].
      apply in_map_iff in H. destruct H as (m & [= <- <-] & H). now constructor.
  - assert (G : forall g gr, groups_at u g = Some gr -> In g [Group0; Group1; Group2]) by (intros [] gr; cbn; auto; discriminate).
    intros [|m H|g gr E|g gr m E H]; [now left| | |]; right; apply in_or_app.
    + left. apply in_map_iff. eauto.
    + right. apply in_flat_map. exists g. split; [eauto|]. rewrite E. now left.
    + right. apply in_flat_map. exists g. split; [eauto|]. rewrite E. right. apply in_map_iff. eauto.
Qed.
Lemma pm_deref u p x : In (p, x) (iter_pm u) -> deref p (Some (UPm u)) = Ok (Some x).
Proof.
  intros H. apply iter_pm_item in H. destruct H as [|m H|g gr E|g gr m E H]; rewrite deref_eq; cbn [deref_step child_of]; unfold deref_poly.
  - reflexivity.
  - now rewrite in_scripts_in, orb_true_r.
  - destruct g; [discriminate|rewrite E; reflexivity..].
  - destruct g; [discriminate|rewrite E, (in_scripts_in m (fst gr)), orb_true_r by auto; reflexivity..].
Qed.
Lemma groups_at_in u g gr : groups_at u g = Some gr -> In gr (groups u).
Proof. destruct g; cbn [groups_at]; try discriminate; apply nth_error_In. Qed.

(** ** Lexemes *)
(** No empty morpheme in the groups, as the constructor makes them. *)
Definition swept (u : pm) : Prop := Forall (fun g => Forall (fun m => is_empty m = false) (fst g)) (groups u).
Lemma swept_mk cs gs : swept (mk_pm cs gs).
Proof.
  unfold swept, mk_pm. cbn [groups]. eapply Permutation_Forall; [apply Permutation_sym, sort_perm|]. apply Forall_map, Forall_forall. intros g _. cbn [fst].
  unfold isort. eapply Permutation_Forall; [apply Permutation_sym, sort_perm|]. apply filter_empty_all.
Qed.
Lemma flex_deref u m : swept u -> In m (constant u) \/ (exists g, In g (groups u) /\ In m (fst g)) -> deref_flex m u = Ok (UScript m).
Proof.
  intros Hs H. unfold deref_flex. assert (X : ins (str m) (map str (constant u ++ flat_map (fun g => filter_empty (fst g)) (groups u))) = true).
  { apply ins_In. apply in_map. apply in_or_app. destruct H as [H|(g & Hg & H)]; [now left|right]. apply in_flat_map. exists g. split; [auto|].
    unfold swept in Hs. rewrite Forall_forall in Hs. rewrite filter_empty_id; auto. }
  now rewrite X.
Qed.
Lemma lexeme_deref l p x : swept (pm_flexion l) -> In (p, x) (iter_lexeme l) -> tail p <> PLex Flexion None -> deref p (Some (ULexeme l)) = Ok (Some x).
Proof.
  intros Hs H T. unfold iter_lexeme in H. destruct H as [H|H]; [injection H as <- <-; cbn in T; congruence|]. apply in_app_or in H. destruct H as [H|[H|H]].
  - apply in_map_iff in H. destruct H as ([q y] & [= <- <-] & H). cbn [fst snd] in *. apply iter_pm_item in H. 
    destruct H as [|m H|g gr E|g gr m E H]; cbn [flexion_path tail] in T; try congruence; cbn [flexion_path].
    + cbn. rewrite flex_deref by auto. reflexivity.
    + cbn. rewrite flex_deref; [reflexivity|auto|]. right. exists gr. split; [eapply groups_at_in; eauto|auto].
  - injection H as <- <-. reflexivity.
  - apply in_map_iff in H. destruct H as ([q y] & [= <- <-] & H). cbn [fst snd] in *. rewrite deref_eq. cbn [deref_step child_of bind]. now apply pm_deref.
Qed.
Lemma lexeme_deref_flexion l p x : In (p, x) (iter_lexeme l) -> tail p = PLex Flexion None ->
  deref p (Some (ULexeme l)) = Ok (Some (UPm (pm_flexion l))) /\
  (x = UPm (pm_flexion l) \/ x = UPm (mk_pm (constant (pm_flexion l)) []) \/ exists gr, In gr (groups (pm_flexion l)) /\ x = UPm (mk_pm [] [gr])).
Proof.
  intros H T. unfold iter_lexeme in H. destruct H as [H|H]; [injection H as <- <-; auto|]. apply in_app_or in H. destruct H as [H|[H|H]].
  - apply in_map_iff in H. destruct H as ([q y] & [= <- <-] & H). cbn [fst snd] in *. apply iter_pm_item in H.
    destruct H as [|m H|g gr E|g gr m E H]; cbn [flexion_path tail] in T; try discriminate; cbn [flexion_path]; (split; [reflexivity|]); auto.
    right. right. exists gr. split; [eapply groups_at_in; eauto|auto].
  - injection H as <- <-. discriminate.
  - apply in_map_iff in H. destruct H as ([q y] & [= <- <-] & H). cbn [fst] in T. exfalso. apply iter_pm_item in H. destruct H; cbn in T; discriminate.
Qed.

(** ** Words *)
Lemma valence_role x : In x VALENCES -> ins x ADDRESS_ROLE_IN_PROCESS = true.
Proof. intros H. apply ins_In. apply in_or_app. now left. Qed.
Lemma actant_role x : In x ACTANTS -> ins x ADDRESS_ROLE_IN_PROCESS = true.
Proof. intros H. apply ins_In. apply in_or_app. now right. Qed.
Lemma inner_not_valence s : inner s -> ins s VALENCES = false.
Proof.
  assert (J : forallb (fun x => negb (ins x VALENCES)) (JUNCTION_SCRIPTS ++ JUNCTION_INDEX) = true) by (vm_compute; reflexivity).
  intros [->|[->|H]]; [reflexivity|reflexivity|]. eapply disjoint_test; [exact J|]. apply in_or_app. exact H.
Qed.
Lemma inner_head k f s r g : valid lexeme k f -> In (s :: r, g) (actors f) -> ins s VALENCES = false.
Proof. intros V H. apply inner_not_valence. pose proof (actors_inner _ _ _ V _ _ H) as I. now inversion I. Qed.
Lemma sfun_get_ok c f r x : cvalid lexeme c f -> In (r, x) (as_list c f) -> sfun_get f r = Ok x.
Proof.
  intros V H. unfold as_list in H. apply in_map_iff in H. destruct H as ([r0 g] & [= <- <-] & H). apply filter_In in H. destruct H as [H _]. cbn [fst snd] in *.
  pose proof (actors_roles _ _ _ _ _ V H) as R. pose proof (node_at_in _ _ _ _ _ V R H) as N. destruct c; cbn [context_prefix app] in *.
  - cbn [cvalid pvalid] in V. destruct f as [| | |a v acts]; try contradiction. pose proof V as (Vv & ND & F). cbn [actors] in H. destruct H as [H|H].
    + injection H as <- <-. cbn [sfun_get]. rewrite (valence_role v Vv), (proj2 (ins_In v VALENCES) Vv).
      assert (X : find (fun v0 => match node_at (Proc a v acts) [v0] with Some _ => true | None => false end) VALENCES = Some v).
      { destruct (find _ VALENCES) as [w|] eqn:E.
        - apply find_some in E. destruct E as [Hw E]. destruct (node_at _ [w]) as [n|] eqn:En; [|discriminate].
          apply node_at_some in En. destruct En as (r' & Hr & Er).
          assert (Rw : vrole [w]) by (constructor; [apply address_in; auto|constructor]).
          apply (role_eqb_eq [w] r' Rw) in Er; [|eapply (actors_roles _ CProcess); eauto]. subst r'. f_equal. cbn [actors] in Hr. destruct Hr as [Hr|Hr]; [congruence|]. exfalso.
          clear -Hr F Hw. induction F as [|[s g] l [Hs _] F IH]; [contradiction|]. apply in_app_or in Hr. destruct Hr as [Hr|Hr]; [|auto].
          unfold under in Hr. apply in_map_iff in Hr. destruct Hr as ([r2 g2] & Er & _). cbn [fst snd app] in *. injection Er as -> _ _.
          apply actant_not_valence in Hs. apply ins_out in Hs. contradiction.
        - exfalso. eapply find_none in E; [|exact Vv]. cbn beta in E. now rewrite N in E. }
      rewrite X. cbn [bind]. now rewrite N.
    + assert (X : exists s r', r0 = s :: r' /\ In s ACTANTS).
      { clear -H F. induction F as [|[s g1] l [Hs _] F IH]; [contradiction|]. apply in_app_or in H. destruct H as [H|H]; [|auto].
        unfold under in H. apply in_map_iff in H. destruct H as ([r2 g2] & [= <- <-] & _). cbn. eauto. }
      destruct X as (s & r' & -> & Hs). cbn [sfun_get]. rewrite (actant_role s Hs), (actant_not_valence s Hs). cbn [bind]. now rewrite N.
  - cbn [sfun_get]. change (ins DEPENDANT_QUALITY ADDRESS_ROLE_IN_PROCESS) with false. cbn [cvalid] in V. destruct r0 as [|s r']; [cbn [bind]; now rewrite N|].
    rewrite (inner_head _ _ _ _ _ V H). cbn [bind]. now rewrite N.
  - cbn [sfun_get]. change (ins INDEPENDANT_QUALITY ADDRESS_ROLE_IN_PROCESS) with false. cbn [cvalid] in V. destruct r0 as [|s r']; [cbn [bind]; now rewrite N|].
    rewrite (inner_head _ _ _ _ _ V H). cbn [bind]. now rewrite N.
Qed.

(** ** All USLs *)
Lemma Ok_inj {A} (a b : A) : Ok a = Ok b -> a = b. Proof. now intros [= H]. Qed.
Lemma iter_word_in w items p x : iter_word w = Ok items -> In (p, x) items ->
  (p = PUsl None /\ x = UWord w) \/
  exists r l f, In (r, Some l) (as_list (w_context w) (w_fun w)) /\
    ((p = PRole r f None /\ x = ULexeme l) \/ exists q, p = PRole r f (Some q) /\ In (q, x) (iter_lexeme l)).
Proof.
  unfold iter_word. destruct (mapM _ _) as [ls|] eqn:E; [|discriminate]. cbn [bind]. intros [= <-] [H|H]; [injection H as <- <-; auto|right].
  apply in_concat in H. destruct H as (items & Hi & H). apply mapM_inv in E.
  assert (X : exists e, In e (as_list (w_context w) (w_fun w)) /\ iter_entry (w_role w) e = Ok items).
  { clear H. revert Hi. induction E as [|e y es ys He E IH]; [intros []|]. intros [->|Hi]; [exists e; split; [now left|auto]|]. destruct (IH Hi) as (e' & ? & ?). exists e'. split; [now right|auto]. }
  destruct X as ([r [l|]] & He & Ei); unfold iter_entry in Ei; cbn [fst snd] in Ei; [|discriminate]. apply Ok_inj in Ei. subst items. exists r, l, (role_eqb r (w_role w)). split; [auto|].
  destruct H as [H|H]; [left; injection H as <- <-; auto|right]. apply in_map_iff in H. destruct H as ([q y] & [= <- <-] & H). eauto.
Qed.
