(** Properties of the paths in USLs: C30, C31, C32, C59. *)
From Coq Require Import List String Bool NArith Arith Lia Permutation.
From Verif Require Import Base Script ScriptParser SortProofs ScriptWf ScriptStrProofs ScriptOrderProofs ScriptSpec ScriptCtorProofs ScriptParseProofs Commons Usl UslSpec OrderTheory UslProofs UslSsProofs Properties1 Properties8
  Sfun SfunProofs SfunListProofs SfunWordProofs SfunSpec Properties9 UslParser UslParserProofs Properties10
  Path PathSpec PathProofs PathAlgProofs PathTextProofs PathDerefProofs.
Import ListNotations.
Local Open Scope string_scope.

Lemma place_nf p : place regular p -> place nf p.
Proof. intros [g m k H]. constructor. destruct m; [now apply regular_nf|exact Logic.I]. Qed.
Lemma lexeme_place_nf p : lexeme_place regular p -> lexeme_place nf p.
Proof. intros [i|q H|m H]; constructor; [now apply place_nf|now apply regular_nf]. Qed.
Lemma proper_nf p : proper regular p -> proper nf p.
Proof.
  intros [|q H|m H|q H|r f N V|r f q N V H]; [apply proper_usl|apply proper_place|apply proper_flexion|apply proper_lexeme|apply proper_role|apply proper_role_lexeme]; auto using place_nf, lexeme_place_nf.
  now apply regular_nf.
Qed.

(** * C30 *)
(** The text of a path is parsed back to an equal path, which designates the same element of
    every USL. Missing: paths into a group without a multiplicity or with one of several
    digits, and paths that are not of the form the parser gives; see the refutations. *)
Theorem C30_round_trip_partial : forall so p, set_order so -> proper regular p -> one_digit p ->
  exists q, path_parse so (path_str p) = Ok q /\ path_eqb q p = true /\ forall u, same_node (deref q u) (deref p u).
Proof.
  intros so p SO P D. destruct (path_parse_alike so SO p (proper_nf p P) D) as (q & E & A). exists q. split; [exact E|].
  pose proof (alike_str p q A D) as S. split; [unfold path_eqb; now apply String.eqb_eq|]. intros u. apply same_text_same_node; [eapply alike_proper; [apply proper_nf, P|exact A]|now apply proper_nf|exact S].
Qed.
Print Assumptions C30_round_trip_partial.
(** Equal paths designate the same element of every USL. *)
Theorem C30_same_text_same_element : forall p q u, proper regular p -> proper regular q -> path_eqb p q = true ->
  same_node (deref p u) (deref q u).
Proof. intros p q u P Q E. apply same_text_same_node; auto using proper_nf. now apply String.eqb_eq. Qed.
Print Assumptions C30_same_text_same_element.
(** Roles of address scripts, decided. *)
Lemma role_by r : forallb (fun s => ins s ADDRESS_SCRIPTS) r = true -> valid_role r.
Proof. intros H. rewrite forallb_forall in H. apply Forall_forall. intros s Hs. apply ins_In. auto. Qed.
Example C30_case : let p := PRole [INTERACTANT; AND_; I1] true (Some (PLex Content (Some (PPoly Group1 (Some A_) (Some 2) None)))) in
  let q := PRole [INTERACTANT; AND_; I1] true (Some (PLex Content (Some (PPoly Constant (Some A_) (Some 1) None)))) in
  let q' := PRole [INTERACTANT; AND_; I1] true (Some (PLex Content (Some (PPoly Constant (Some A_) None None)))) in
  proper regular p /\ one_digit p /\ path_str p = ">role>! E:.d.- E:.-u.-k.u.-' j.-A:.-'d.o.-l.o.-',>content>group_1 2>wa." /\ path_parse ident (path_str p) = Ok p /\
  proper regular q /\ proper regular q' /\ path_eqb q q' = true /\ q <> q'.
Proof.
  cbv zeta. assert (V : valid_role [INTERACTANT; AND_; I1]) by (apply role_by; vm_compute; reflexivity).
  split. { apply proper_role_lexeme; [discriminate|exact V|]. apply lexeme_content. constructor. cbn. auto. }
  split; [exists 2; split; [reflexivity|lia]|]. split; [vm_compute; reflexivity|]. split; [vm_compute; reflexivity|].
  split. { apply proper_role_lexeme; [discriminate|exact V|]. apply lexeme_content. constructor. cbn. auto. }
  split. { apply proper_role_lexeme; [discriminate|exact V|]. apply lexeme_content. constructor. cbn. auto. }
  split; [vm_compute; reflexivity|discriminate].
Qed.
(** Paths of the constructors that the parser does not read, or reads as a path with another
    text, and two paths of the same text that designate different elements. *)
Theorem C30_round_trip_refuted :
  path_parse ident (path_str (PPoly Group0 None None None)) = Ok (PPoly Group0 None (Some 1) None) /\
  path_str (PPoly Group0 None None None) = ">group_0" /\ path_str (PPoly Group0 None (Some 1) None) = ">group_0 1" /\
  path_parse ident (path_str (PPoly Group0 (Some A_) (Some 10) None)) = Err CannotParse /\
  path_parse ident (path_str (PUsl (Some (PPoly Constant None None None)))) = Err CannotParse /\
  path_parse ident (path_str (PRole [] false None)) = Err CannotParse.
Proof. repeat split; vm_compute; reflexivity. Qed.
Print Assumptions C30_round_trip_refuted.
Theorem C30_same_text_refuted : exists p q u, built_path p /\ built_path q /\ path_eqb p q = true /\ usable u /\
  deref p (Some u) = Ok (Some (UScript E_)) /\ deref q (Some u) = Err KeyError.
Proof.
  exists (PPoly Constant (Some E_) None None), (PPoly Constant None None (Some (PFlex E_ None))), (UPm (mk_pm [B_] [])).
  split; [now apply built_none|]. split; [apply built_poly; now apply built_none|]. split; [vm_compute; reflexivity|].
  split; [constructor; exists [B_], []; split; [good|split; [constructor|reflexivity]]|]. split; vm_compute; reflexivity.
Qed.
Print Assumptions C30_same_text_refuted.

(** * C31 *)
Lemma built_swept u : built u -> swept u.
Proof. intros (cs & gs & _ & _ & ->). apply swept_mk. Qed.
Lemma word_lexemes l r w x : word_of l r = Ok w -> Forall built_lexeme (present l) -> In x (present (as_list (w_context w) (w_fun w))) ->
  built_lexeme x.
Proof.
  intros Hw F H. apply word_of_inv in Hw. destruct Hw as (c & f & Hf & Hw). destruct (mk_word_fields _ _ _ _ Hw) as (<- & <- & <-).
  apply C27_no_lexeme_lost in Hf. rewrite Forall_forall in F. apply F. eapply Permutation_in; eauto.
Qed.
Lemma in_present (l : addressed) r x : In (r, Some x) l -> In x (present l).
Proof. intros H. apply in_flat_map. exists (r, Some x). split; [auto|now left]. Qed.
(** The path of each element of a USL designates this element. Missing: the paths [>flexion]
    of a lexeme whose flexion has groups. *)
Theorem C31_elements_partial : forall u items p x, usable u -> iter_path u = Ok items -> In (p, x) items ->
  tail p <> PLex Flexion None -> deref p (Some u) = Ok (Some x).
Proof.
  intros u items p x U E H T. destruct U as [u B|l [B _]|l r w W F]; cbn [iter_path] in E.
  - injection E as <-. now apply pm_deref.
  - apply Ok_inj in E. subst items. apply lexeme_deref; auto. now apply built_swept.
  - pose proof (iter_word_in _ _ _ _ E H) as [[-> ->]|(r' & l' & f & Hl & Hp)]; [reflexivity|].
    assert (G : sfun_get (w_fun w) r' = Ok (Some l')).
    { apply word_of_inv in W. destruct W as (c & g & Hf & Hw). destruct (mk_word_fields _ _ _ _ Hw) as (E1 & E2 & E3). apply from_list_inv in Hf. destruct Hf as [V _].
      rewrite <- E1, <- E3 in *. eapply sfun_get_ok; eauto. }
    destruct Hp as [[-> ->]|(q & -> & Hq)]; rewrite deref_eq; cbn [deref_step child_of]; rewrite G; cbn [bind option_map]; [reflexivity|].
    apply lexeme_deref; auto. apply built_swept. eapply word_lexemes; eauto using in_present.
Qed.
Print Assumptions C31_elements_partial.
Lemma simple_text u : built u -> groups u = [] -> pm_str (mk_pm (constant u) []) = pm_str u.
Proof.
  intros (cs & gs & H1 & H2 & ->) G. rewrite !pm_str_parts, printed_mk, G. cbn [mk_pm groups map sort app]. f_equal. f_equal.
  change (filter_empty (constant (mk_pm cs gs))) with (printed (mk_pm cs gs)). rewrite printed_mk.
  assert (N : Forall nf (filter_empty cs)) by (apply filter_nf, regular_all; auto).
  apply (proj1 (isort_key _ _ (isort_Forall _ _ N) N)). apply Permutation_map, sort_perm.
Qed.
(** ... designates an equal element, when no flexion has a group. *)
Theorem C31_all_elements_partial : forall u items p x, usable u -> simple_flexions u -> iter_path u = Ok items -> In (p, x) items ->
  same_node (deref p (Some u)) (Ok (Some x)).
Proof.
  assert (L : forall l p x, built_lexeme l -> groups (pm_flexion l) = [] -> In (p, x) (iter_lexeme l) -> tail p = PLex Flexion None ->
    same_node (deref p (Some (ULexeme l))) (Ok (Some x))).
  { intros l p x [B _] G H T. destruct (lexeme_deref_flexion l p x H T) as [-> [->|[->|(gr & Hg & _)]]]; cbn [same_node usl_str].
    - reflexivity.
    - symmetry. now apply simple_text.
    - rewrite G in Hg. contradiction. }
  intros u items p x U S E H.
  assert (D : tail p = PLex Flexion None \/ tail p <> PLex Flexion None).
  { destruct (tail p) as [| | |[|] [|]|]; try (right; discriminate). now left. }
  destruct D as [T|T]; [|rewrite (C31_elements_partial u items p x U E H T); reflexivity].
  destruct U as [u B|l B|l r w W F]; cbn [iter_path] in E.
  - injection E as <-. apply iter_pm_item in H. exfalso. destruct H; discriminate.
  - apply Ok_inj in E. subst items. apply L; auto. apply S. now left.
  - pose proof (iter_word_in _ _ _ _ E H) as [[-> ->]|(r' & l' & f & Hl & Hp)]; [reflexivity|].
    assert (G : sfun_get (w_fun w) r' = Ok (Some l')).
    { apply word_of_inv in W. destruct W as (c & g & Hf & Hw). destruct (mk_word_fields _ _ _ _ Hw) as (E1 & E2 & E3). apply from_list_inv in Hf. destruct Hf as [V _].
      rewrite <- E1, <- E3 in *. eapply sfun_get_ok; eauto. }
    destruct Hp as [[-> ->]|(q & -> & Hq)]; [cbn in T; discriminate|]. rewrite deref_eq. cbn [deref_step child_of]. rewrite G. cbn [bind option_map].
    apply L; auto; [eapply word_lexemes; eauto using in_present|]. apply S. cbn [lexemes_of]. eauto using in_present.
Qed.
Print Assumptions C31_all_elements_partial.
(** The listing fails only for a word in which a lexeme is missing. *)
Theorem C31_listing : forall u, usable u ->
  match iter_path u with
  | Ok _ => match u with UWord w => forall e, In e (as_list (w_context w) (w_fun w)) -> snd e <> None | _ => True end
  | Err e => e = AttributeError /\ exists w r, u = UWord w /\ In (r, None) (as_list (w_context w) (w_fun w))
  end.
Proof.
  intros u U. destruct U as [u B|l B|l r w W F]; cbn [iter_path]; [exact Logic.I..|]. unfold iter_word.
  destruct (mapM _ _) as [ls|e] eqn:E; cbn [bind].
  - intros [r' [x|]] He; [discriminate|]. exfalso. apply mapM_inv in E. clear -E He. induction E as [|e y es ys Ee E IH]; [contradiction|]. destruct He as [->|He]; [discriminate|auto].
  - apply mapM_err in E. destruct E as ([r' [x|]] & He & Ee); [discriminate|]. cbn in Ee. injection Ee as <-. split; [reflexivity|]. eauto.
Qed.
Print Assumptions C31_listing.
Definition L31 := {| pm_flexion := mk_pm [A_] [([B_; C_], 1)]; pm_content := P22 |}.
Lemma L31_built : built_lexeme L31.
Proof. split; [exists [A_], [([B_; C_], 1)]; split; [good|split; [good; good|reflexivity]]|apply P22_built]. Qed.
Example C31_case : usable (UWord U23) /\ simple_flexions (UWord U23) /\
  (exists items, iter_path (UWord U23) = Ok items /\ List.length items = 28 /\
     In (PRole [INITIATOR] true (Some (PLex Content (Some (PPoly Group1 (Some B_) (Some 1) None)))), UScript B_) items) /\
  usable (ULexeme L31) /\ In (PLex Flexion (Some (PFlex C_ None)), UScript C_) (iter_lexeme L31).
Proof.
  assert (W : word_of W23 [INITIATOR] = Ok U23) by apply C23_case.
  split. { eapply usable_word; [exact W|]. apply Forall_forall. intros x [<-|[<-|[<-|[]]]]; apply built_X; cbn; auto. }
  split. { intros l [<-|[<-|[<-|[]]]]; reflexivity. }
  split. { eexists. split; [vm_compute; reflexivity|]. split; [vm_compute; reflexivity|]. vm_compute. tauto. }
  split; [constructor; apply L31_built|]. vm_compute. tauto.
Qed.
(** A path listed for the constant of a flexion designates the whole flexion. *)
Theorem C31_elements_refuted : exists u p x y, usable u /\ In (p, x) (match iter_path u with Ok l => l | Err _ => [] end) /\
  deref p (Some u) = Ok (Some y) /\ usl_str x = "wa." /\ usl_str y = "wa. m1(i. b.)".
Proof.
  exists (ULexeme L31), (PLex Flexion None). eexists (UPm (mk_pm _ [])), _. split; [constructor; apply L31_built|]. split; [right; left; reflexivity|].
  split; [vm_compute; reflexivity|]. split; vm_compute; reflexivity.
Qed.
Print Assumptions C31_elements_refuted.

(** * C32 *)
Theorem C32_prefix_of_itself : forall p, has_prefix p (Some p) = Ok true.
Proof. apply has_prefix_refl. Qed.
Print Assumptions C32_prefix_of_itself.
(** Missing: paths with a component [>]. *)
Theorem C32_concat_has_prefix_partial : forall p q r, built_path p -> no_usl p -> concat p q false = Ok r -> has_prefix r (Some p) = Ok true.
Proof. intros p q r B N E. eapply concat_prefix; eauto. Qed.
Print Assumptions C32_concat_has_prefix_partial.
(** Concatenation puts the components one after the other, and removing the prefix gives back
    the second path. Missing: paths of components of the same kind. *)
Theorem C32_concat_remove_partial : forall p q force, built_path p -> no_usl p -> class_of q <> ClUsl -> fresh p q -> follows p q ->
  exists r, concat p q force = Ok r /\ steps r = (steps p ++ steps q)%list /\ has_prefix r (Some p) = Ok true /\ remove_prefix r (Some p) = Ok (Some q).
Proof.
  intros p q f B N Q F Fo. exists (attach p q). split; [now apply concat_attach|]. split; [apply attach_steps|]. split; [apply attach_prefix|apply remove_attach].
Qed.
Print Assumptions C32_concat_remove_partial.
(** The two parts of a path: the last component and what precedes it. *)
Theorem C32_split_tail_partial : forall p, built_path p -> layered p \/ child_of p = None ->
  exists h t, split_tail p = Ok (h, t) /\ concat h t false = Ok p /\ child_of t = None.
Proof. apply split_tail_ok. Qed.
Print Assumptions C32_split_tail_partial.
Example C32_case :
  let p := PRole [INITIATOR] false None in
  let q := PLex Content (Some (PPoly Group0 (Some A_) (Some 1) None)) in
  built_path p /\ no_usl p /\ class_of q <> ClUsl /\ fresh p q /\ follows p q /\
  concat p q false = Ok (PRole [INITIATOR] false (Some q)) /\
  built_path (PRole [INITIATOR] false (Some q)) /\ layered (PRole [INITIATOR] false (Some q)).
Proof.
  cbv zeta. split; [now apply built_none|]. split; [constructor; [discriminate|constructor]|]. split; [discriminate|]. split; [intros [H|[]]; discriminate|]. split; [exact Logic.I|].
  split; [reflexivity|]. split; [apply built_role; [now right|]; apply built_content; [reflexivity|now apply built_none]|]. split.
  - repeat (apply Forall_cons; [discriminate|]). constructor.
  - repeat constructor; cbn; intuition discriminate.
Qed.
(** Failures: the path [>] is dropped and is not a prefix of other paths; two paths of the same
    kind are not put one after the other, and a path is a prefix of that of another morpheme of
    the same group; a group position is dropped after [>flexion]. *)
Theorem C32_refuted :
  (let q := PRole [INITIATOR] false None in concat (PUsl None) q false = Ok q /\ has_prefix q (Some (PUsl None)) = Ok false) /\
  (let q := PPoly Constant (Some A_) None None in concat (PUsl None) q false = Ok q /\ has_prefix q (Some (PUsl None)) = Err AttributeError) /\
  (let p := PPoly Group0 None (Some 1) None in let q := PPoly Group0 (Some A_) (Some 1) None in
     concat p q false = Ok q /\ remove_prefix q (Some p) = Ok None) /\
  (let p := PPoly Group0 (Some A_) (Some 1) None in let q := PPoly Group0 (Some B_) (Some 1) None in
     concat p q false = Ok q /\ has_prefix q (Some p) = Ok true /\ remove_prefix q (Some p) = Ok None) /\
  concat (PLex Flexion None) (PPoly Group0 None (Some 1) None) false = Ok (PLex Flexion None).
Proof. repeat split; vm_compute; reflexivity. Qed.
Print Assumptions C32_refuted.

(** * C59 *)
(** A concatenated path designates what the second path designates in the element that the
    first one designates. *)
Theorem C59_deference_in_sequence : forall p q force r u, built_path p -> no_usl p -> class_of q <> ClUsl -> fresh p q -> follows p q ->
  concat p q force = Ok r -> deref r u = match deref p u with Ok n => deref q n | Err e => Err e end.
Proof. intros p q f r u B N Q F Fo E. rewrite concat_attach in E by auto. apply Ok_inj in E. subst r. rewrite deref_attach. destruct (deref p u); reflexivity. Qed.
Print Assumptions C59_deference_in_sequence.
Example C59_case : let p := PRole [INITIATOR] true None in let q := PLex Content (Some (PPoly Group1 (Some B_) (Some 1) None)) in
  built_path p /\ no_usl p /\ class_of q <> ClUsl /\ fresh p q /\ follows p q /\
  deref p (Some (UWord U23)) = Ok (Some (ULexeme X3)) /\ deref q (Some (ULexeme X3)) = Ok (Some (UScript B_)) /\
  exists r, concat p q false = Ok r /\ deref r (Some (UWord U23)) = Ok (Some (UScript B_)).
Proof.
  cbv zeta. split; [now apply built_none|]. split; [constructor; [discriminate|constructor]|]. split; [discriminate|]. split; [intros [H|[]]; discriminate|]. split; [exact Logic.I|].
  split; [vm_compute; reflexivity|]. split; [vm_compute; reflexivity|]. eexists. split; [reflexivity|vm_compute; reflexivity].
Qed.
