(** What [check] accepts (C76, C77). *)
From Coq Require Import List String Bool Arith NArith Lia Permutation.
From Verif Require Import Base Script ScriptSpec ScriptOrderProofs ScriptAlgProofs Usl UslSpec UslProofs UslSsProofs Sfun SfunSpec SfunProofs SfunListProofs
  SfunWordProofs UslParser Check CheckSpec CheckProofs Properties1 Properties8 Properties9.
Import ListNotations.
Local Open Scope string_scope.

(** * C76 *)
(** [PolyMorpheme(constant, groups).check()] passes exactly when the arguments are right, and
    otherwise raises ValueError. *)
Theorem C76_polymorpheme : forall cs gs, Forall regular cs -> good_groups gs ->
  (acceptable cs gs -> check_pm (mk_pm cs gs) = Ok tt) /\ (~ acceptable cs gs -> check_pm (mk_pm cs gs) = Err ValueError).
Proof.
  intros cs gs Hc Hg. destruct (check_pm_ok cs gs (regular_all _ Hc) (good_groups_ok _ Hg)) as [H1 H2]. split; [apply H1|].
  intros N. apply H2. intros E. apply N, H1, E.
Qed.
Print Assumptions C76_polymorpheme.
Lemma correct_check p : built p -> (check_pm p = Ok tt <-> correct p).
Proof.
  intros (cs & gs & Hc & Hg & ->). split.
  - intros H. exists cs, gs. apply (proj1 (check_pm_ok cs gs (regular_all _ Hc) (good_groups_ok _ Hg))) in H. auto.
  - intros (cs' & gs' & Hc' & Hg' & A & ->). now apply (C76_polymorpheme cs' gs').
Qed.
Lemma correct_lexeme_check l : built_lexeme l -> (check_lexeme l = Ok tt <-> correct_lexeme l).
Proof.
  intros [Hf Hc]. unfold correct_lexeme. rewrite <- (correct_check _ Hf), <- (correct_check _ Hc). unfold check_lexeme.
  apply check_two; apply check_pm_two.
Qed.
(** [check_lexeme] asks this of both polymorphemes. *)
Theorem C76_lexeme : forall l, built_lexeme l ->
  (correct_lexeme l -> check_lexeme l = Ok tt) /\ (~ correct_lexeme l -> check_lexeme l = Err ValueError).
Proof.
  intros l B. pose proof (correct_lexeme_check l B) as E. split; [apply E|]. intros N. destruct (check_lexeme_two l) as [H|H]; [|exact H]. elim N. apply E, H.
Qed.
Print Assumptions C76_lexeme.
Lemma regular_null : regular (Null 0).
Proof. split; [apply (c_null 0); reflexivity|intros (x & E); discriminate]. Qed.
(** The singular sequences of a polymorpheme that passes the test pass it. *)
Theorem C76_singular_sequences : forall so p s, set_order so -> built p -> check_pm p = Ok tt -> In s (pm_ss so p) ->
  built s /\ check_pm s = Ok tt.
Proof.
  intros so p s SO B C H. destruct (groups p) as [|g gs] eqn:G; [unfold pm_ss in H; rewrite G in H; destruct H as [<-|[]]; auto|].
  assert (N : groups p <> []) by congruence. pose proof (built_ok p B) as [[H1 H2] _]. rewrite pm_ss_groups in H by auto.
  destruct (traits_spec so (groups p) (constant p) SO N H2 H1) as (_ & _ & X). destruct (X s H) as (cs & d & K & D & L & ->). clear X.
  assert (R : Forall regular d /\ (forall m, In m d -> In m (everything p))).
  { destruct D as (_ & I & _). assert (J : forall m, In m d -> In m (everything p)).
    { intros m M. apply I, in_app_iff in M. unfold everything. apply in_app_iff. destruct M as [M|M]; [right|auto].
      destruct (picks_in _ _ K m M) as (h & Hh & M'). apply in_flat_map. eauto. }
    split; [|exact J]. apply Forall_forall. intros m M. apply J in M. destruct B as (cs0 & gs0 & Rc & Rg & ->).
    destruct (mk_everything cs0 gs0) as [P|P]; apply (Permutation_in _ P) in M; [|destruct M as [<-|M]; [apply regular_null|]];
      apply filter_In in M; destruct M as [M _]; apply in_app_iff in M; (destruct M as [M|M]; [rewrite Forall_forall in Rc; auto|]);
      apply in_flat_map in M; destruct M as (h & Hh & M); unfold good_groups in Rg; rewrite Forall_forall in Rg; specialize (Rg _ Hh); rewrite Forall_forall in Rg; auto. }
  destruct R as [R J]. split; [exists d, []; repeat split; auto; constructor|].
  apply C76_polymorpheme; [auto|constructor|]. unfold acceptable. cbn [flat_map]. rewrite app_nil_r. destruct D as (Nd & _ & _). split; [|split].
  - unfold meaningful. clear -Nd. induction d as [|x d IH]; simpl; [constructor|]. inversion Nd; subst. destruct (negb (is_empty x)); auto.
    simpl. constructor; auto. rewrite in_map_iff in *. intros (y & E & Hy). apply H1. exists y. split; auto. apply filter_In in Hy. tauto.
  - intros m M. apply filter_In in M. destruct M as [M _]. apply J in M. destruct B as (cs0 & gs0 & Rc & Rg & ->).
    pose proof (proj1 (proj1 (check_pm_ok cs0 gs0 (regular_all _ Rc) (good_groups_ok _ Rg))) C) as A.
    destruct A as (_ & A & _). apply (proj2 (proj2 (everything_ok cs0 gs0 (regular_all _ Rc) (good_groups_ok _ Rg)))); auto.
  - intros ms n [].
Qed.
Print Assumptions C76_singular_sequences.

Definition P76 := [A_; text "E:"].
Definition G76 := [([B_; C_], 1); ([D_; text "e."], 2)].
Example C76_case : Forall regular P76 /\ good_groups G76 /\ acceptable P76 G76 /\ check_pm (mk_pm P76 G76) = Ok tt /\
  ~ acceptable [A_] [([A_; C_], 1)] /\ check_pm (mk_pm [A_] [([A_; C_], 1)]) = Err ValueError /\ check_pm (mk_pm [A_] [([B_; C_], 3)]) = Err ValueError.
Proof.
  assert (R : Forall regular P76) by (unfold P76; good; text_reg).
  assert (G : good_groups G76) by (unfold G76; good; good; text_reg).
  split; [exact R|]. split; [exact G|]. split; [|split; [vm_compute; reflexivity|split; [|split; vm_compute; reflexivity]]].
  - apply (check_pm_ok _ _ (regular_all _ R) (good_groups_ok _ G)). vm_compute. reflexivity.
  - intros (N & _). vm_compute in N. inversion N as [|? ? H _]. apply H. cbn. auto.
Qed.

(** [Lexeme.check()] does nothing: it accepts what check_lexeme refuses. *)
Theorem C76_lexeme_refuted : exists l, built_lexeme l /\ lexeme_check l = Ok tt /\ ~ correct_lexeme l /\ check_lexeme l = Err ValueError.
Proof.
  set (l := {| pm_flexion := mk_pm [A_] []; pm_content := mk_pm [B_; B_] [] |}).
  assert (B : built_lexeme l). { split; [exists [A_], []|exists [B_; B_], []]; (split; [good|split; [constructor|reflexivity]]). }
  exists l. split; [exact B|]. assert (E : check_lexeme l = Err ValueError) by (vm_compute; reflexivity). split; [reflexivity|]. split; [|exact E].
  intros C. apply (C76_lexeme l B) in C. congruence.
Qed.
Print Assumptions C76_lexeme_refuted.
(** The parser does not test: the text of an incorrect polymorpheme is accepted. *)
Theorem C76_parser_refuted : exists p, usl_parse ident "b. b. m3(wa.)" = Ok (UPm p, []) /\ pm_str p = "b. b. m3(wa.)" /\ check_pm p = Err ValueError.
Proof. exists (mk_pm [B_; B_] [([A_], 3)]). split; [|split]; vm_compute; reflexivity. Qed.
Print Assumptions C76_parser_refuted.

(** * C77 *)
Lemma word_focus f r c w : cvalid lexeme c f -> vrole r -> mk_word f r c = Ok w ->
  exists g, In (skipn (List.length (context_prefix c)) r, g) (actors f).
Proof.
  intros V R H. unfold mk_word, render, role_expansion in H. destruct (expand _ f _) as [m|] eqn:E; [|discriminate]. clear H. cbn [expand] in E.
  destruct (node_at f (skipn (List.length (context_prefix c)) r)) as [g|] eqn:N; [|discriminate]. apply node_at_some in N. destruct N as (r' & G & Q).
  assert (R' : vrole (skipn (List.length (context_prefix c)) r)).
  { destruct c; cbn; auto; destruct r; [constructor|now inversion R|constructor|now inversion R]. }
  apply role_eqb_eq in Q; [|auto|eapply actors_roles; eauto]. subst r'. eauto.
Qed.
Lemma word_of_role l r w : word_of l r = Ok w -> vrole r.
Proof.
  unfold word_of. destruct r as [|a r]; [discriminate|]. destruct (from_list l) as [[c f]|]; [|discriminate]. cbn [bind]. unfold mk_role.
  destruct (forallb _ _) eqn:E; [|discriminate]. intros _. rewrite forallb_forall in E. apply Forall_forall. intros s S. now apply ins_In, E.
Qed.
Lemma focus_ok c f r g : cvalid lexeme c f -> In (r, g) (actors f) -> check_address (fun_class f) (context_prefix c ++ r)%list = Ok tt.
Proof.
  destruct c; cbn [cvalid context_prefix app]; intros V G.
  - destruct f as [| | |x v acts]; try solve [destruct V]. eapply proc_address_ok; eauto.
  - pose proof (actors_inner _ _ _ V r g G) as I. pose proof (actors_qualities f KD V r g G) as Q.
    apply (inner_address_ok _ KD); [constructor; [now left|auto]|unfold qualities in *; rewrite count_cons; exact Q|destruct f; cbn in V |- *; auto; discriminate].
  - pose proof (actors_inner _ _ _ V r g G) as I. destruct (actors_qualities f KI V r g G) as [Q1 Q2]. rewrite Forall_forall in I.
    assert (Z : count_from (VALENCES ++ ACTANTS) (INDEPENDANT_QUALITY :: r) = 0) by (apply count_zero; intros s [<-|S]; [reflexivity|apply inner_no_role; auto]).
    apply check_address_ok; [intros s [<-|S]; [reflexivity|apply inner_address; auto]|lia| |auto|].
    + rewrite count_cons, Q1. cbn. lia.
    + rewrite count_cons, Q2. reflexivity.
Qed.
Lemma word_judged' c f r w f0 : cvalid lexeme c f -> vrole r -> mk_word f r c = Ok w -> r = (context_prefix c ++ f0)%list ->
  judged (check_word w) (forall a x, In (a, x) (as_list c f) -> entry_ok x).
Proof.
  intros V R Hw E. destruct (mk_word_fields _ _ _ _ Hw) as (E1 & E2 & E3). unfold check_word. rewrite E1, E2 in *. clear E1 E2 E3.
  destruct (word_focus f r c w V R Hw) as (g & G). rewrite E, skipn_app, skipn_all, Nat.sub_diag in G. cbn [app skipn] in G.
  rewrite E, (focus_ok c f f0 g V G). cbn [bind]. eapply judged_iff; [|apply (check_cfun_ok c f V)]. rewrite all_ok_lst, as_list_lst.
  split.
  - intros H a x X. apply pre_in in X. destruct X as (r' & _ & X). eapply H; eauto.
  - intros H a x X. apply (H (context_prefix c ++ a)%list x). apply pre_in. exists a. auto.
Qed.
Lemma word_judged l0 r w f0 : word_of l0 r = Ok w -> r = (context_prefix (w_context w) ++ f0)%list ->
  judged (check_word w) (forall a x, In (a, x) (as_list (w_context w) (w_fun w)) -> entry_ok x).
Proof.
  intros Hw E. pose proof (word_of_role _ _ _ Hw) as R. apply word_of_inv in Hw. destruct Hw as (c & f & Hf & Hw). destruct (mk_word_fields _ _ _ _ Hw) as (E1 & E2 & E3).
  apply from_list_inv in Hf. destruct Hf as [V _]. rewrite E1, E3 in *. eapply word_judged'; eauto.
Qed.
Lemma word_built (l0 : addressed) r w : word_of l0 r = Ok w -> Forall built_lexeme (present l0) ->
  forall a l, In (a, Some l) (as_list (w_context w) (w_fun w)) -> built_lexeme l.
Proof.
  intros Hw F a l H. apply word_of_inv in Hw. destruct Hw as (c & f & Hf & Hw). destruct (mk_word_fields _ _ _ _ Hw) as (E1 & E2 & E3). rewrite E1, E3 in *.
    apply C27_no_lexeme_lost in Hf. rewrite Forall_forall in F. apply F. eapply Permutation_in; [exact Hf|]. apply in_flat_map. exists (a, Some l). split; [auto|now left].
Qed.
(** [check()] of a word whose focus is one of its addresses passes exactly when every address
    that is not a junction has a lexeme and all these lexemes are correct. *)
Theorem C77_word : forall (l0 : addressed) r w focus, word_of l0 r = Ok w -> r = (context_prefix (w_context w) ++ focus)%list ->
  Forall built_lexeme (present l0) ->
  let correct_word := forall a x, In (a, x) (as_list (w_context w) (w_fun w)) -> exists l, x = Some l /\ correct_lexeme l in
  (correct_word -> check_word w = Ok tt) /\ (~ correct_word -> check_word w = Err ValueError).
Proof.
  intros l0 r w focus Hw E F. cbn zeta. pose proof (word_judged l0 r w focus Hw E) as [J1 J2].
  pose proof (word_built l0 r w Hw F) as B.
  assert (K : (forall a x, In (a, x) (as_list (w_context w) (w_fun w)) -> entry_ok x) <->
              (forall a x, In (a, x) (as_list (w_context w) (w_fun w)) -> exists l, x = Some l /\ correct_lexeme l)).
  { split; intros H a x X; destruct (H a x X) as (l & -> & C); exists l; (split; [reflexivity|]); apply (correct_lexeme_check l (B a l X)); auto. }
  rewrite <- K. split; [apply J1|]. intros N. destruct J2 as [J2|J2]; [elim N; now apply J1|exact J2].
Qed.
Print Assumptions C77_word.

Lemma lexeme_ss_correct so l x : set_order so -> built_lexeme l -> check_lexeme l = Ok tt -> In x (lexeme_ss so l) -> built_lexeme x /\ check_lexeme x = Ok tt.
Proof.
  intros SO [Bf Bc] C H. unfold lexeme_ss in H. destruct (_ && _)%bool; [destruct H as [<-|[]]; split; [split|]; auto|].
  apply (proj1 (check_two _ _ (check_pm_two _) (check_pm_two _))) in C. destruct C as [Cf Cc]. apply in_flat_map in H. destruct H as (f & Hf & H).
  apply in_map_iff in H. destruct H as (c & <- & Hc). destruct (C76_singular_sequences so _ f SO Bf Cf Hf) as [X1 X2].
  destruct (C76_singular_sequences so _ c SO Bc Cc Hc) as [Y1 Y2]. split; [split; auto|]. unfold check_lexeme. cbn [pm_flexion pm_content]. rewrite X2. exact Y2.
Qed.
Lemma word_ss_in so w ws s : cvalid lexeme (w_context w) (w_fun w) -> mk_word (w_fun w) (w_role w) (w_context w) = Ok w ->
  (forall e, In e (as_list (w_context w) (w_fun w)) -> snd e <> None) -> word_ss so w = Ok ws -> In s ws ->
  s = w \/ exists f ys, choice so (as_list (w_context w) (w_fun w)) ys /\ cvalid lexeme (w_context w) f /\
    as_list (w_context w) f = refilled (as_list (w_context w) (w_fun w)) ys /\ mk_word f (w_role w) (w_context w) = Ok s.
Proof.
  intros V Hw Hl Hs I. set (l := as_list (w_context w) (w_fun w)) in *. destruct (mapM_choices so l) as (xs & E & F); [now apply Forall_forall|].
  pose proof (product_choice so l xs F) as Sp. unfold word_ss, sfun_ss in Hs. fold l in Hs. rewrite E in Hs. cbn [bind] in Hs.
  destruct (mapM (fun ys => do r <- from_list (combine (map fst l) (map Some ys)); Ok (snd r)) (product xs)) as [fs|] eqn:Ef; [|discriminate]. cbn [bind] in Hs.
  assert (K : ws = [w] \/ mapM (fun f => mk_word f (w_role w) (w_context w)) fs = Ok ws).
  { destruct fs as [|? [|]]; [right; exact Hs|left; congruence|right; exact Hs]. }
  destruct K as [-> |K]; [destruct I as [<-|[]]; auto|]. right. destruct (mapM_in _ _ _ _ K I) as (f & Hf & Es). destruct (mapM_in _ _ _ _ Ef Hf) as (ys & Hy & Ey).
  apply Sp in Hy. exists f, ys. split; [exact Hy|]. cbn beta in Ey.
  destruct (refill_c _ (w_context w) (w_fun w) V (refilled l ys)) as (f' & V' & Ef' & _); [now apply refilled_keys, (choice_length so)|].
  fold (refilled l ys) in Ey. rewrite <- Ef', from_list_exact in Ey by auto. cbn in Ey. assert (f = f') by congruence. subst f'. auto.
Qed.
(** The singular sequences of a word that passes the test pass it. *)
Theorem C77_singular_sequences : forall so (l0 : addressed) r w focus ws s, set_order so ->
  word_of l0 r = Ok w -> r = (context_prefix (w_context w) ++ focus)%list -> Forall built_lexeme (present l0) ->
  check_word w = Ok tt -> word_ss so w = Ok ws -> In s ws -> check_word s = Ok tt.
Proof.
  intros so l0 r w focus ws s SO Hw E F C Hs I. pose proof (proj1 (proj1 (word_judged l0 r w focus Hw E)) C) as A.
  assert (B : forall a l, In (a, Some l) (as_list (w_context w) (w_fun w)) -> built_lexeme l) by (apply (word_built l0 r w Hw F)).
  pose proof (word_of_role _ _ _ Hw) as R. apply word_of_inv in Hw. destruct Hw as (c & f & Hf & Hw). destruct (mk_word_fields _ _ _ _ Hw) as (E1 & E2 & E3).
  apply from_list_inv in Hf. destruct Hf as [V _]. subst f c. rewrite <- E2 in *. clear r E2.
  destruct (word_ss_in so w ws s V Hw) as [-> |(f & ys & Hy & Vf & Ef & Es)]; auto.
  { intros [a x] X. destruct (A a x X) as (l & -> & _). discriminate. }
  apply (word_judged' _ _ _ _ focus Vf R Es E). rewrite Ef. intros a x X. unfold refilled in X.
  assert (exists y, x = Some y /\ check_lexeme y = Ok tt) as (y & -> & Cy); [|exists y; auto].
  clear -SO A B Hy X. unfold choice in Hy. revert X A B. generalize dependent (as_list (w_context w) (w_fun w)). intros l Hy. induction Hy as [|[r o] y l ys (l' & El & Hl) Hy IH]; [intros []|].
  cbn [map combine fst snd] in *. subst o. intros [[= <- <-]|X] A B.
  - exists y. split; [reflexivity|]. destruct (A r (Some l') (or_introl eq_refl)) as (l2 & [= <-] & Cl). apply (lexeme_ss_correct so l' y SO); auto. apply (B r); now left.
  - apply IH; auto; intros; [eapply A|eapply B]; right; eauto.
Qed.
Print Assumptions C77_singular_sequences.

Example C77_case : exists w, word_of W27 [INITIATOR] = Ok w /\ [INITIATOR] = (context_prefix (w_context w) ++ [INITIATOR])%list /\
  Forall built_lexeme (present W27) /\ check_word w = Ok tt /\ exists ws, word_ss ident w = Ok ws /\ List.length ws = 81.
Proof.
  destruct (word_of W27 [INITIATOR]) as [w|] eqn:E; [|vm_compute in E; discriminate]. exists w. split; [reflexivity|].
  assert (K : w_fun w = F27 /\ w_context w = CProcess /\ w_role w = [INITIATOR]).
  { apply word_of_inv in E. destruct E as (c & f & Ef & Ew). rewrite (proj1 C27_case) in Ef. injection Ef as <- <-. destruct (mk_word_fields _ _ _ _ Ew) as (-> & -> & ->). auto. }
  destruct K as (K1 & K2 & K3). split; [rewrite K2; reflexivity|]. split; [|split].
  - assert (B1 : built_lexeme X1) by (split; [exists [A_], []|exists [B_], []]; (split; [good|split; [constructor|reflexivity]])).
    assert (B2 : built_lexeme X2) by (split; [exists [A_], []|exists [C_], []]; (split; [good|split; [constructor|reflexivity]])).
    assert (B3 : built_lexeme X3) by (split; [exists [A_], []; (split; [good|split; [constructor|reflexivity]])|apply P22_built]).
    change (present W27) with [X2; X1; X1; X3; X3; X2]. good.
  - unfold check_word. rewrite K1, K3. vm_compute. reflexivity.
  - destruct C28_case as (w' & E' & _ & _ & (ws & Es & Ls) & _). unfold R28 in E'. assert (w' = w) by congruence. subst w'. eauto.
Qed.
(** Each of the reasons to refuse: no lexeme above an address, an incorrect lexeme. *)
Example C77_refused : exists w w', word_of [([DEPENDANT_QUALITY; INDEPENDANT_QUALITY], Some X1)] [DEPENDANT_QUALITY] = Ok w /\ check_word w = Err ValueError /\
  word_of [([DEPENDANT_QUALITY], Some (lx (mk_pm [A_] []) (mk_pm [B_; B_] [])))] [DEPENDANT_QUALITY] = Ok w' /\ check_word w' = Err ValueError.
Proof.
  destruct (word_of [([DEPENDANT_QUALITY; INDEPENDANT_QUALITY], Some X1)] [DEPENDANT_QUALITY]) as [w|] eqn:E; [|vm_compute in E; discriminate].
  destruct (word_of [([DEPENDANT_QUALITY], Some (lx (mk_pm [A_] []) (mk_pm [B_; B_] [])))] [DEPENDANT_QUALITY]) as [w'|] eqn:E'; [|vm_compute in E'; discriminate].
  exists w, w'. vm_compute in E. injection E as <-. vm_compute in E'. injection E' as <-. repeat split; vm_compute; reflexivity.
Qed.
(** Of two words with the same text, which are equal for [==], one passes the test and not
    the other: the first script of the focus is not looked at when the text is made. *)
Theorem C77_same_text_refuted : exists l0 r r' w w', word_of l0 r = Ok w /\ word_of l0 r' = Ok w' /\ w_str w = w_str w' /\
  check_word w = Ok tt /\ check_word w' = Err ValueError.
Proof.
  exists [([DEPENDANT_QUALITY], Some X1)], [DEPENDANT_QUALITY], [INITIATOR].
  destruct (word_of [([DEPENDANT_QUALITY], Some X1)] [DEPENDANT_QUALITY]) as [w|] eqn:E; [|vm_compute in E; discriminate].
  destruct (word_of [([DEPENDANT_QUALITY], Some X1)] [INITIATOR]) as [w'|] eqn:E'; [|vm_compute in E'; discriminate].
  exists w, w'. vm_compute in E. injection E as <-. vm_compute in E'. injection E' as <-. repeat split; vm_compute; reflexivity.
Qed.
Print Assumptions C77_same_text_refuted.
