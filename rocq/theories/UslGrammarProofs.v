(** The parser of USLs follows its grammar. *)
From Coq Require Import List String Ascii Bool Arith Lia.
From Verif Require Import Base Script ScriptParser Usl Sfun UslParser UslParserProofs UslGrammar.
Import ListNotations.
Local Open Scope string_scope.

Lemma d_sum_iff w ms : d_sum w ms <-> ms <> [] /\ w = map UMorpheme ms.
Proof.
  split.
  - induction 1 as [w ms s H [N ->]|s]; [|split; [discriminate|reflexivity]]. split; [destruct ms; discriminate|now rewrite map_app].
  - intros [N ->]. induction ms as [|m ms IH] using rev_ind; [congruence|]. rewrite map_app. cbn. destruct ms as [|x ms]; [apply sum_one|]. apply sum_more, IH. discriminate.
Qed.
Lemma d_group_iff w g : d_group w g <-> fst g <> [] /\ w = gtoks g.
Proof.
  split.
  - intros [n v ms H]. apply d_sum_iff in H. destruct H as [N ->]. auto.
  - destruct g as [ms n]. intros [N ->]. constructor. now apply d_sum_iff.
Qed.
Lemma d_groups_iff w gs : d_groups w gs <-> gs <> [] /\ Forall (fun g => fst g <> []) gs /\ w = flat_map gtoks gs.
Proof.
  split.
  - induction 1 as [w g v gs Hg H (N & F & ->)|w g Hg]; apply d_group_iff in Hg; destruct Hg as [Hg ->]; (split; [discriminate|]); split; auto. cbn. now rewrite app_nil_r.
  - intros (N & F & ->). induction F as [|g gs Hg F IH]; [congruence|]. change (flat_map gtoks (g :: gs)) with (gtoks g ++ flat_map gtoks gs)%list. destruct gs as [|h gs]; [cbn [flat_map]; rewrite app_nil_r; apply groups_one, d_group_iff; auto|].
    apply groups_more; [apply d_group_iff; auto|apply IH; discriminate].
Qed.
Lemma d_pm_iff w p : d_pm w p <-> vpm p /\ w = ptoks p.
Proof.
  unfold vpm, ptoks. split.
  - intros [v ms u gs H1 H2|v ms H1|v gs H2]; cbn [raw_constant raw_groups]; try (apply d_sum_iff in H1; destruct H1 as [N ->]); try (apply d_groups_iff in H2; destruct H2 as (N' & F & ->)); auto.
    cbn. rewrite app_nil_r. auto.
  - destruct p as [cs gs]. cbn [raw_constant raw_groups]. intros [[N F] ->]. destruct cs as [|c cs], gs as [|g gs].
    + destruct N; congruence.
    + apply pm_groups, d_groups_iff. split; [discriminate|auto].
    + cbn [flat_map]. rewrite app_nil_r. apply pm_sum, d_sum_iff. split; [discriminate|auto].
    + apply pm_both; [apply d_sum_iff|apply d_groups_iff]; (split; [discriminate|auto]).
Qed.
Lemma par_some p : par (ptoks p) = paren_toks (Some p). Proof. reflexivity. Qed.
Lemma par_none : par [] = paren_toks None. Proof. reflexivity. Qed.
Lemma d_lexeme_iff w ps : d_lexeme w ps <-> vlexeme ps /\ w = ltoks ps.
Proof.
  unfold vlexeme, ltoks. split.
  - intros H. destruct H; repeat match goal with H : d_pm _ _ |- _ => apply d_pm_iff in H; destruct H as [? ->] end; cbn [flat_map]; rewrite ?app_nil_r, ?par_some, ?par_none; (split; [split; [reflexivity|]|reflexivity]); repeat (apply Forall_cons; [auto|]); apply Forall_nil.
  - intros [[V F] ->]. cbn [flat_map].
    assert (P : forall p, vpm p -> d_pm (ptoks p) p) by (intros p Hp; apply d_pm_iff; auto).
    unfold is_lexeme in V. repeat match type of V with match ?x with _ => _ end = true => destruct x; try discriminate end;
      repeat match goal with H : Forall _ (_ :: _) |- _ => apply Forall_cons_iff in H; destruct H end; cbn [flat_map]; rewrite ?app_nil_r, <- ?par_some, <- ?par_none; constructor; auto.
Qed.
Lemma d_positioned_iff w e : d_positioned w e <-> vlexeme (snd e) /\ w = (map UMorpheme (fst e) ++ ltoks (snd e))%list.
Proof.
  split.
  - intros [v ms u l H1 H2|u l H2]; apply d_lexeme_iff in H2; destruct H2 as [V ->]; try (apply d_sum_iff in H1; destruct H1 as [_ ->]); auto.
  - destruct e as [ms l]. cbn [fst snd]. intros [V ->]. destruct ms as [|m ms]; [apply pos_none, d_lexeme_iff; auto|]. apply pos_sum; [apply d_sum_iff; split; [discriminate|auto]|apply d_lexeme_iff; auto].
Qed.
Lemma estoks_snoc es e : es <> [] -> estoks (es ++ [e]) = (estoks es ++ UChevron :: etoks e)%list.
Proof.
  induction es as [|x es IH]; [congruence|]. intros _. destruct es as [|y es]; [reflexivity|]. cbn [app] in *. change (estoks (x :: y :: es ++ [e])) with (etoks x ++ UChevron :: estoks (y :: es ++ [e]))%list.
  rewrite IH by discriminate. change (estoks (x :: y :: es)) with (etoks x ++ UChevron :: estoks (y :: es))%list. now rewrite <- app_assoc.
Qed.
Lemma d_list_iff w es : d_list w es <-> es <> [] /\ Forall (fun e => vlexeme (snd (snd e))) es /\ w = estoks es.
Proof.
  split.
  - induction 1 as [w es v e H (N & F & ->) P|w es v e H (N & F & ->) P|v e P|v e P]; apply d_positioned_iff in P; destruct P as [V ->].
    + split; [destruct es; discriminate|]. split; [apply Forall_app; auto|]. now rewrite estoks_snoc.
    + split; [destruct es; discriminate|]. split; [apply Forall_app; auto|]. now rewrite estoks_snoc.
    + split; [discriminate|]. split; [auto|reflexivity].
    + split; [discriminate|]. split; [auto|reflexivity].
  - intros (N & F & ->). induction es as [|[b e] es IH] using rev_ind; [congruence|]. apply Forall_app in F. destruct F as [F F']. apply Forall_cons_iff in F'. destruct F' as [V _]. cbn [snd] in V.
    assert (P : d_positioned (map UMorpheme (fst e) ++ ltoks (snd e)) e) by (apply d_positioned_iff; auto). destruct es as [|x es].
    + cbn [app estoks]. unfold etoks. cbn [fst snd]. destruct b; cbn [app]; [now apply list_one_bang|now apply list_one].
    + rewrite estoks_snoc by discriminate. unfold etoks at 1. cbn [fst snd]. destruct b; [apply (list_bang _ (x :: es))|apply (list_more _ (x :: es))]; auto; apply IH; auto; discriminate.
Qed.

(** ** The parser returns what it has read *)
Lemma p_morphemes_inv w : forall ms r, p_morphemes w = (ms, r) -> w = (map UMorpheme ms ++ r)%list /\ no_m r.
Proof.
  induction w as [|t w IH]; intros ms r E; [injection E as <- <-; split; [reflexivity|intros ? ?; discriminate]|].
  destruct t; cbn in E; try (injection E as <- <-; split; [reflexivity|intros ? ?; discriminate]). destruct (p_morphemes w) as [ms' r'] eqn:E'. injection E as <- <-. destruct (IH _ _ eq_refl) as [-> N]. auto.
Qed.
Lemma p_groups_inv n : forall w gs r, p_groups n w = Some (gs, r) -> w = (flat_map gtoks gs ++ r)%list /\ Forall (fun g => fst g <> []) gs /\ no_g r.
Proof.
  induction n as [|n IH]; intros w gs r E.
  - cbn in E. destruct w as [|[] w]; try discriminate; injection E as <- <-; (split; [reflexivity|split; [constructor|intros ? ?; discriminate]]).
  - destruct w as [|[] w]; try (injection E as <- <-; split; [reflexivity|split; [constructor|intros ? ?; discriminate]]). cbn in E. destruct w as [|[] w]; try discriminate.
    destruct (p_morphemes w) as [ms r'] eqn:Em. destruct ms as [|m ms]; [discriminate|]. destruct r' as [|[] r']; try discriminate. destruct (p_groups n r') as [[gs' r'']|] eqn:Eg; [|discriminate].
    injection E as <- <-. apply p_morphemes_inv in Em. destruct Em as [-> _]. apply IH in Eg. destruct Eg as (-> & F & N). split; [|split; [constructor; [discriminate|auto]|auto]].
    unfold gtoks at 2. cbn [flat_map gtoks fst snd app]. f_equal. f_equal. rewrite <- !app_assoc. reflexivity.
Qed.
Lemma p_pm_inv w p r : p_pm w = Some (p, r) -> w = (ptoks p ++ r)%list /\ vpm p /\ no_g r.
Proof.
  unfold p_pm. intros E. destruct (p_morphemes w) as [ms r'] eqn:Em. apply p_morphemes_inv in Em. destruct Em as [Ew _]. destruct (p_groups (List.length w) r') as [[gs r'']|] eqn:Eg; [|discriminate].
  apply p_groups_inv in Eg. destruct Eg as (Er & F & N). assert (X : (ms <> [] \/ gs <> []) /\ {| raw_constant := ms; raw_groups := gs |} = p /\ r'' = r).
  { destruct ms, gs; try discriminate; injection E as <- <-; (split; [|auto]); (left; discriminate) || (right; discriminate). }
  destruct X as (X & <- & <-). rewrite Ew, Er. unfold ptoks. cbn [raw_constant raw_groups]. rewrite <- app_assoc. split; auto. split; [split; auto|auto].
Qed.
Lemma p_paren_inv w p r : p_paren w = Some (p, r) -> w = (paren_toks p ++ r)%list /\ match p with Some q => vpm q | None => True end.
Proof.
  unfold p_paren. intros E. destruct w as [|[] w]; try discriminate.
  assert (X : (exists u, w = URpar :: u /\ p = None /\ r = u) \/ match p_pm w with Some (q, URpar :: r') => Some (Some q, r') | _ => None end = Some (p, r)).
  { destruct w as [|[] w]; auto. left. injection E as <- <-. eauto. }
  destruct X as [(u & -> & -> & ->)|X]; [auto|]. destruct (p_pm w) as [[q r']|] eqn:Ep; [|discriminate]. destruct r' as [|[] r']; try discriminate. injection X as <- <-.
  apply p_pm_inv in Ep. destruct Ep as (-> & V & _). split; auto. unfold paren_toks. cbn [app]. now rewrite <- app_assoc.
Qed.
Lemma p_parens_inv n : forall w ps r, p_parens n w = Some (ps, r) -> w = (ltoks ps ++ r)%list /\ Forall (fun p => match p with Some q => vpm q | None => True end) ps /\ no_l r.
Proof.
  induction n as [|n IH]; intros w ps r E.
  - cbn in E. destruct w as [|[] w]; try discriminate; injection E as <- <-; (split; [reflexivity|split; [constructor|intros ?; discriminate]]).
  - destruct w as [|t w]; [injection E as <- <-; split; [reflexivity|split; [constructor|intros ?; discriminate]]|].
    assert (X : t = ULpar \/ (t <> ULpar /\ Some (@nil (option raw_pm), t :: w) = Some (ps, r))) by (destruct t; cbn in E; auto; right; split; auto; discriminate).
    destruct X as [->|[N X]]; [|injection X as <- <-; split; [reflexivity|split; [constructor|intros ? [= ->]; congruence]]].
    cbn [p_parens] in E. destruct (p_paren (ULpar :: w)) as [[p r1]|] eqn:Ep; [|discriminate]. destruct (p_parens n r1) as [[ps' r2]|] eqn:Es; [|discriminate]. injection E as <- <-.
    apply p_paren_inv in Ep. destruct Ep as [-> V]. apply IH in Es. destruct Es as (-> & F & N). cbn [ltoks flat_map]. rewrite <- app_assoc. auto.
Qed.
Lemma p_lexeme_inv w ps r : p_lexeme w = Some (ps, r) -> w = (ltoks ps ++ r)%list /\ vlexeme ps /\ no_l r.
Proof.
  unfold p_lexeme. intros E. destruct (p_parens _ w) as [[ps' r']|] eqn:Ep; [|discriminate]. destruct (is_lexeme ps') eqn:L; [|discriminate]. injection E as <- <-. apply p_parens_inv in Ep. unfold vlexeme. tauto.
Qed.
Lemma p_entry_inv w e r : p_entry w = Some (e, r) -> w = (etoks e ++ r)%list /\ vlexeme (snd (snd e)) /\ no_l r.
Proof.
  unfold p_entry. intros E. set (bw := match w with UBang :: u => (true, u) | _ => (false, w) end) in E.
  assert (B : w = ((if fst bw then [UBang] else []) ++ snd bw)%list) by (unfold bw; destruct w as [|[] w]; reflexivity).
  destruct bw as [b v]. cbn [fst snd] in B. destruct (p_morphemes v) as [ms r'] eqn:Em. apply p_morphemes_inv in Em. destruct Em as [-> _].
  destruct (p_lexeme r') as [[l r2]|] eqn:El; [|discriminate]. injection E as <- <-. apply p_lexeme_inv in El. destruct El as (-> & V & N). cbn [fst snd]. unfold etoks. cbn [fst snd]. rewrite B, <- !app_assoc. auto.
Qed.
Lemma p_entries_inv n : forall w es r, p_entries n w = Some (es, r) -> w = (estoks es ++ r)%list /\ es <> [] /\ Forall (fun e => vlexeme (snd (snd e))) es /\ no_l r.
Proof.
  induction n as [|n IH]; intros w es r E; [discriminate|]. cbn [p_entries] in E. destruct (p_entry w) as [[e r1]|] eqn:Ee; [|discriminate]. apply p_entry_inv in Ee. destruct Ee as (-> & V & N).
  assert (X : (exists u, r1 = UChevron :: u /\ exists es', p_entries n u = Some (es', r) /\ es = e :: es') \/ (es = [e] /\ r = r1)).
  { destruct r1 as [|[] r1]; try (right; injection E as <- <-; auto; fail). left. exists r1. split; auto. destruct (p_entries n r1) as [[es' r2]|]; [|discriminate]. injection E as <- <-. eauto. }
  destruct X as [(u & -> & es' & E' & ->)|[-> ->]].
  - apply IH in E'. destruct E' as (-> & NE & F & N'). split; [|split; [discriminate|auto]]. destruct es' as [|e' es']; [congruence|].
    change (estoks (e :: e' :: es')) with (etoks e ++ UChevron :: estoks (e' :: es'))%list. now rewrite <- app_assoc.
  - split; [reflexivity|]. split; [discriminate|auto].
Qed.
Lemma p_word_iff w es r : p_word w = Some (es, r) <-> exists v, w = (v ++ r)%list /\ d_word v es.
Proof.
  split.
  - unfold p_word. destruct w as [|[] w]; try discriminate. set (v := match w with UOld :: r' => r' | _ => w end).
    assert (B : w = UOld :: v \/ w = v) by (unfold v; destruct w as [|[] w]; auto). destruct (p_entries (List.length v) v) as [[es' r']|] eqn:Ee; [|discriminate]. destruct r' as [|[] r']; try discriminate.
    intros [= <- <-]. apply p_entries_inv in Ee. destruct Ee as (Ev & N & F & _). rewrite Ev in B. destruct B as [->| ->]; [exists (ULbr :: UOld :: estoks es' ++ [URbr])%list|exists (ULbr :: estoks es' ++ [URbr])%list];
      (split; [cbn [app]; now rewrite <- app_assoc|]); constructor; apply d_list_iff; auto.
  - intros (v & -> & [u es' H|u es' H]); apply d_list_iff in H; destruct H as (N & F & ->); cbn [app]; rewrite <- app_assoc; cbn [app].
    + pose proof (p_word_ok es' r N F) as P. unfold p_word in *.
      assert (H : p_entries (List.length (estoks es' ++ URbr :: r)) (estoks es' ++ URbr :: r) = Some (es', URbr :: r)).
      { apply p_entries_ok; auto; try (intros; discriminate). rewrite app_length. pose proof (estoks_length es' F). lia. }
      now rewrite H.
    + now apply p_word_ok.
Qed.
Lemma dtoks_iff w ds : d_decorations w ds <-> ds <> [] /\ w = dtoks ds.
Proof.
  split.
  - induction 1 as [w ds p v H [N ->]|p v]; [|split; [discriminate|reflexivity]]. split; [destruct ds; discriminate|]. unfold dtoks. now rewrite flat_map_app.
  - intros [N ->]. induction ds as [|[p v] ds IH] using rev_ind; [congruence|]. unfold dtoks. rewrite flat_map_app. cbn [flat_map app fst snd]. destruct ds as [|d ds]; [apply deco_one|]. apply deco_more. apply IH. discriminate.
Qed.
Lemma p_decorations_iff w ds : p_decorations w = Some ds <-> w = dtoks ds.
Proof.
  split.
  - revert w. assert (H : forall n w ds, List.length w <= n -> p_decorations w = Some ds -> w = dtoks ds).
    { induction n as [|n IH]; intros w ds' L E; [destruct w; [injection E as <-; reflexivity|cbn in L; lia]|].
      destruct w as [|[] w]; try discriminate; [injection E as <-; reflexivity|]. destruct w as [|[] w]; try discriminate. destruct w as [|[] w]; try discriminate. destruct w as [|[] w]; try discriminate.
      cbn in E. destruct (p_decorations w) as [l|] eqn:El; [|discriminate]. injection E as <-. apply IH in El; [|cbn in L; lia]. rewrite El. reflexivity. }
    intros w. now apply (H (List.length w)).
  - intros ->. induction ds as [|[p v] ds IH]; [reflexivity|]. cbn. fold (dtoks ds). now rewrite IH.
Qed.
Lemma dtoks_head ds : no_m (dtoks ds) /\ no_g (dtoks ds) /\ no_l (dtoks ds).
Proof. destruct ds as [|[p v] ds]; (split; [|split]); intros ? *; discriminate. Qed.

Lemma p_usl_ok w u r : d_usl w u -> no_m r -> no_g r -> no_l r -> (r = [] -> forall s, w <> [UMorpheme s]) -> p_usl (w ++ r) = Some (u, r).
Proof.
  intros H Nm Ng Nl NM. destruct H as [w p H|w l H|w es H].
  - apply d_pm_iff in H. destruct H as [V ->]. pose proof (p_pm_ok p r V Nm Ng) as P. unfold p_usl.
    destruct (ptoks p ++ r)%list as [|t v] eqn:E; [discriminate P|]. assert (X : forall s, v = [] -> t <> UMorpheme s).
    { intros s -> ->. assert (r = [] /\ ptoks p = [UMorpheme s]) as [-> E'].
      { destruct (ptoks p) as [|x l] eqn:Ep; [destruct p as [[|] [|]]; try discriminate; destruct V as [[V|V] _]; cbn in V; congruence|]. cbn in E. injection E as -> E. apply app_eq_nil in E. destruct E as [-> ->]. auto. }
      eapply NM; eauto. }
    destruct t; try (rewrite P; reflexivity).
    + destruct v; [exfalso; eapply X; reflexivity|]. rewrite P. reflexivity.
    + exfalso. discriminate P.
    + exfalso. discriminate P.
  - apply d_lexeme_iff in H. destruct H as [V ->]. destruct (ltoks_head l r V) as (x & E). pose proof (p_lexeme_ok l r V Nl) as P. rewrite E in *. unfold p_usl. rewrite P. reflexivity.
  - assert (P : p_word (w ++ r) = Some (es, r)) by (apply p_word_iff; eauto). destruct H as [w es H|w es H]; cbn [app] in *; unfold p_usl; rewrite P; reflexivity.
Qed.
Lemma p_usl_inv w u r : p_usl w = Some (u, r) -> (exists s, w = [UMorpheme s] /\ u = RMorpheme s /\ r = []) \/ ((forall s, w <> [UMorpheme s]) /\ exists v, w = (v ++ r)%list /\ d_usl v u).
Proof.
  unfold p_usl. intros E.
  assert (P : forall p, option_map (fun p => (RPm (fst p), snd p)) p = Some (u, r) -> exists q, p = Some (q, r) /\ u = RPm q) by (intros [[q r']|] [= <- <-]; eauto).
  assert (Q : p_pm w <> None -> forall q, p_pm w = Some (q, r) -> exists v, w = (v ++ r)%list /\ d_usl v (RPm q)).
  { intros _ q Hq. apply p_pm_inv in Hq. destruct Hq as (-> & V & _). exists (ptoks q). split; auto. apply usl_pm, d_pm_iff. auto. }
  destruct w as [|t w]; [discriminate|]. destruct t;
    try (right; split; [intros s'; discriminate|]; apply P in E; destruct E as (q & E & ->); apply Q; congruence).
  - destruct w as [|t w]; [left; injection E as <- <-; eauto|]. right. split; [intros s'; discriminate|]. apply P in E. destruct E as (q & E & ->). apply Q; congruence.
  - right. split; [intros s'; discriminate|]. destruct (p_lexeme (ULpar :: w)) as [[l r']|] eqn:El; [|discriminate]. injection E as <- <-. apply p_lexeme_inv in El. destruct El as (-> & V & _).
    exists (ltoks l). split; auto. apply usl_lexeme, d_lexeme_iff. auto.
  - right. split; [intros s'; discriminate|]. destruct (p_word (ULbr :: w)) as [[es r']|] eqn:El; [|discriminate]. injection E as <- <-. apply p_word_iff in El. destruct El as (v & -> & V).
    exists v. split; auto. now apply usl_word.
Qed.
Theorem p_proposition_iff w u ds : p_proposition w = Some (u, ds) <-> d_proposition w u ds.
Proof.
  split.
  - unfold p_proposition. destruct (p_usl w) as [[u' r]|] eqn:E; [|discriminate]. destruct (p_decorations r) as [ds'|] eqn:D; [|discriminate]. intros [= <- <-].
    apply p_decorations_iff in D. apply p_usl_inv in E. destruct E as [(s & -> & -> & ->)|(N & v & -> & H)].
    + destruct ds'; [constructor|discriminate].
    + subst r. destruct ds' as [|d ds']; [cbn [dtoks flat_map] in *; rewrite app_nil_r in *; now apply prop_usl|]. apply prop_instanced; auto. apply dtoks_iff. split; [discriminate|auto].
  - intros H. unfold p_proposition. destruct H as [s|w u H N|w u v ds H D].
    + reflexivity.
    + rewrite <- (app_nil_r w). rewrite (p_usl_ok w u [] H); try (intros ? *; discriminate); auto.
    + apply dtoks_iff in D. destruct D as [N ->]. destruct (dtoks_head ds) as (A & B & C). rewrite (p_usl_ok w u _ H A B C); [|destruct ds as [|[]]; [congruence|discriminate]].
      destruct (proj2 (p_decorations_iff (dtoks ds) ds) eq_refl). now rewrite (proj2 (p_decorations_iff (dtoks ds) ds) eq_refl).
Qed.

(** ** Actions *)
Section Meaning.
  Variable so : list script -> list script.
  Lemma mapM_iff {A B} (f : A -> res B) l : forall ys, mapM f l = Ok ys <-> Forall2 (fun x y => f x = Ok y) l ys.
  Proof.
    induction l as [|x l IH]; intros ys.
    - split; intros H; [injection H as <-; constructor|inversion H; reflexivity].
    - rewrite mapM_step. split; intros H.
      + destruct (f x) as [y|] eqn:E; [|discriminate]. cbn [bind] in H. destruct (mapM f l) as [ys'|] eqn:E'; [|discriminate]. injection H as <-. constructor; auto. now apply IH.
      + inversion H as [|? y ? ys' H1 H2]; subst. rewrite H1. cbn [bind]. apply IH in H2. rewrite H2. reflexivity.
  Qed.
  Lemma F2_iff {A B} (P Q : A -> B -> Prop) l l' : (forall x y, P x y <-> Q x y) -> Forall2 P l l' <-> Forall2 Q l l'.
  Proof. intros H. split; induction 1; constructor; auto; now apply H. Qed.
  Lemma e_pm_iff p q : e_pm so p = Ok q <-> means_pm so p q.
  Proof.
    unfold e_pm, means_pm, e_morphemes. split.
    - intros H. destruct (mapM (parse so) (raw_constant p)) as [cs|] eqn:E1; [|discriminate]. cbn [bind] in H. destruct (mapM _ (raw_groups p)) as [gs|] eqn:E2; [|discriminate]. injection H as <-.
      exists cs, gs. split; [now apply mapM_iff|]. split; auto. apply mapM_iff in E2. revert E2. refine (proj1 (F2_iff _ _ _ _ _)). intros g h. cbn beta. destruct (mapM (parse so) (fst g)) as [ms|] eqn:E.
      + cbn [bind]. apply mapM_iff in E. split; [intros [= <-]; auto|]. intros [H1 H2]. apply mapM_iff in E, H1. destruct h as [m n]. cbn in *. congruence.
      + split; [discriminate|]. intros [H1 _]. apply mapM_iff in H1. cbn in *. congruence.
    - intros (cs & gs & H1 & H2 & ->). apply mapM_iff in H1. rewrite H1. cbn [bind]. enough (H : mapM (fun g => do ms <- mapM (parse so) (fst g); Ok (ms, snd g)) (raw_groups p) = Ok gs) by (rewrite H; reflexivity).
      apply mapM_iff. revert H2. refine (proj2 (F2_iff _ _ _ _ _)). intros g h. cbn beta. split.
      + intros H. destruct (mapM (parse so) (fst g)) as [ms|] eqn:E; [|discriminate]. injection H as <-. split; [now apply mapM_iff|auto].
      + intros [H3 H4]. apply mapM_iff in H3. rewrite H3. destruct h as [m n]. cbn in *. congruence.
  Qed.
  Lemma e_lexeme_iff ps l : is_lexeme ps = true -> e_lexeme so ps = Ok l <-> means_lexeme so ps l.
  Proof.
    intros V. unfold e_lexeme. split.
    - intros H. destruct (mapM (e_opt so) ps) as [qs|] eqn:E; [|discriminate]. cbn [bind] in H. apply mapM_iff in E. unfold is_lexeme in V.
      repeat match type of V with match ?x with _ => _ end = true => destruct x; try discriminate end;
      repeat match goal with X : Forall2 _ _ _ |- _ => inversion X; clear X; subst end; injection H as <-; cbn [e_opt] in *; repeat match goal with X : e_pm _ _ = Ok _ |- _ => apply e_pm_iff in X | X : Ok _ = Ok _ |- _ => injection X as <- end; constructor; auto.
    - intros H. destruct H; repeat match goal with X : means_pm _ _ _ |- _ => apply e_pm_iff in X end; rewrite !mapM_step; cbn [e_opt mapM bind];
        repeat match goal with X : e_pm so ?p = Ok _ |- _ => rewrite X; clear X; cbn [bind] end; reflexivity.
  Qed.
  Lemma e_entry_iff e b r l : is_lexeme (snd (snd e)) = true -> e_entry so e = Ok (b, (r, l)) <-> b = fst e /\ means_entry so e (r, Some l).
  Proof.
    intros V. unfold e_entry, means_entry, e_morphemes. split.
    - intros H. destruct (mapM (parse so) _) as [ms|] eqn:E1; [|discriminate]. cbn [bind] in H. destruct (e_lexeme so _) as [l'|] eqn:E2; [|discriminate]. injection H as <- <- <-. split; auto.
      exists ms, l'. split; [now apply mapM_iff|]. split; auto. now apply e_lexeme_iff.
    - intros (-> & ms & l' & H1 & H2 & [= -> ->]). apply mapM_iff in H1. rewrite H1. apply e_lexeme_iff in H2; auto. cbn [bind]. rewrite H2. reflexivity.
  Qed.
  Definition fm := fun (acc : role) (e : bool * (role * lexeme)) => if fst e then fst (snd e) else acc.
  Lemma fold_unmarked l : forall acc, Forall (fun e => fst e = false) l -> fold_left fm l acc = acc.
  Proof. induction l as [|e l IH]; intros acc F; [reflexivity|]. apply Forall_cons_iff in F. destruct F as [E F]. cbn. unfold fm at 2. rewrite E. auto. Qed.
  Lemma last_mark_split l : Forall (fun e => fst e = false) l \/ exists l1 e l2, l = (l1 ++ e :: l2)%list /\ fst e = true /\ Forall (fun e : bool * (role * lexeme) => fst e = false) l2.
  Proof.
    induction l as [|e l [F|(l1 & x & l2 & -> & H & F)]]; [auto| |right; exists (e :: l1), x, l2; auto]. destruct (fst e) eqn:E; [right; exists [], e, l; auto|left; auto].
  Qed.
  Lemma last_mark_at l1 e l2 : fst e = true -> Forall (fun e : bool * (role * lexeme) => fst e = false) l2 -> last_mark (l1 ++ e :: l2) = fst (snd e).
  Proof. intros E F. unfold last_mark. fold fm. rewrite fold_left_app. cbn [fold_left]. unfold fm at 2. rewrite E. now apply fold_unmarked. Qed.
  Definition row_of (e : bool * (role * lexeme)) : role * option lexeme := (fst (snd e), Some (snd (snd e))).
  Lemma e_word_iff es w : Forall (fun e => is_lexeme (snd (snd e)) = true) es ->
    e_word so es = Ok w <-> exists xs r, Forall2 (means_entry so) es xs /\ last_marked es xs r /\ word_of xs r = Ok w.
  Proof.
    intros V. unfold e_word. split.
    - intros H. destruct (mapM (e_entry so) es) as [rows|] eqn:E; [|discriminate]. cbn [bind] in H. fold row_of in H. apply mapM_iff in E. exists (map row_of rows), (last_mark rows).
      assert (N : last_mark rows <> []) by (intros X; rewrite X in H; discriminate).
      assert (F : Forall2 (fun e x => fst x = fst e /\ means_entry so e (row_of x)) es rows).
      { clear -E V. induction E as [|e [b [r l]] es rows H F IH]; [constructor|]. apply Forall_cons_iff in V. destruct V as [V1 V]. constructor; auto. apply e_entry_iff in H; auto. }
      split; [|split; auto].
      + clear -F. induction F as [|? ? ? ? [_ H] F IH]; constructor; auto.
      + destruct (last_mark_split rows) as [U|(l1 & x & l2 & -> & Hx & U)]; [elim N; unfold last_mark; fold fm; now apply fold_unmarked|]. rewrite last_mark_at by auto.
        apply Forall2_app_inv_r in F. destruct F as (es1 & es2 & F1 & F2 & ->). inversion F2 as [|e ? es2' ? [He _] F3]; subst. exists es1, e, es2', (map row_of l1), (row_of x), (map row_of l2).
        split; auto. split; [now rewrite map_app|]. split; [rewrite map_length; clear -F1; induction F1; cbn; congruence|]. split; [congruence|]. split; [|reflexivity].
        clear -F3 U. induction F3 as [|e y es ys [H _] F IH]; [constructor|]. apply Forall_cons_iff in U. destruct U. constructor; [congruence|auto].
    - intros (xs & r & F & (es1 & e & es2 & xs1 & x & xs2 & E1 & E2 & L & M & U & R) & H).
      assert (X : forall es xs, Forall (fun e => is_lexeme (snd (snd e)) = true) es -> Forall2 (means_entry so) es xs -> exists rows, mapM (e_entry so) es = Ok rows /\ map row_of rows = xs /\ map fst rows = map fst es).
      { clear. intros es xs V F. induction F as [|e x es xs H F IH]; [exists []; auto|]. apply Forall_cons_iff in V. destruct V as [V1 V]. destruct (IH V) as (rows & E & E1 & E2).
        pose proof H as (ms & l & _ & _ & ->). exists ((fst e, (map str ms, l)) :: rows). rewrite mapM_step, E. rewrite (proj2 (e_entry_iff e (fst e) _ _ V1) (conj eq_refl H)). cbn. rewrite E1, E2. auto. }
      destruct (X es xs V F) as (rows & Er & Ex & Em). rewrite Er. cbn [bind]. fold row_of. rewrite Ex. replace (last_mark rows) with r; auto.
      subst es xs. apply map_eq_app in Ex. destruct Ex as (r1 & r2 & -> & Ex1 & Ex2). apply map_eq_cons in Ex2. destruct Ex2 as (y & r3 & -> & Ey & Ex3).
      rewrite !map_app in Em. cbn [map] in Em. assert (Lr : List.length (map fst r1) = List.length (map fst es1)) by (rewrite !map_length; etransitivity; [|symmetry; exact L]; rewrite <- Ex1, map_length; reflexivity).
      assert (Q : forall (a a' b b' : list bool), List.length a = List.length a' -> (a ++ b = a' ++ b')%list -> a = a' /\ b = b').
      { clear. induction a as [|x a IH]; intros [|y a'] b b' L E; try discriminate; auto. cbn in *. injection E as -> E. injection L as L. destruct (IH a' b b' L E) as [-> ->]. auto. }
      apply Q in Em; auto. destruct Em as [_ Em]. injection Em as Em1 Em2. rewrite last_mark_at; [subst r x; reflexivity|congruence|].
      clear -Em2 U. revert es2 Em2 U. induction r3 as [|z r3 IH]; intros [|e es2] E U; try discriminate; [constructor|]. cbn in E. injection E as E1 E2. apply Forall_cons_iff in U. destruct U as [U1 U]. constructor; [congruence|eauto].
  Qed.
  Lemma d_list_lexemes w es : d_list w es -> Forall (fun e => is_lexeme (snd (snd e)) = true) es.
  Proof. intros H. apply d_list_iff in H. destruct H as (_ & F & _). eapply Forall_impl; [|exact F]. intros e [H _]. exact H. Qed.
  Lemma d_usl_iff w u x : d_usl w u -> e_usl so u = Ok x <-> means so u x.
  Proof.
    intros D. destruct D as [w p D|w l D|w es D]; cbn [e_usl].
    - split; [intros H; destruct (e_pm so p) as [q|] eqn:E; [|discriminate]; injection H as <-; constructor; now apply e_pm_iff|]. intros H. inversion H as [|? q H1| |]; subst. apply e_pm_iff in H1. now rewrite H1.
    - apply d_lexeme_iff in D. destruct D as [[V _] _]. split; [intros H; destruct (e_lexeme so l) as [q|] eqn:E; [|discriminate]; injection H as <-; constructor; now apply e_lexeme_iff|].
      intros H. inversion H as [| |? q H1|]; subst. apply e_lexeme_iff in H1; auto. now rewrite H1.
    - assert (V : Forall (fun e => is_lexeme (snd (snd e)) = true) es) by (destruct D as [? ? D|? ? D]; now apply d_list_lexemes in D). split.
      + intros H. destruct (e_word so es) as [q|] eqn:E; [|discriminate]. injection H as <-. apply e_word_iff in E; auto. destruct E as (xs & r & E1 & E2 & E3). econstructor; eauto.
      + intros H. inversion H as [| | |? xs r q H1 H2 H3]; subst. rewrite (proj2 (e_word_iff es q V)); [reflexivity|eauto].
  Qed.
  Lemma d_proposition_iff w u ds x : d_proposition w u ds -> e_usl so u = Ok x <-> means so u x.
  Proof.
    intros [s|v r D _|v r z l D _]; try (eapply d_usl_iff; eauto; fail). cbn [e_usl]. split; [|intros H; inversion H as [? y H1| | |]; subst; unfold reads in H1; now rewrite H1].
    intros H. destruct (parse so s) eqn:E; [|discriminate]. injection H as <-. now constructor.
  Qed.
  Lemma usl_parse_iff t u ds : t <> "" -> usl_parse so t = Ok (u, ds) <-> exists r, d_proposition (ulex 0 false t) r ds /\ means so r u.
  Proof.
    intros N. apply String.eqb_neq in N. unfold usl_parse. rewrite N. split.
    - intros H. destruct (p_proposition _) as [[r ds']|] eqn:E; [|discriminate]. apply p_proposition_iff in E. exists r. destruct (e_usl so r) as [x|[]] eqn:Ex; try discriminate. injection H as <- <-. split; auto. eapply d_proposition_iff; eauto.
    - intros (r & D & M). pose proof D as P. apply p_proposition_iff in P. rewrite P. apply (d_proposition_iff _ _ _ _ D) in M. rewrite M. reflexivity.
  Qed.

  (** ** Errors *)
  Lemma mapM_err {A B} (f : A -> res B) l e : mapM f l = Err e -> exists x, In x l /\ f x = Err e.
  Proof.
    induction l as [|x l IH]; [discriminate|]. rewrite mapM_step. destruct (f x) as [y|e'] eqn:E; cbn [bind]; [|intros [= <-]; exists x; split; [now left|auto]].
    destruct (mapM f l) as [ys|e'] eqn:E'; [discriminate|]. intros [= <-]. destruct (IH eq_refl) as (z & Hz & Ez). exists z. split; [now right|auto].
  Qed.
  Lemma e_pm_err p e : e_pm so p = Err e -> exists s, In s (pm_texts p) /\ parse so s = Err e.
  Proof.
    unfold e_pm, e_morphemes, pm_texts. intros H. destruct (mapM (parse so) (raw_constant p)) as [cs|e'] eqn:E1; cbn [bind] in H.
    - destruct (mapM _ (raw_groups p)) as [gs|e'] eqn:E2; [discriminate|]. injection H as <-. apply mapM_err in E2. destruct E2 as (g & Hg & E2). destruct (mapM (parse so) (fst g)) as [|e''] eqn:E3; [discriminate|]. injection E2 as <-.
      apply mapM_err in E3. destruct E3 as (s & Hs & E3). exists s. split; auto. apply in_app_iff. right. apply in_flat_map. eauto.
    - injection H as <-. apply mapM_err in E1. destruct E1 as (s & Hs & E1). exists s. split; auto. apply in_app_iff. auto.
  Qed.
  Lemma e_lexeme_err ps e : is_lexeme ps = true -> e_lexeme so ps = Err e -> exists s, In s (lexeme_texts ps) /\ parse so s = Err e.
  Proof.
    intros V H. unfold e_lexeme in H. destruct (mapM (e_opt so) ps) as [qs|e'] eqn:E; cbn [bind] in H.
    - exfalso. apply mapM_iff in E. unfold is_lexeme in V. repeat match type of V with match ?x with _ => _ end = true => destruct x; try discriminate end; repeat match goal with X : Forall2 _ _ _ |- _ => inversion X; clear X; subst end; discriminate H.
    - injection H as <-. apply mapM_err in E. destruct E as ([p|] & Hp & E); [|discriminate]. cbn in E. apply e_pm_err in E. destruct E as (s & Hs & E). exists s. split; auto. unfold lexeme_texts. apply in_flat_map. exists (Some p). auto.
  Qed.
  Lemma e_usl_err w u ds e : d_proposition w u ds -> e_usl so u = Err e ->
    (exists s, In s (texts u) /\ parse so s = Err e) \/ (exists es xs r, u = RWord es /\ word_of xs r = Err e).
  Proof.
    intros D H. assert (V : match u with RLexeme l => is_lexeme l = true | RWord es => Forall (fun e => is_lexeme (snd (snd e)) = true) es | _ => True end).
    { assert (forall v x, d_usl v x -> match x with RLexeme l => is_lexeme l = true | RWord es => Forall (fun e => is_lexeme (snd (snd e)) = true) es | _ => True end) as X.
      { intros v x [? ? ?|? ? L|? ? W]; auto; [apply d_lexeme_iff in L; apply L|destruct W as [? ? W|? ? W]; now apply d_list_lexemes in W]. }
      destruct D as [s|v r D _|v r z l D _]; auto; eapply X; eauto. }
    destruct u as [s|p|l|es]; cbn [e_usl] in H.
    - left. destruct (parse so s) eqn:E; [discriminate|]. injection H as <-. exists s. split; [now left|auto].
    - left. destruct (e_pm so p) eqn:E; [discriminate|]. injection H as <-. now apply e_pm_err.
    - left. destruct (e_lexeme so l) eqn:E; [discriminate|]. injection H as <-. now apply e_lexeme_err.
    - destruct (e_word so es) as [|e'] eqn:E; [discriminate|]. injection H as <-. unfold e_word in E. destruct (mapM (e_entry so) es) as [rows|e''] eqn:Er; cbn [bind] in E; [right; eauto|]. injection E as <-. left.
      apply mapM_err in Er. destruct Er as (x & Hx & Er). rewrite Forall_forall in V. specialize (V x Hx). unfold e_entry, e_morphemes in Er. cbn [texts].
      destruct (mapM (parse so) (fst (snd x))) as [ms|e0] eqn:E1; cbn [bind] in Er.
      + destruct (e_lexeme so (snd (snd x))) as [l|e0] eqn:E2; [discriminate|]. injection Er as <-. apply e_lexeme_err in E2; auto. destruct E2 as (s & Hs & E2). exists s. split; auto. apply in_flat_map. exists x. split; auto. apply in_app_iff. auto.
      + injection Er as <-. apply mapM_err in E1. destruct E1 as (s & Hs & E1). exists s. split; auto. apply in_flat_map. exists x. split; auto. apply in_app_iff. auto.
  Qed.
End Meaning.

(** The morphemes of the structure are tokens of the text. *)
Lemma in_morphemes s ms : In s ms -> In (UMorpheme s) (map UMorpheme ms). Proof. apply in_map. Qed.
Lemma pm_texts_tokens s p : In s (pm_texts p) -> In (UMorpheme s) (ptoks p).
Proof.
  unfold pm_texts, ptoks. rewrite !in_app_iff. intros [H|H]; [left; now apply in_map|right]. apply in_flat_map in H. destruct H as (g & Hg & H). apply in_flat_map. exists g. split; auto.
  unfold gtoks. right. right. apply in_app_iff. left. now apply in_map.
Qed.
Lemma lexeme_texts_tokens s l : In s (lexeme_texts l) -> In (UMorpheme s) (ltoks l).
Proof.
  unfold lexeme_texts, ltoks. intros H. apply in_flat_map in H. destruct H as ([p|] & Hp & H); [|destruct H]. apply in_flat_map. exists (Some p). split; auto. unfold paren_toks. right. apply in_app_iff. left. now apply pm_texts_tokens.
Qed.
Lemma estoks_tokens t e es : In e es -> In t (etoks e) -> In t (estoks es).
Proof.
  intros H Ht. induction es as [|x es IH]; [destruct H|]. destruct es as [|y es]; [destruct H as [->|[]]; exact Ht|].
  change (estoks (x :: y :: es)) with (etoks x ++ UChevron :: estoks (y :: es))%list. apply in_app_iff. destruct H as [->|H]; [auto|]. right. right. now apply IH.
Qed.
Lemma texts_tokens w u ds s : d_proposition w u ds -> In s (texts u) -> In (UMorpheme s) w.
Proof.
  assert (X : forall v x, d_usl v x -> In s (texts x) -> In (UMorpheme s) v).
  { intros v x [v' p D|v' l D|v' es D] H; cbn [texts] in H.
    - apply d_pm_iff in D. destruct D as [_ ->]. now apply pm_texts_tokens.
    - apply d_lexeme_iff in D. destruct D as [_ ->]. now apply lexeme_texts_tokens.
    - apply in_flat_map in H. destruct H as (e & He & H). assert (T : In (UMorpheme s) (estoks es)).
      { apply (estoks_tokens _ e); auto. unfold etoks. rewrite !in_app_iff. apply in_app_iff in H. destruct H as [H|H]; [right; left; now apply in_map|right; right; now apply lexeme_texts_tokens]. }
      destruct D as [u' es D|u' es D]; apply d_list_iff in D; destruct D as (_ & _ & ->); right; [right|]; apply in_app_iff; auto. }
  intros [t|v x D _|v x z l D _] H; [destruct H as [->|[]]; now left|eapply X; eauto|apply in_app_iff; left; eapply X; eauto].
Qed.
Lemma word_tokens w es ds : d_proposition w (RWord es) ds -> exists r, w = ULbr :: r.
Proof.
  intros D. inversion D as [|? ? H _|? ? ? ? H _]; subst; inversion H as [| |? ? W]; subst; destruct W; cbn; eauto.
Qed.
