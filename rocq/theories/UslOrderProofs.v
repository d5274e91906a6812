(** The order of words, and of expressions of all kinds. *)
From Coq Require Import List String Ascii Bool NArith Arith Lia Sorted Permutation.
From Verif Require Import Base Script Commons Usl Sfun UslParser SortProofs OrderTheory UslProofs SfunProofs SfunListProofs SfunWordProofs UslRoundProofs UslOrder.
Import ListNotations.
Local Open Scope string_scope.

Notation cvalid := (cvalid lexeme).
Notation lst := (lst lexeme).
Definition keyed (e : role * sfun lexeme) : role * string := (fst e, actor_str (actor_of (snd e))).
Definition pk (f : sfun lexeme) : list (role * string) := map kstr (pairs f).
Notation klt := (fun a b : role * string => role_lt (fst a) (fst b)).

Lemma insert_map {A B} (h : A -> B) (lt : A -> A -> bool) (lt' : B -> B -> bool) : (forall a b, lt a b = lt' (h a) (h b)) ->
  forall x l, map h (insert lt x l) = insert lt' (h x) (map h l).
Proof.
  intros H x l. induction l as [|y l IH]; [reflexivity|]. cbn [insert map]. rewrite H. destruct (lt' (h y) (h x)); cbn [map]; [now rewrite IH|reflexivity].
Qed.
Lemma sort_map {A B} (h : A -> B) (lt : A -> A -> bool) (lt' : B -> B -> bool) : (forall a b, lt a b = lt' (h a) (h b)) ->
  forall l, map h (sort lt l) = sort lt' (map h l).
Proof. intros H l. induction l as [|x l IH]; [reflexivity|]. cbn [sort map]. rewrite (insert_map h lt lt' H). now rewrite IH. Qed.
Lemma pk_sort f : pk f = sort klt (map keyed (actors f)).
Proof.
  unfold pk, pairs. rewrite (sort_map kstr _ klt) by reflexivity. now rewrite map_map.
Qed.

(** ** The text of a word and its sorted pairs *)
Lemma same_shape (l m : list (role * sfun lexeme)) :
  map (fun e => (fst e, skel (snd e))) l = map (fun e => (fst e, skel (snd e))) m ->
  map keyed (filter (fun e => negb (is_jun (snd e))) l) = map keyed (filter (fun e => negb (is_jun (snd e))) m) ->
  map keyed l = map keyed m.
Proof.
  revert m. induction l as [|[r g] l IH]; intros [|[r' g'] m] E F; try discriminate; [reflexivity|].
  cbn [map fst snd] in E. injection E as -> Eg E. cbn [filter snd] in F. rewrite <- (is_jun_skel lexeme g), <- (is_jun_skel lexeme g'), Eg in F.
  destruct (negb (is_jun (skel g'))) eqn:J.
  - cbn [map] in F. injection F as F1 F2. cbn [map]. unfold keyed at 1 3. cbn [fst snd]. rewrite F1. f_equal. now apply IH.
  - cbn [map]. f_equal; [|now apply IH]. unfold keyed. cbn [fst snd]. f_equal. apply negb_false_iff in J.
    assert (J' : is_jun g = true) by (rewrite <- (is_jun_skel lexeme g), Eg; exact J). rewrite (is_jun_skel lexeme) in J. destruct g, g'; try discriminate. reflexivity.
Qed.
Lemma krows_pk c f f' : cvalid c f -> cvalid c f' -> krows f' = krows f -> pk f' = pk f.
Proof.
  intros V V' E. assert (P : Permutation (map kstr (as_list c f')) (map kstr (as_list c f))).
  { rewrite !as_list_lst. unfold pre. rewrite !map_map.
    assert (Q : Permutation (map kstr (lst f')) (map kstr (lst f))).
    { eapply perm_trans; [apply Permutation_sym, krows_perm|]. rewrite E. apply krows_perm. }
    apply (Permutation_map (fun e => ((context_prefix c ++ fst e)%list, snd e))) in Q. rewrite !map_map in Q. exact Q. }
  apply Permutation_sym, Permutation_map_inv in P. destruct P as (l & El & P).
  assert (R : map fst l = map fst (as_list c f)).
  { apply (f_equal (map fst)) in El. rewrite !map_map in El. cbn [kstr fst] in El. symmetry. exact El. }
  destruct (refill_c lexeme c f V l R) as (g & Vg & Lg & Sg).
  destruct (from_list_perm lexeme c f' l V' (Permutation_sym P)) as (g' & Fg & Sa).
  assert (g' = g). { pose proof (from_list_exact lexeme c g Vg) as X. rewrite Lg in X. congruence. } subst g'.
  unfold pk at 1. rewrite <- (same_actants_pairs lexeme c f' g V' Sa). fold (pk g). rewrite !pk_sort. f_equal. apply same_shape.
  - rewrite <- !actors_skel. now rewrite Sg.
  - rewrite <- Lg in El. rewrite !as_list_lst in El. unfold pre in El. rewrite !map_map in El.
    assert (X : map kstr (lst g) = map kstr (lst f)).
    { symmetry in El. revert El. generalize (lst g) (lst f). intros a b. revert b. induction a as [|x a IH]; intros [|y b] H; try discriminate; [reflexivity|].
      cbn [map] in *. unfold kstr in H at 1 3. cbn [fst snd] in H. injection H as H1 H2 H3. f_equal; [|now apply IH]. unfold kstr. f_equal; [|exact H2]. apply app_inv_head in H1. exact H1. }
    unfold SfunProofs.lst in X. rewrite !map_map in X. exact X.
Qed.

(** Junctions are the nodes with a junction below. *)
Definition split_under (f : sfun lexeme) : Prop := forall r g s t h, In (r, g) (actors f) -> In s JUNCTION_SCRIPTS -> In ((r ++ s :: t)%list, h) (actors f) -> is_jun g = true.
Lemma quality_not_junction s : In s JUNCTION_SCRIPTS -> s <> INDEPENDANT_QUALITY /\ s <> DEPENDANT_QUALITY.
Proof. intros H. split; intros ->; apply ins_In in H; vm_compute in H; discriminate. Qed.
Lemma below_junction k f : valid lexeme k f -> split_under f.
Proof.
  revert k. induction f as [link cs IH|x|x d i IHd IHi|x v acts IH] using sfun_ind'; intros k V r g s t h Hr Hs Hh.
  - apply valid_jun in V. destruct V as (L & N & V). rewrite actors_jun' in *. destruct Hr as [[= <- <-]|Hr]; [reflexivity|].
    apply children_actors_in in Hr. destruct Hr as (m & c & r' & Em & Er & Hr). cbn [fst snd] in *. subst r. destruct Hh as [[=]|Hh].
    apply children_actors_in in Hh. destruct Hh as (m' & c' & r'' & Em' & Er & Hh). cbn [fst snd app] in *. injection Er as Ei Er.
    assert (m < List.length cs) by (apply nth_error_Some; congruence). assert (m' < List.length cs) by (apply nth_error_Some; congruence).
    cbn [Nat.add] in Ei. apply (index_inj m m') in Ei; try lia. subst m'. rewrite Em in Em'. injection Em' as <-. subst r''.
    apply nth_error_In in Em. rewrite Forall_forall in V, IH. eapply (IH c Em k); eauto.
  - destruct Hr as [[= <- <-]|[]]. destruct Hh as [[=]|[]].
  - cbn [SfunProofs.valid] in V. destruct V as (_ & Vd & Vi). rewrite actors_dep in *. destruct Hr as [[= <- <-]|Hr].
    + exfalso. cbn [app] in Hh. destruct Hh as [[=]|Hh]. destruct (quality_not_junction s Hs). apply in_app_iff in Hh. destruct Hh as [Hh|Hh]; apply under_in in Hh; destruct Hh as (r' & E & _); cbn in E; congruence.
    + destruct Hh as [E|Hh]; [apply (f_equal fst) in E; cbn in E; destruct r; discriminate|]. apply in_app_iff in Hr, Hh.
      destruct Hr as [Hr|Hr], Hh as [Hh|Hh]; apply under_in in Hr, Hh; destruct Hr as (r1 & E1 & Hr), Hh as (r2 & E2 & Hh); cbn [fst snd] in *; subst r; cbn [app] in E2; try discriminate E2; injection E2 as <-.
      * destruct i as [q|]; [|destruct Hr]. eapply (IHi q eq_refl); eauto.
      * destruct d as [q|]; [|destruct Hr]. eapply (IHd q eq_refl); eauto.
  - destruct V.
Qed.
Lemma below_junction_c c f : cvalid c f -> split_under f.
Proof.
  destruct c; [|apply below_junction|apply below_junction]. destruct f as [| | |x v acts]; intros V; try solve [destruct V]. cbn [SfunProofs.cvalid pvalid] in V. destruct V as (V & N & F).
  intros r g s t h Hr Hs Hh. rewrite actors_proc in *. destruct Hr as [[= <- <-]|Hr].
  - exfalso. cbn [app] in Hh. destruct Hh as [[=]|Hh]. apply in_concat in Hh. destruct Hh as (l & Hl & Hh). apply in_map_iff in Hl. destruct Hl as ([a q] & <- & Ha).
    apply under_in in Hh. destruct Hh as (r' & E & _). cbn in E. injection E as -> E. rewrite Forall_forall in F. destruct (F _ Ha) as [Fa _]. cbn [fst] in Fa. apply valence_not_actant in V. apply ins_In in Fa. congruence.
  - destruct Hh as [E|Hh].
    + exfalso. apply (f_equal fst) in E. cbn in E. apply in_concat in Hr. destruct Hr as (l & Hl & Hr). apply in_map_iff in Hl. destruct Hl as ([a q] & <- & Ha). apply under_in in Hr. destruct Hr as (r' & E' & _). cbn in E'. subst r. cbn in E. injection E as _ E. destruct r'; discriminate.
    + apply in_concat in Hr, Hh. destruct Hr as (l & Hl & Hr), Hh as (l' & Hl' & Hh). apply in_map_iff in Hl, Hl'. destruct Hl as ([a q] & <- & Ha), Hl' as ([a' q'] & <- & Ha').
      apply under_in in Hr, Hh. destruct Hr as (r1 & E1 & Hr), Hh as (r2 & E2 & Hh). cbn [fst snd] in *. subst r. cbn [app] in E2. injection E2 as -> <-.
      assert (q = q'). { eapply nodup_fst; eauto. } subst q'. rewrite Forall_forall in F. destruct (F _ Ha) as [_ Vq]. eapply below_junction; eauto.
Qed.
Lemma jun_below c f r g : cvalid c f -> In (r, g) (actors f) -> (is_jun g = true <-> exists s t, In s JUNCTION_SCRIPTS /\ In (r ++ s :: t)%list (map fst (actors f))).
Proof.
  intros V H. split.
  - intros J. destruct g as [link cs| | |]; try discriminate.
    assert (L : In link JUNCTION_SCRIPTS /\ exists c', nth_error cs 0 = Some c').
    { assert (Q : forall k f, valid lexeme k f -> forall r, In (r, Jun link cs) (actors f) -> In link JUNCTION_SCRIPTS /\ exists c', nth_error cs 0 = Some c').
      { clear. intros k f. revert k. induction f as [ln ds IH|x|x d i IHd IHi|x v acts IH] using sfun_ind'; intros k V r H.
        - apply valid_jun in V. destruct V as (L & N & V). rewrite actors_jun' in H. destruct H as [[= _ -> ->]|H]; [split; auto; destruct cs as [|c' cs]; cbn in *; [lia|eauto]|].
          apply children_actors_in in H. destruct H as (m & c & r' & Em & _ & H). cbn [snd] in H. apply nth_error_In in Em. rewrite Forall_forall in V, IH. eapply (IH c Em k); eauto.
        - destruct H as [[=]|[]].
        - cbn [SfunProofs.valid] in V. destruct V as (_ & Vd & Vi). rewrite actors_dep in H. destruct H as [[=]|H]. apply in_app_iff in H. destruct H as [H|H]; apply under_in in H; destruct H as (r' & _ & H); cbn [snd] in H.
          + destruct i as [q|]; [|destruct H]. eapply (IHi q eq_refl); eauto.
          + destruct d as [q|]; [|destruct H]. eapply (IHd q eq_refl); eauto.
        - destruct V. }
      destruct c; cbn [SfunProofs.cvalid] in V; eauto. destruct f as [| | |x v acts]; try solve [destruct V]. cbn [pvalid] in V. destruct V as (_ & _ & F).
      rewrite actors_proc in H. destruct H as [[=]|H]. apply in_concat in H. destruct H as (l & Hl & H). apply in_map_iff in Hl. destruct Hl as ([a q] & <- & Ha). apply under_in in H. destruct H as (r' & _ & H). cbn [fst snd] in *.
      rewrite Forall_forall in F. destruct (F _ Ha) as [_ Vq]. eauto. }
    destruct L as (L & c' & Hc). exists link, [nth 0 JUNCTION_INDEX ""]. split; auto.
    pose proof (actors_step_c lexeme c f V r link cs 0 c' H Hc) as S. change ((r ++ [link; nth 0 JUNCTION_INDEX ""])%list) with (fst ((r ++ [link; nth 0 JUNCTION_INDEX ""])%list, c')). now apply in_map.
  - intros (s & t & Hs & I). apply in_map_iff in I. destruct I as ([r' h] & E & I). cbn [fst] in E. subst r'. eapply (below_junction_c c f V); eauto.
Qed.
Lemma pk_in f e : In e (pk f) <-> In e (map keyed (actors f)).
Proof. rewrite pk_sort. split; apply Permutation_in; [|apply Permutation_sym]; apply sort_perm. Qed.
Lemma pk_keys f r : In r (map fst (pk f)) <-> In r (map fst (actors f)).
Proof.
  replace (map fst (actors f)) with (map fst (map keyed (actors f))) by (rewrite map_map; reflexivity).
  rewrite !in_map_iff. setoid_rewrite pk_in. reflexivity.
Qed.
Lemma pk_nodup c f : cvalid c f -> NoDup (map fst (pk f)).
Proof.
  intros V. rewrite pk_sort. eapply Permutation_NoDup; [apply Permutation_map, Permutation_sym, sort_perm|]. rewrite map_map. cbn. eapply actors_nodup_c; eauto.
Qed.
Lemma lst_pk c f e : cvalid c f -> (In e (map kstr (lst f)) <-> In e (pk f) /\ ~ exists s t, In s JUNCTION_SCRIPTS /\ In (fst e ++ s :: t)%list (map fst (pk f))).
Proof.
  intros V. rewrite pk_in. setoid_rewrite pk_keys. unfold SfunProofs.lst. rewrite map_map, !in_map_iff. split.
  - intros ([r g] & E & H). apply filter_In in H. destruct H as [H J]. cbn [snd fst] in *. subst e. cbn [fst kstr]. split; [exists (r, g); auto|].
    intros X. apply (jun_below c f r g V H) in X. rewrite X in J. discriminate.
  - intros (([r g] & <- & H) & X). exists (r, g). split; [reflexivity|]. apply filter_In. split; auto. cbn [snd]. destruct (is_jun g) eqn:J; [|reflexivity]. exfalso. apply X. apply (jun_below c f r g V H). exact J.
Qed.
Lemma pk_krows c f f' : cvalid c f -> cvalid c f' -> pk f' = pk f -> krows f' = krows f.
Proof.
  intros V V' E. apply (krows_eq c); auto.
  assert (N : forall f, cvalid c f -> NoDup (map kstr (lst f))).
  { intros g Vg. apply (NoDup_map_inv fst). destruct (krows_keys c g Vg) as (_ & N & _). eapply Permutation_NoDup; [|exact N]. apply Permutation_map, krows_perm. }
  apply NoDup_Permutation; auto. intros e. rewrite (lst_pk c f' e V'), (lst_pk c f e V), E. reflexivity.
Qed.

(** ** The text of a word identifies its rows and its focus *)
Definition okrow (e : role * option lexeme) : Prop := vrole (fst e) /\ forall l, snd e = Some l -> lok l.
Definition atoks (x : option lexeme) : list wtok := match x with Some l => lex_words l | None => [Wd "None"] end.
Definition rows (f : sfun lexeme) : list (role * option lexeme) :=
  map (fun e => (fst e, actor_of (snd e))) (filter (fun e => negb (is_jun (snd e))) (sort (fun a b => role_lt (fst a) (fst b)) (actors f))).
Lemma krows_rows f : krows f = map kstr (rows f).
Proof. unfold krows, rows. rewrite map_map. reflexivity. Qed.
Definition kpart (c : context) (r0 : role) (e : role * option lexeme) : string :=
  (if role_eqb (fst e) r0 then "! " else "") ++ (match context_prefix c with p :: _ => p ++ " " | [] => "" end) ++ role_str (fst e) ++ " " ++ actor_str (snd e).
Definition ptoks (c : context) (r0 : role) (e : role * option lexeme) : list wtok :=
  ((if role_eqb (fst e) r0 then [Dl "!"] else []) ++ map Wd (context_prefix c ++ fst e) ++ atoks (snd e))%list.
Definition stopped (r : string) : Prop := split_words "None" r = Wd "None" :: split_words "" r.
Lemma split_kpart c r0 e r : okrow e -> stopped r -> split_words "" (kpart c r0 e ++ r) = (ptoks c r0 e ++ split_words "" r)%list.
Proof.
  intros [V C] St. unfold kpart, ptoks. rewrite !app_string_assoc.
  assert (X : split_words "" ((match context_prefix c with p :: _ => p ++ " " | [] => "" end) ++ role_str (fst e) ++ " " ++ actor_str (snd e) ++ r) =
    ((map Wd (context_prefix c ++ fst e) ++ atoks (snd e)) ++ split_words "" r)%list).
  { assert (Y : split_words "" (role_str (fst e) ++ " " ++ actor_str (snd e) ++ r) = ((map Wd (fst e) ++ atoks (snd e)) ++ split_words "" r)%list).
    { unfold role_str. rewrite split_words_blank by now apply vrole_wordy. rewrite <- app_assoc. f_equal. destruct (snd e) as [l|]; cbn [actor_str atoks].
      - now rewrite split_lexeme by auto.
      - rewrite split_word by (split; [discriminate|reflexivity]). exact St. }
    pose proof (vrole_wordy _ (context_vrole c)) as W. destruct c; cbn [context_prefix] in *; [exact Y|..]; cbv iota;
      (rewrite app_string_assoc, split_blank, Y; [reflexivity|]); now apply Forall_cons_iff in W. }
  destruct (role_eqb (fst e) r0); cbn [append app]; [|exact X].
  rewrite split_delim0; [|reflexivity|discriminate]. f_equal. exact X.
Qed.
Definition closed (l : list wtok) : Prop := exists t, l = Dl ">" :: t \/ l = Dl "]" :: t.
Lemma closed_open l t : closed l -> l <> Dl "(" :: t.
Proof. intros (t' & [-> | ->]); discriminate. Qed.
Lemma none_not_address : ~ In "None" ADDRESS_SCRIPTS.
Proof. intros H. apply ins_In in H. vm_compute in H. discriminate. Qed.
Lemma address_toks_inj a b x y R R' : vrole a -> vrole b -> (forall l, x = Some l -> lok l) -> (forall l, y = Some l -> lok l) -> closed R -> closed R' ->
  (map Wd a ++ atoks x ++ R = map Wd b ++ atoks y ++ R')%list -> a = b /\ actor_str x = actor_str y /\ R = R'.
Proof.
  intros Va. revert b. induction Va as [|w a Hw Va IH]; intros b Vb Hx Hy CR CR' E.
  - destruct b as [|w b].
    + split; auto. cbn [map app] in E. destruct x as [l|], y as [m|]; cbn [atoks] in E.
      * apply lex_words_inj in E; auto; try (intros t; now apply closed_open). destruct E as (E1 & E2 & E3). split; auto. cbn [actor_str]. apply lexeme_str_key; auto.
      * discriminate E.
      * discriminate E.
      * injection E as E. auto.
    + exfalso. cbn [map app] in E. apply Forall_cons_iff in Vb. destruct x as [l|]; cbn [atoks] in E; [discriminate E|]. injection E as E _. subst w. now apply none_not_address.
  - destruct b as [|w' b].
    + exfalso. cbn [map app] in E. destruct y as [l|]; cbn [atoks] in E; [discriminate E|]. injection E as E _. subst w. now apply none_not_address.
    + cbn [map app] in E. injection E as -> E. apply Forall_cons_iff in Vb. destruct (IH b (proj2 Vb) Hx Hy CR CR' E) as (-> & H). auto.
Qed.
Definition shown (c : context) (r0 : role) (e : role * option lexeme) : bool * role * string := (role_eqb (fst e) r0, (context_prefix c ++ fst e)%list, actor_str (snd e)).
Lemma ptoks_inj c r0 e c' r0' e' R R' : okrow e -> okrow e' -> closed R -> closed R' ->
  (ptoks c r0 e ++ R = ptoks c' r0' e' ++ R')%list -> shown c r0 e = shown c' r0' e' /\ R = R'.
Proof.
  intros [V C] [V' C'] CR CR' E. unfold ptoks in E. rewrite <- !app_assoc in E.
  assert (A : vrole (context_prefix c ++ fst e)%list) by (apply Forall_app; split; [apply context_vrole|exact V]).
  assert (A' : vrole (context_prefix c' ++ fst e')%list) by (apply Forall_app; split; [apply context_vrole|exact V']).
  unfold shown. destruct (role_eqb (fst e) r0), (role_eqb (fst e') r0'); cbn [app] in E.
  - injection E as E. apply address_toks_inj in E; auto. destruct E as (-> & -> & ->). auto.
  - exfalso. destruct (context_prefix c' ++ fst e')%list; [|discriminate E]. cbn [map app] in E. destruct (snd e'); discriminate E.
  - exfalso. destruct (context_prefix c ++ fst e)%list; [|discriminate E]. cbn [map app] in E. destruct (snd e); discriminate E.
  - apply address_toks_inj in E; auto. destruct E as (-> & -> & ->). auto.
Qed.
Lemma stopped_sep r : stopped (" > " ++ r). Proof. reflexivity. Qed.
Lemma stopped_end : stopped "]". Proof. reflexivity. Qed.
Lemma rows_text_inj c r0 c' r0' : forall L L', Forall okrow L -> Forall okrow L' -> L <> [] -> L' <> [] ->
  split_words "" (join " > " (map (kpart c r0) L) ++ "]") = split_words "" (join " > " (map (kpart c' r0') L') ++ "]") -> map (shown c r0) L = map (shown c' r0') L'.
Proof.
  assert (One : forall c r0 e r L, okrow e -> split_words "" (join " > " (map (kpart c r0) (e :: L)) ++ r) = split_words "" (kpart c r0 e ++ match L with [] => r | _ => " > " ++ (join " > " (map (kpart c r0) L) ++ r) end)).
  { intros. destruct L as [|e' L]; [reflexivity|]. cbn [map]. rewrite join_cons2, !app_string_assoc. reflexivity. }
  assert (St : forall c r0 L, stopped (match L with [] => "]" | _ => " > " ++ (join " > " (map (kpart c r0) L) ++ "]") end)).
  { intros. destruct L; [apply stopped_end|apply stopped_sep]. }
  assert (Cl : forall c r0 L, closed (split_words "" (match L with [] => "]" | _ => " > " ++ (join " > " (map (kpart c r0) L) ++ "]") end))).
  { intros. destruct L; [exists []; right; reflexivity|]. eexists. left. apply split_sep. }
  induction L as [|e L IH]; intros L' F F' N N' E; [congruence|]. destruct L' as [|e' L']; [congruence|].
  apply Forall_cons_iff in F, F'. destruct F as [Fe F], F' as [Fe' F']. rewrite !One in E by auto. rewrite !split_kpart in E by auto.
  apply ptoks_inj in E; auto. destruct E as [E1 E2]. cbn [map]. f_equal; auto.
  destruct L as [|x L], L' as [|x' L']; [reflexivity|discriminate E2|discriminate E2|]. rewrite !split_sep in E2. injection E2 as E2. apply IH; auto; discriminate.
Qed.
Lemma word_text_rows c r0 L : word_text c r0 (map kstr L) = "[" ++ (join " > " (map (kpart c r0) L) ++ "]").
Proof. unfold word_text. rewrite map_map. reflexivity. Qed.

(** The words of the parser: the focus is the address of a lexeme. *)
Definition wok (w : word) : Prop :=
  exists f r c, cvalid c f /\ mk_word f r c = Ok w /\ In r (map fst (as_list c f)) /\ forall g l, In g (map snd (actors f)) -> actor_of g = Some l -> lok l.
Lemma wok_text w : wok w -> exists r0, cvalid (w_context w) (w_fun w) /\ w_role w = (context_prefix (w_context w) ++ r0)%list /\ In r0 (map fst (rows (w_fun w))) /\
  vrole r0 /\ Forall okrow (rows (w_fun w)) /\ w_str w = word_text (w_context w) r0 (map kstr (rows (w_fun w))).
Proof.
  intros (f & r & c & V & M & I & L). destruct (mk_word_fields _ _ _ _ M) as (-> & -> & ->). destruct (expansion_single c f r V I) as (r0 & -> & Vr & I0 & X).
  exists r0. split; auto. split; auto. split; [|split; [exact Vr|split]].
  - pose proof (sorted_perm_lst f) as P. apply (Permutation_map fst) in P. eapply Permutation_in; [apply Permutation_sym; exact P|exact I0].
  - apply Forall_forall. intros e He. unfold rows in He. apply in_map_iff in He. destruct He as ([r1 g] & <- & He). apply filter_In in He. destruct He as [He _].
    apply (Permutation_in _ (sort_perm _ _)) in He. split; cbn [fst snd]; [eapply actors_roles; eauto|]. intros l Hl. eapply L; [|exact Hl]. change g with (snd (r1, g)). now apply in_map.
  - unfold mk_word in M. rewrite (render_single c f _ r0 X) in M. cbn [bind] in M. destruct (class_from_address _); [|discriminate M]. cbn [bind] in M. injection M as <-. cbn [w_str]. now rewrite krows_rows.
Qed.
Lemma first_scripts c f r g : cvalid c f -> In (r, g) (actors f) -> c = CProcess -> exists a t, r = a :: t /\ a <> DEPENDANT_QUALITY /\ a <> INDEPENDANT_QUALITY.
Proof.
  intros V H ->. destruct f as [| | |x v acts]; try solve [destruct V]. cbn [SfunProofs.cvalid pvalid] in V. destruct V as (V & _ & F). rewrite actors_proc in H. destruct H as [[= <- _]|H].
  - exists v, []. split; auto. split; intros ->; apply ins_In in V; vm_compute in V; discriminate.
  - apply in_concat in H. destruct H as (l & Hl & H). apply in_map_iff in Hl. destruct Hl as ([a q] & <- & Ha). apply under_in in H. destruct H as (r' & E & _). cbn in E. subst r. exists a, r'.
    split; auto. rewrite Forall_forall in F. destruct (F _ Ha) as [Fa _]. cbn [fst] in Fa. split; intros ->; apply ins_In in Fa; vm_compute in Fa; discriminate.
Qed.
Lemma rows_actors f r : In r (map fst (rows f)) -> exists g, In (r, g) (actors f).
Proof.
  intros H. apply in_map_iff in H. destruct H as (e & <- & H). unfold rows in H. apply in_map_iff in H. destruct H as ([r' g] & <- & H). apply filter_In in H. destruct H as [H _]. apply (Permutation_in _ (sort_perm _ _)) in H. exists g. exact H.
Qed.
Lemma context_of c f r c' f' r' : cvalid c f -> cvalid c' f' -> In r (map fst (rows f)) -> In r' (map fst (rows f')) -> (context_prefix c ++ r = context_prefix c' ++ r')%list -> c = c' /\ r = r'.
Proof.
  intros V V' I I' E. apply rows_actors in I, I'. destruct I as (g & I), I' as (g' & I').
  pose proof (first_scripts c f r g V I) as P. pose proof (first_scripts c' f' r' g' V' I') as P'.
  destruct c, c'; cbn [context_prefix app] in E; try (split; [reflexivity|congruence]);
    try (destruct (P eq_refl) as (a & t & -> & ? & ?)); try (destruct (P' eq_refl) as (a' & t' & -> & ? & ?)); try (injection E as E E'); congruence.
Qed.
Lemma word_key a b : wok a -> wok b -> (w_str a = w_str b <-> pk (w_fun a) = pk (w_fun b) /\ w_role a = w_role b).
Proof.
  intros Ha Hb. apply wok_text in Ha, Hb. destruct Ha as (ra & Va & Ra & Ia & Vra & Fa & Ta), Hb as (rb & Vb & Rb & Ib & Vrb & Fb & Tb). rewrite Ta, Tb, Ra, Rb. split.
  - intros E. rewrite !word_text_rows in E. injection E as E.
    assert (Na : rows (w_fun a) <> []) by (intros X; rewrite X in Ia; destruct Ia). assert (Nb : rows (w_fun b) <> []) by (intros X; rewrite X in Ib; destruct Ib).
    apply (f_equal (split_words "")) in E. apply rows_text_inj in E; auto.
    assert (Q : w_context a = w_context b).
    { destruct (rows (w_fun a)) as [|x la] eqn:Ea; [congruence|]. destruct (rows (w_fun b)) as [|y lb] eqn:Eb; [congruence|]. cbn [map] in E. unfold shown in E at 1 3. injection E as _ E _ _.
      apply (context_of _ (w_fun a) (fst x) _ (w_fun b) (fst y)) in E; auto; [tauto| |]; [rewrite Ea|rewrite Eb]; now left. }
    rewrite Q in *.
    assert (K : map kstr (rows (w_fun a)) = map kstr (rows (w_fun b))).
    { apply (f_equal (map (fun x => (skipn (List.length (context_prefix (w_context b))) (snd (fst x)), snd x)))) in E. rewrite !map_map in E.
      assert (X : forall r1 L, map (fun x => (skipn (List.length (context_prefix (w_context b))) (snd (fst (shown (w_context b) r1 x))), snd (shown (w_context b) r1 x))) L = map kstr L).
      { intros r1 L. apply map_ext. intros x; unfold shown, kstr; cbn [fst snd]; rewrite skipn_app, skipn_all, Nat.sub_diag; reflexivity. }
      rewrite !X in E. exact E. }
    split.
    + apply (krows_pk (w_context b)); auto. now rewrite !krows_rows.
    + f_equal. apply in_map_iff in Ia. destruct Ia as (e & <- & Ia).
      apply (in_map (shown (w_context b) (fst e))) in Ia. rewrite E in Ia. apply in_map_iff in Ia. destruct Ia as (e' & Ee & Ie'). unfold shown in Ee. injection Ee as E1 E2 E3. apply app_inv_head in E2.
      rewrite (proj2 (role_eqb_eq (fst e) (fst e) Vra Vra) eq_refl) in E1. rewrite <- E2. apply role_eqb_eq in E1; auto. rewrite E2. exact Vra.
  - intros [E R]. apply (context_of _ _ _ _ _ _ Va Vb Ia Ib) in R. destruct R as [Rc ->]. rewrite Rc in *. f_equal.
    rewrite <- !krows_rows. eapply pk_krows; eauto.
Qed.

(** ** The order *)
Definition aok (x : option lexeme) : Prop := forall l, x = Some l -> lok l.
Definition atot (x y : option lexeme) : bool := match x, y with Some a, Some b => lexeme_lt a b | None, Some _ => true | _, None => false end.
Lemma lexeme_str_none l : lexeme_str l <> "None".
Proof. rewrite lexeme_str_alt. destruct (pm_empty (pm_content l)), (pm_empty (pm_flexion l)); discriminate. Qed.
Lemma order_actor : order aok actor_str actor_eqb atot.
Proof.
  destruct order_lexeme as [O1 O2 O3 O4]. split.
  - intros a b _ _. apply String.eqb_eq.
  - intros [a|] [b|] Ha Hb E; cbn [atot actor_str] in *; auto. now apply lexeme_str_none in E || (symmetry in E; now apply lexeme_str_none in E).
  - intros [a|] [b|] [c|] Ha Hb Hc; cbn [atot]; try discriminate; eauto.
  - intros [a|] [b|] Ha Hb N; cbn [atot actor_str] in *; auto; try congruence.
Qed.
Definition ptot (a b : role * option lexeme) : bool := if role_eqb (fst a) (fst b) then atot (snd a) (snd b) else role_lt (fst a) (fst b).
Lemma order_row_tot : order okrow kstr pair_eqb ptot.
Proof. exact (order_pair order_role order_actor). Qed.
Definition stot := seq_lt pair_eqb ptot.
Lemma order_rows_tot : order (Forall okrow) (map kstr) (seq_eqb pair_eqb) stot.
Proof. exact (order_seq order_row_tot). Qed.
Lemma pair_lt_tot a b x : pair_lt a b = Ok x -> x = ptot a b.
Proof. unfold pair_lt, ptot. destruct (role_eqb _ _); [|congruence]. destruct (snd a), (snd b); cbn; congruence. Qed.
Lemma pairs_lt_tot : forall l m x, pairs_lt l m = Ok x -> x = stot l m.
Proof.
  induction l as [|a l IH]; intros [|b m] x; cbn; try congruence. destruct (pair_eqb a b); [apply IH|apply pair_lt_tot].
Qed.
(** When the two are compared. *)
Definition differ (a b : role * option lexeme) : option exn :=
  match snd a, snd b with None, Some _ => Some TypeError | Some _, None => Some AttributeError | _, _ => None end.
Lemma pair_lt_err a b : pair_eqb a b = false -> (forall e, pair_lt a b = Err e <-> role_eqb (fst a) (fst b) = true /\ differ a b = Some e).
Proof.
  intros N e. unfold pair_lt, differ, pair_eqb in *. destruct (role_eqb _ _); cbn [andb] in N.
  - destruct (snd a), (snd b); cbn [actor_lt]; try (split; [congruence|intros [_ H]; congruence]); try (split; [intros [= <-]; auto|intros [_ [= <-]]; auto]). discriminate N.
  - split; [discriminate|intros [H _]; discriminate].
Qed.
Lemma pairs_lt_err : forall l m e, Forall okrow l -> Forall okrow m -> (pairs_lt l m = Err e <->
  exists p q l' m' r x y, l = (p ++ (r, x) :: l')%list /\ m = (q ++ (r, y) :: m')%list /\ map kstr p = map kstr q /\ differ (r, x) (r, y) = Some e).
Proof.
  induction l as [|a l IH]; intros m e Fl Fm.
  - cbn. split; [destruct m; discriminate|]. intros (p & q & l' & m' & r & x & y & E & _). destruct p; discriminate E.
  - destruct m as [|b m].
    + cbn. split; [discriminate|]. intros (p & q & l' & m' & r & x & y & _ & E & _). destruct q; discriminate E.
    + apply Forall_cons_iff in Fl, Fm. destruct Fl as [Fa Fl], Fm as [Fb Fm]. cbn [pairs_lt]. destruct (pair_eqb a b) eqn:E.
      * assert (K := E). apply (o_eqb _ _ _ _ order_row_tot) in K; auto. rewrite IH by auto. split.
        -- intros (p & q & l' & m' & r & x & y & -> & -> & Q & H). exists (a :: p), (b :: q), l', m', r, x, y. cbn. now rewrite K, Q.
        -- intros (p & q & l' & m' & r & x & y & E1 & E2 & Q & H). destruct p as [|a' p], q as [|b' q]; try discriminate Q.
           ++ exfalso. injection E1 as -> _. injection E2 as -> _. unfold kstr in K. cbn [fst snd] in K. injection K as K. unfold differ in H. cbn [fst snd] in H.
              destruct x, y; try discriminate H; cbn [actor_str] in K; [|symmetry in K]; now apply lexeme_str_none in K.
           ++ cbn [app map] in *. injection E1 as <- ->. injection E2 as <- ->. injection Q as _ _ Q. exists p, q, l', m', r, x, y. auto.
      * rewrite (pair_lt_err a b E e). split.
        -- intros [R D]. destruct a as [r x], b as [r' y]. cbn [fst snd] in R. apply role_eqb_eq in R; [|exact (proj1 Fa)|exact (proj1 Fb)]. subst r'. exists [], [], l, m, r, x, y. auto.
        -- intros (p & q & l' & m' & r & x & y & E1 & E2 & Q & H). destruct p as [|a' p], q as [|b' q]; try discriminate Q.
           ++ injection E1 as -> _. injection E2 as -> _. split; auto. cbn [fst]. apply role_eqb_eq; auto; apply (proj1 Fa).
           ++ exfalso. cbn [app map] in *. injection E1 as <- _. injection E2 as <- _. assert (K : kstr a = kstr b) by (injection Q; unfold kstr; congruence). apply (o_eqb _ _ _ _ order_row_tot) in K; auto. congruence.
Qed.
Lemma differ_sym a b : differ a b = None <-> differ b a = None.
Proof. unfold differ. destruct (snd a), (snd b); split; congruence. Qed.
Lemma differ_key a b c : kstr b = kstr c -> differ a b = differ a c.
Proof.
  unfold kstr, differ. destruct (snd a), (snd b), (snd c); cbn [actor_str]; intros E; auto; injection E as _ E; [|symmetry in E| |symmetry in E]; now apply lexeme_str_none in E.
Qed.
Lemma pairs_lt_trans : forall l m n, Forall okrow l -> Forall okrow m -> Forall okrow n -> pairs_lt l m = Ok true -> pairs_lt m n = Ok true -> pairs_lt l n = Ok true.
Proof.
  intros l m n Fl Fm Fn H1 H2. assert (T : stot l n = true).
  { eapply (o_trans _ _ _ _ order_rows_tot) with (b := m); auto; symmetry; eapply pairs_lt_tot; eauto. }
  destruct (pairs_lt l n) as [x|e] eqn:E; [apply pairs_lt_tot in E; congruence|]. exfalso. clear T.
  apply (proj1 (pairs_lt_err l n e Fl Fn)) in E. destruct E as (p & q & l' & n' & r & x & y & -> & -> & Q & D).
  revert q m Q Fl Fm Fn H1 H2. induction p as [|a p IH]; intros [|b q] m Q Fl Fm Fn H1 H2; try discriminate Q; cbn [app] in *.
  - destruct m as [|c m]; [discriminate H1|]. apply Forall_cons_iff in Fl, Fm, Fn. destruct Fl as [Fa Fl], Fm as [Fc Fm], Fn as [Fb Fn]. cbn [pairs_lt] in H1, H2.
    pose proof order_row_tot as O.
    destruct (pair_eqb (r, x) c) eqn:E1.
    + apply (o_eqb _ _ _ _ O) in E1; auto. destruct (pair_eqb c (r, y)) eqn:E2.
      * apply (o_eqb _ _ _ _ O) in E2; auto. rewrite (differ_key _ _ (r, x)) in D by congruence. unfold differ in D. cbn in D. destruct x; discriminate D.
      * assert (P := pair_lt_err c (r, y) E2). apply (f_equal fst) in E1 as R. cbn in R. subst r. assert (D' : differ c (fst c, y) = Some e).
        { unfold differ in D |- *. cbn [snd] in *. unfold kstr in E1. cbn [fst snd] in E1. injection E1 as E1. destruct x, (snd c), y; auto; cbn [actor_str] in E1; exfalso; first [now apply lexeme_str_none in E1|symmetry in E1; now apply lexeme_str_none in E1]. }
        assert (X : pair_lt c (fst c, y) = Err e) by (apply P; split; auto; cbn [fst]; apply role_eqb_eq; auto; apply (proj1 Fc)). congruence.
    + destruct (pair_eqb c (r, y)) eqn:E2.
      * apply (o_eqb _ _ _ _ O) in E2; auto. assert (R := f_equal fst E2). cbn in R. subst r. assert (D' : differ (fst c, x) c = Some e) by (rewrite (differ_key _ _ _ E2); exact D).
        assert (X : pair_lt (fst c, x) c = Err e) by (apply pair_lt_err; auto; split; auto; cbn [fst]; apply role_eqb_eq; auto; apply (proj1 Fc)). congruence.
      * unfold pair_lt in H1, H2. cbn [fst snd] in *. destruct (role_eqb r (fst c)) eqn:R.
        -- apply role_eqb_eq in R; [|apply (proj1 Fa)|apply (proj1 Fc)]. subst r. rewrite (proj2 (role_eqb_eq (fst c) (fst c) (proj1 Fc) (proj1 Fc)) eq_refl) in H2.
           unfold differ in D. cbn [snd] in D. destruct x, (snd c), y; cbn [actor_lt] in *; discriminate.
        -- destruct (role_eqb (fst c) r) eqn:R'.
           ++ apply role_eqb_eq in R'; [|apply (proj1 Fc)|apply (proj1 Fa)]. rewrite R' in R. rewrite (proj2 (role_eqb_eq r r (proj1 Fa) (proj1 Fa)) eq_refl) in R. discriminate R.
           ++ injection H1 as H1. injection H2 as H2. assert (X := o_asym order_role r (fst c) (proj1 Fa) (proj1 Fc) H1). congruence.
  - destruct m as [|c m]; [discriminate H1|]. apply Forall_cons_iff in Fl, Fm, Fn. destruct Fl as [Fa Fl], Fm as [Fc Fm], Fn as [Fb Fn]. cbn [pairs_lt map] in *.
    assert (K : kstr a = kstr b) by (injection Q; unfold kstr; congruence). assert (Q' : map kstr p = map kstr q) by congruence. pose proof order_row_tot as O.
    destruct (pair_eqb a c) eqn:E1.
    + apply (o_eqb _ _ _ _ O) in E1; auto. assert (E2 : pair_eqb c b = true) by (apply (o_eqb _ _ _ _ O); auto; congruence). rewrite E2 in H2. exact (IH q m Q' Fl Fm Fn H1 H2).
    + destruct (pair_eqb c b) eqn:E2; [apply (o_eqb _ _ _ _ O) in E2; auto; rewrite (proj2 (o_eqb _ _ _ _ O a c Fa Fc)) in E1; congruence|].
      apply eq_sym, f_equal with (f := fun x => x) in H1, H2. symmetry in H1, H2. apply pair_lt_tot in H1, H2. symmetry in H1, H2.
      assert (X := o_asym O a c Fa Fc H1). rewrite (o_compat O c a c b) in X; auto. congruence.
Qed.

Lemma pair_lt_key a b a' b' : okrow a -> okrow b -> okrow a' -> okrow b' -> kstr a = kstr a' -> kstr b = kstr b' -> pair_lt a b = pair_lt a' b'.
Proof.
  intros Fa Fb Fa' Fb' Ea Eb. destruct a as [r x], b as [s y], a' as [r' x'], b' as [s' y']. unfold kstr in Ea, Eb. cbn [fst snd] in *. injection Ea as -> Ea. injection Eb as -> Eb.
  unfold pair_lt. cbn [fst snd]. destruct (role_eqb r' s'); auto.
  destruct Fa as [_ Fa], Fb as [_ Fb], Fa' as [_ Fa'], Fb' as [_ Fb']. cbn [snd] in *.
  destruct x, x'; cbn [actor_str] in Ea; try solve [exfalso; first [now apply lexeme_str_none in Ea|symmetry in Ea; now apply lexeme_str_none in Ea]]; destruct y, y'; cbn [actor_str] in Eb; try solve [exfalso; first [now apply lexeme_str_none in Eb|symmetry in Eb; now apply lexeme_str_none in Eb]]; cbn [actor_lt]; auto.
  f_equal. apply (o_compat order_lexeme); auto.
Qed.
Lemma pairs_lt_key : forall l m l' m', Forall okrow l -> Forall okrow m -> Forall okrow l' -> Forall okrow m' -> map kstr l = map kstr l' -> map kstr m = map kstr m' -> pairs_lt l m = pairs_lt l' m'.
Proof.
  induction l as [|a l IH]; intros m l' m' Fl Fm Fl' Fm' El Em; destruct l' as [|a' l']; try discriminate El; destruct m as [|b m], m' as [|b' m']; try discriminate Em; try reflexivity.
  apply Forall_cons_iff in Fl, Fm, Fl', Fm'. destruct Fl as [Fa Fl], Fm as [Fb Fm], Fl' as [Fa' Fl'], Fm' as [Fb' Fm'].
  assert (Ka : kstr a = kstr a') by (injection El; unfold kstr; congruence). assert (Kb : kstr b = kstr b') by (injection Em; unfold kstr; congruence).
  assert (El' : map kstr l = map kstr l') by (cbn [map] in El; congruence). assert (Em' : map kstr m = map kstr m') by (cbn [map] in Em; congruence).
  cbn [pairs_lt]. pose proof order_row_tot as O. destruct (pair_eqb a b) eqn:E.
  - apply (o_eqb _ _ _ _ O) in E; auto. rewrite (proj2 (o_eqb _ _ _ _ O a' b' Fa' Fb')) by congruence. apply IH; auto.
  - destruct (pair_eqb a' b') eqn:E'; [apply (o_eqb _ _ _ _ O) in E'; auto; rewrite (proj2 (o_eqb _ _ _ _ O a b Fa Fb)) in E by congruence; discriminate E|]. now apply pair_lt_key.
Qed.
Lemma pairs_lt_irr l m : Forall okrow l -> Forall okrow m -> map kstr l = map kstr m -> pairs_lt l m = Ok false.
Proof.
  intros Fl Fm E. rewrite (pairs_lt_key l m l l) by auto. clear -Fl. induction Fl as [|a l Fa Fl IH]; [reflexivity|]. cbn [pairs_lt]. now rewrite (proj2 (o_eqb _ _ _ _ order_row_tot a a Fa Fa) eq_refl).
Qed.
Definition flip_exn (e : exn) : exn := match e with TypeError => AttributeError | _ => TypeError end.
Lemma pairs_lt_err_sym l m e : Forall okrow l -> Forall okrow m -> pairs_lt l m = Err e -> pairs_lt m l = Err (flip_exn e).
Proof.
  intros Fl Fm H. apply (proj1 (pairs_lt_err l m e Fl Fm)) in H. destruct H as (p & q & l' & m' & r & x & y & -> & -> & Q & D). apply pairs_lt_err; auto.
  exists q, p, m', l', r, y, x. repeat split; auto. unfold differ in *. cbn [snd] in *. destruct x, y; try discriminate D; injection D as <-; reflexivity.
Qed.

(** ** Words *)
(** The words of the constructor, whatever their focus. *)
Definition fok (w : word) : Prop :=
  (exists c, cvalid c (w_fun w)) /\ vrole (w_role w) /\ Forall okrow (pairs (w_fun w)).
Lemma word_lt_Err a b e : word_lt a b = Err e <-> pairs_lt (pairs (w_fun a)) (pairs (w_fun b)) = Err e.
Proof. unfold word_lt, fun_lt. destruct (pairs_lt _ _); cbn [bind]; split; congruence. Qed.
Lemma fun_eqb_pk a b : fok a -> fok b -> (fun_eqb (w_fun a) (w_fun b) = true <-> pk (w_fun a) = pk (w_fun b)).
Proof. intros (_ & _ & Fa) (_ & _ & Fb). apply (o_eqb _ _ _ _ order_rows_tot); auto. Qed.
Lemma word_lt_true a b : fok a -> fok b -> (word_lt a b = Ok true <->
  pairs_lt (pairs (w_fun a)) (pairs (w_fun b)) = Ok true \/ (pk (w_fun a) = pk (w_fun b) /\ role_lt (w_role a) (w_role b) = true)).
Proof.
  intros Ha Hb. rewrite <- (fun_eqb_pk a b Ha Hb). unfold word_lt, fun_lt. destruct (pairs_lt _ _) as [[]|e] eqn:E; cbn [bind orb].
  - split; auto.
  - rewrite <- andb_true_iff. split; [intros [= ->]; auto|intros [H|H]; [discriminate H|now rewrite H]].
  - split; [discriminate|]. intros [H|[H _]]; [discriminate H|]. apply fun_eqb_pk in H; auto. destruct Ha as (_ & _ & Fa), Hb as (_ & _ & Fb). rewrite pairs_lt_irr in E; auto; discriminate E.
Qed.
Lemma word_lt_irr a b : fok a -> fok b -> pk (w_fun a) = pk (w_fun b) -> w_role a = w_role b -> word_lt a b = Ok false.
Proof.
  intros Ha Hb E R. destruct (word_lt a b) as [[]|e] eqn:L; auto.
  - apply word_lt_true in L; auto. destruct Ha as (_ & Ra & Fa), Hb as (_ & Rb & Fb). destruct L as [L|[_ L]]; [rewrite pairs_lt_irr in L; auto; discriminate L|].
    rewrite (o_irr _ _ _ _ order_role) in L; auto; discriminate L.
  - apply word_lt_Err in L. destruct Ha as (_ & Ra & Fa), Hb as (_ & Rb & Fb). rewrite pairs_lt_irr in L; auto; discriminate L.
Qed.
Lemma word_lt_asym a b : fok a -> fok b -> word_lt a b = Ok true -> word_lt b a = Ok false.
Proof.
  intros Ha Hb L. assert (Ha' := Ha). assert (Hb' := Hb). destruct Ha' as (_ & Ra & Fa), Hb' as (_ & Rb & Fb). destruct (word_lt b a) as [[]|e] eqn:M; auto; exfalso.
  - apply word_lt_true in L, M; auto. pose proof order_rows_tot as O. destruct L as [L|[E L]], M as [M|[E' M]].
    + apply pairs_lt_tot in L, M. symmetry in L, M. assert (X := o_asym O _ _ Fa Fb L). congruence.
    + rewrite pairs_lt_irr in L; auto; discriminate L.
    + rewrite pairs_lt_irr in M; auto; discriminate M.
    + assert (X := o_asym order_role _ _ Ra Rb L). congruence.
  - apply word_lt_Err in M. apply pairs_lt_err_sym in M; auto. apply word_lt_Err in M. congruence.
Qed.
Lemma word_lt_trans a b c : fok a -> fok b -> fok c -> word_lt a b = Ok true -> word_lt b c = Ok true -> word_lt a c = Ok true.
Proof.
  intros Ha Hb Hc L M. apply word_lt_true in L, M; auto. apply word_lt_true; auto. destruct Ha as (_ & Ra & Fa), Hb as (_ & Rb & Fb), Hc as (_ & Rc & Fc). unfold pk in *. destruct L as [L|[E L]], M as [M|[E' M]].
  - left. eapply pairs_lt_trans; [..|exact L|exact M]; auto.
  - left. rewrite <- L. now apply pairs_lt_key.
  - left. rewrite <- M. now apply pairs_lt_key.
  - right. split; [congruence|]. eapply (o_trans _ _ _ _ order_role) with (b := w_role b); auto.
Qed.
Lemma word_lt_total a b : fok a -> fok b -> ~ (pk (w_fun a) = pk (w_fun b) /\ w_role a = w_role b) ->
  (exists e, word_lt a b = Err e) \/ word_lt a b = Ok true \/ word_lt b a = Ok true.
Proof.
  intros Ha Hb N. destruct (word_lt a b) as [x|e] eqn:L; [right|eauto]. assert (Ha' := Ha). assert (Hb' := Hb). destruct Ha' as (_ & Ra & Fa), Hb' as (_ & Rb & Fb).
  destruct (fun_eqb (w_fun a) (w_fun b)) eqn:E.
  - apply fun_eqb_pk in E; auto. assert (NR : w_role a <> w_role b) by auto. destruct (o_total _ _ _ _ order_role _ _ Ra Rb NR) as [H|H].
    + left. rewrite <- L. apply word_lt_true; auto.
    + right. apply word_lt_true; auto.
  - assert (NE : map kstr (pairs (w_fun a)) <> map kstr (pairs (w_fun b))) by (intros X; apply (proj2 (fun_eqb_pk a b Ha Hb)) in X; congruence).
    assert (P : exists y, pairs_lt (pairs (w_fun a)) (pairs (w_fun b)) = Ok y).
    { destruct (pairs_lt (pairs (w_fun a)) _) as [y|e] eqn:X; [eauto|]. apply word_lt_Err in X. congruence. }
    destruct P as (y & P). assert (Q : exists z, pairs_lt (pairs (w_fun b)) (pairs (w_fun a)) = Ok z).
    { destruct (pairs_lt (pairs (w_fun b)) _) as [z|e] eqn:X; [eauto|]. apply pairs_lt_err_sym in X; auto. congruence. }
    destruct Q as (z & Q). assert (P' := pairs_lt_tot _ _ _ P). assert (Q' := pairs_lt_tot _ _ _ Q).
    destruct (o_total _ _ _ _ order_rows_tot _ _ Fa Fb NE) as [H|H].
    + left. rewrite <- L. apply word_lt_true; auto. left. congruence.
    + right. apply word_lt_true; auto. left. congruence.
Qed.

(** ** When the comparison raises, role by role *)
Definition has (f : sfun lexeme) (r : role) (x : option lexeme) : Prop := exists g, In (r, g) (actors f) /\ actor_of g = x.
Lemma has_pairs f r x : has f r x <-> In (r, x) (pairs f).
Proof.
  unfold has, pairs. rewrite (Permutation_in' eq_refl (sort_perm _ _)). rewrite in_map_iff. split.
  - intros (g & H & <-). exists (r, g). auto.
  - intros ([r' g] & [= <- <-] & H). eauto.
Qed.
Lemma pairs_sorted f : Forall okrow (pairs f) -> (exists c, cvalid c f) -> StronglySorted (fun a b => role_lt (fst a) (fst b) = true) (pairs f).
Proof.
  intros F (c & V). assert (N : NoDup (map fst (pairs f))).
  { pose proof (pk_nodup c f V) as N. unfold pk in N. rewrite map_map in N. exact N. }
  assert (S : weak_sorted (fun a b : role * option lexeme => role_lt (fst a) (fst b)) (pairs f)).
  { unfold pairs in *. assert (O : order (fun a : role * option lexeme => vrole (fst a)) fst (fun a b => role_eqb (fst a) (fst b)) (fun a b => role_lt (fst a) (fst b))).
    { destruct order_role as [O1 O2 O3 O4]. split; intros; eauto. }
    apply (o_sorted O). apply (Permutation_Forall (sort_perm (fun a b : role * option lexeme => role_lt (fst a) (fst b)) _)). eapply Forall_impl; [|exact F]. intros a H. apply H. }
  revert F N S. generalize (pairs f) as l. induction l as [|a l IH]; intros F N S; [constructor|]. apply Forall_cons_iff in F. cbn [map] in N. apply NoDup_cons_iff in N. inversion S as [|? ? S' Sa]; subst.
  constructor; [now apply IH|]. rewrite Forall_forall in *. intros b Hb. destruct F as [Fa F].
  destruct (o_total _ _ _ _ order_role (fst a) (fst b)) as [H|H]; auto; try apply Fa; try apply (F b Hb); [|rewrite Sa in H; auto; discriminate H].
  intros E. apply (proj1 N). rewrite E. now apply in_map.
Qed.
Lemma sorted_split r x p l : StronglySorted (fun a b : role * option lexeme => role_lt (fst a) (fst b) = true) (p ++ (r, x) :: l) ->
  (forall e, In e p -> role_lt (fst e) r = true) /\ (forall e, In e l -> role_lt r (fst e) = true).
Proof.
  induction p as [|a p IH]; cbn [app]; intros S; inversion S as [|? ? S' F]; subst.
  - split; [intros e []|]. rewrite Forall_forall in F. exact F.
  - destruct (IH S') as [H1 H2]. split; [|exact H2]. intros e [<-|H]; [|auto]. rewrite Forall_forall in F. apply (F (r, x)). apply in_app_iff. right. now left.
Qed.
Lemma before f r x p l r' y : Forall okrow (pairs f) -> (exists c, cvalid c f) -> pairs f = (p ++ (r, x) :: l)%list -> role_lt r' r = true -> (has f r' y <-> In (r', y) p).
Proof.
  intros F V E L. rewrite has_pairs, E, in_app_iff. split; [|auto]. intros [H|H]; [auto|exfalso].
  pose proof (pairs_sorted f F V) as S. rewrite E in S. apply sorted_split in S. rewrite E in F. apply Forall_app in F. destruct F as [_ F]. apply Forall_cons_iff in F. destruct F as [[Vr _] F].
  destruct H as [[= -> ->]|H]; [rewrite (o_irr _ _ _ _ order_role) in L; auto; discriminate L|].
  rewrite Forall_forall in F. destruct (F _ H) as [Vr' _]. assert (X := proj2 S _ H). cbn [fst] in *. assert (Y := o_asym order_role _ _ Vr' Vr L). congruence.
Qed.
Lemma word_raises v w e : fok v -> fok w -> (word_lt v w = Err e <-> exists r,
  (forall r', role_lt r' r = true -> forall t, (exists x, has (w_fun v) r' x /\ actor_str x = t) <-> (exists y, has (w_fun w) r' y /\ actor_str y = t)) /\
  ((exists l, has (w_fun v) r None /\ has (w_fun w) r (Some l) /\ e = TypeError) \/ (exists l, has (w_fun v) r (Some l) /\ has (w_fun w) r None /\ e = AttributeError))).
Proof.
  intros (Vv & _ & Fv) (Vw & _ & Fw). rewrite word_lt_Err, pairs_lt_err by auto. split.
  - intros (p & q & l & m & r & x & y & Ev & Ew & Q & D). exists r. split.
    + intros r' L t. assert (K : forall p q, map kstr p = map kstr q -> (exists x, In (r', x) p /\ actor_str x = t) -> exists y, In (r', y) q /\ actor_str y = t).
      { clear. intros p q Q (x & H & <-). apply (in_map kstr) in H. rewrite Q in H. apply in_map_iff in H. destruct H as ([r1 y] & E & H). unfold kstr in E. cbn [fst snd] in E. injection E as -> E. exists y. auto. }
      split; intros (z & H & Ez).
      * rewrite (before _ r x p l r' z Fv Vv Ev L) in H. destruct (K p q Q) as (y' & H' & E'); [eauto|]. exists y'. split; auto. now apply (before _ r y q m r' y' Fw Vw Ew L).
      * rewrite (before _ r y q m r' z Fw Vw Ew L) in H. destruct (K q p (eq_sym Q)) as (y' & H' & E'); [eauto|]. exists y'. split; auto. now apply (before _ r x p l r' y' Fv Vv Ev L).
    + assert (Hx : has (w_fun v) r x) by (apply has_pairs; rewrite Ev; apply in_app_iff; right; now left). assert (Hy : has (w_fun w) r y) by (apply has_pairs; rewrite Ew; apply in_app_iff; right; now left).
      unfold differ in D. cbn [snd] in D. destruct x as [x|], y as [y|]; try discriminate D; injection D as <-; [right|left]; eauto.
  - intros (r & B & H). assert (Z : exists x y, has (w_fun v) r x /\ has (w_fun w) r y /\ differ (r, x) (r, y) = Some e).
    { destruct H as [(l & H1 & H2 & ->)|(l & H1 & H2 & ->)]; [exists None, (Some l)|exists (Some l), None]; auto. }
    destruct Z as (x & y & Hx & Hy & D). clear H. assert (Hx' := Hx). assert (Hy' := Hy). apply has_pairs in Hx', Hy'. apply in_split in Hx', Hy'. destruct Hx' as (p & l & Ev), Hy' as (q & m & Ew).
    exists p, q, l, m, r, x, y. repeat split; auto.
    pose proof (pairs_sorted _ Fv Vv) as Sv. pose proof (pairs_sorted _ Fw Vw) as Sw. rewrite Ev in Sv. rewrite Ew in Sw. destruct (sorted_split _ _ _ _ Sv) as [Bp _]. destruct (sorted_split _ _ _ _ Sw) as [Bq _].
    assert (Fp : Forall okrow p) by (rewrite Ev in Fv; apply Forall_app in Fv; tauto). assert (Fq : Forall okrow q) by (rewrite Ew in Fw; apply Forall_app in Fw; tauto).
    assert (St : forall p l, StronglySorted (fun a b : role * option lexeme => role_lt (fst a) (fst b) = true) (p ++ l) -> Forall okrow p -> weak_sorted ptot p /\ NoDup (map kstr p)).
    { clear. intros p l S F. induction p as [|a p IH]; [split; constructor|]. cbn [app] in S. inversion S as [|? ? S' Fa]; subst. apply Forall_cons_iff in F. destruct (IH S' (proj2 F)) as [W N]. rewrite Forall_forall in Fa.
      destruct F as [Fa0 F]. rewrite Forall_forall in F. split.
      - constructor; auto. apply Forall_forall. intros b Hb. assert (L : role_lt (fst a) (fst b) = true) by (apply Fa, in_app_iff; auto).
        apply (o_asym order_row_tot); auto. unfold ptot. destruct (role_eqb (fst a) (fst b)) eqn:E; auto. apply role_eqb_eq in E; [|apply Fa0|apply (F b Hb)]. rewrite (o_irr _ _ _ _ order_role) in L; auto; [discriminate L|apply Fa0|apply (F b Hb)].
      - cbn [map]. constructor; auto. intros H. apply in_map_iff in H. destruct H as (b & E & Hb). assert (L : role_lt (fst a) (fst b) = true) by (apply Fa, in_app_iff; auto). unfold kstr in E. injection E as E _.
        rewrite (o_irr _ _ _ _ order_role) in L; auto; [discriminate L|apply Fa0|apply (F b Hb)]. }
    destruct (St p _ Sv Fp) as [Wp Np]. destruct (St q _ Sw Fq) as [Wq Nq]. apply (o_unique order_row_tot); auto. apply NoDup_Permutation; auto.
    intros [r' t]. assert (X : forall f (p : list (role * option lexeme)), (forall z, role_lt r' r = true -> (has f r' z <-> In (r', z) p)) -> (forall e, In e p -> role_lt (fst e) r = true) ->
      (In (r', t) (map kstr p) <-> role_lt r' r = true /\ exists z, has f r' z /\ actor_str z = t)).
    { clear. intros f p H K. rewrite in_map_iff. split.
      - intros ([r1 z] & E & I). unfold kstr in E. cbn [fst snd] in E. injection E as -> <-. assert (L := K _ I). split; auto. exists z. split; auto. now apply H.
      - intros (L & z & Hz & <-). exists (r', z). split; auto. now apply H. }
    rewrite (X (w_fun v) p), (X (w_fun w) q); auto.
    + split; intros [L Z]; (split; [exact L|]); now apply (B r' L).
    + intros z L. now apply (before _ r y q m).
    + intros z L. now apply (before _ r x p l).
Qed.
