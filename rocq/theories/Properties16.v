(** Properties of dictionaries: C50 to C56 and C63 to C66. *)
From Coq Require Import List String Ascii Bool NArith Arith Lia Permutation Sorted.
From Verif Require Import Base Script ScriptParser SortProofs ScriptWf ScriptStrProofs ScriptOrderProofs ScriptSpec ScriptCtorProofs ScriptParseProofs ScriptSeqProofs ScriptMoreProofs ScriptAlgProofs ScriptEqProofs Properties1 Tables TablesSpec TablesProofs TablesGridProofs TablesAllProofs Dictionary DictionarySpec DictTableProofs DictLoadProofs DictRelProofs DictSibProofs DictTopProofs.
Import ListNotations.
Local Open Scope string_scope.

Lemma truthy_value v : truthy v = Ok true <-> true_value v.
Proof.
  unfold truthy, true_value. destruct v as [|c w]; [split; [discriminate|intros (w & [H|H]); discriminate]|]. split.
  - intros H. apply Ok_inj in H. exists w. apply orb_true_iff in H as [H|H]; apply Ascii.eqb_eq in H; subst; auto.
  - intros (w' & [H|H]); injection H as -> ->; reflexivity.
Qed.
Lemma marked_marks so rows key s : marked so rows key s <-> marks so rows key s.
Proof.
  split.
  - intros (p & value & v & H & T & P & E). exists value. split; [exists p, v; auto|now apply truthy_value].
  - intros (value & (p & v & H & P & E) & T). exists p, value, v. split; [exact H|]. split; [now apply truthy_value|auto].
Qed.

Lemma sorted_filter p l : sorted_lt l -> sorted_lt (filter p l).
Proof.
  induction 1 as [|x l S IH F]; [constructor|]. cbn [filter]. destruct (p x); [|exact IH]. constructor; [exact IH|]. apply Forall_forall. intros y Hy. rewrite Forall_forall in F. apply F. now apply filter_In in Hy as [Hy _].
Qed.

(** A dictionary of two roots and two tables *)
Definition P1 := ["O:"; "O:O:."; "O:U:."; "U:O:."].
Definition R1 := [("O:", "is_root", "True"); ("O:O:.", "is_root", "true"); ("O:", "inhibition", "opposed")].
Definition d1 : dictionary := match make_dictionary ident P1 R1 with Ok d => d | Err _ => {| d_scripts := []; d_root_scripts := []; d_forest := []; d_inhibitions := []; d_relations := [] |} end.
Lemma d1_made : make_dictionary ident P1 R1 = Ok d1.
Proof. vm_compute. reflexivity. Qed.
Lemma ident_order : set_order ident.
Proof. intros l. apply Permutation_refl. Qed.
Lemma d1_tidy : tidy ident P1.
Proof. intros p s [<-|[<-|[<-|[<-|[]]]]] E; vm_compute in E; apply Ok_inj in E; subst s; reflexivity. Qed.

Section Theorems.
  Variable so : list script -> list script.
  Hypothesis SO : set_order so.
  Variables (paradigms : list string) (rows : list (string * string * string)) (d : dictionary).
  Hypothesis Made : make_dictionary so paradigms rows = Ok d.

  (** * C50 *)
  Theorem C50_disjoint_roots : ForallOrdPairs disjoint (d_root_scripts d).
  Proof. destruct (make_spec so SO _ _ _ Made) as (all & A). eapply roots_disjoint; eauto. Qed.
  Theorem C50_roots :
    (forall r, In r (d_root_scripts d) -> marks so rows "is_root" r) /\
    (forall p s value, In p paradigms -> parse so p = Ok s -> In (p, "is_root", value) rows -> true_value value -> (forall t, marks so rows "is_ignored" t -> str t <> str s) ->
       exists r, In r (d_root_scripts d) /\ str r = str s).
  Proof.
    destruct (make_both so SO _ _ _ Made) as (all & A & (Ro & _ & Co & _)). split.
    - intros r Hr. apply marked_marks, Ro, Hr.
    - intros p s value Hp Ps Hr T Ni. apply (Co p s value); auto; [now apply truthy_value|]. intros t Mt. apply Ni. now apply marked_marks.
  Qed.
  Theorem C50_cover_partial : (forall s t, marks so rows "is_root" s -> marks so rows "is_ignored" t -> str s <> str t) ->
    forall s w, In s (d_scripts d) -> means s w -> exists r, (In r (d_root_scripts d) /\ means r w /\ layer r = layer s) /\ forall r', In r' (d_root_scripts d) -> means r' w -> r' = r.
  Proof.
    intros Hm s w Hs Hw. destruct (make_spec so SO _ _ _ Made) as (all & A). pose proof (scripts_all so paradigms rows d all A s Hs) as [Ha _]. pose proof A as (_ & _ & _ & Wr & Dj & _ & _ & Cov & _).
    destruct (Cov) with (s := s) (w := w) as (r & Hr & Rw); auto; [intros a b Ma Mb; apply Hm; now apply marked_marks|]. exists r. split; [split; [exact Hr|split; [exact Rw|]]|].
    - rewrite Forall_forall in Wr. apply (share_layer r s w); auto. eapply scripts_wf; eauto.
    - intros r' Hr' Rw'. apply (disjoint_one _ r' r w Dj); auto.
  Qed.
  Theorem C50_stated_roots : forall p q s t v v' w, In p paradigms -> In q paradigms -> In (p, "is_root", v) rows -> In (q, "is_root", v') rows -> true_value v -> true_value v' ->
    parse so p = Ok s -> parse so q = Ok t -> means s w -> means t w -> str s = str t.
  Proof.
    intros p q s t v v' w Hp Hq Rp Rq Tp Tq Ps Pt Sw Tw. pose proof Made as M. unfold make_dictionary in M. destruct (load so paradigms rows) as [st|] eqn:El; cbn [bind] in M; [|discriminate]. destruct (cover [] (l_roots st)) as [covered|] eqn:Ec; cbn [bind] in M; [|discriminate].
    destruct (load_spec so SO _ _ _ El) as [(_ & Ro & _) _]. assert (Wr : Forall wf (l_roots st)) by (apply Forall_forall; intros r Hr; exact (proj1 (Ro r Hr))). destruct (cover_spec _ Wr _ _ Ec) as (D & _ & _). rewrite Forall_forall in Wr.
    destruct (load_origin so SO _ _ _ El) as (_ & _ & _ & St & _). destruct (St p v s Hp Rp (proj2 (truthy_value v) Tp) Ps) as (a & Ha & Ea). destruct (St q v' t Hq Rq (proj2 (truthy_value v') Tq) Pt) as (b & Hb & Eb).
    pose proof (constructible_wf _ (parse_constructible so SO _ _ Ps)) as Ws. pose proof (constructible_wf _ (parse_constructible so SO _ _ Pt)) as Wt.
    rewrite <- Ea, <- Eb. f_equal. apply (disjoint_one _ a b w D Ha Hb); [apply (same_text s a); auto|apply (same_text t b); auto].
  Qed.

  (** * C51 *)
  Theorem C51_index_partial : tidy so paradigms ->
    sorted_lt (d_scripts d) /\ NoDup (map str (d_scripts d)) /\
    (forall s i, idx (d_scripts d) s = Ok i <-> exists x, nth_error (d_scripts d) i = Some x /\ str x = str s) /\
    (forall s, (exists e, idx (d_scripts d) s = Err e) <-> ~ member d s).
  Proof.
    intros T. destruct (make_spec so SO _ _ _ Made) as (all & A). pose proof A as (_ & Es & _ & _ & _ & _ & _ & _ & Ti & _). destruct (Ti T) as (Sa & _ & Nd).
    assert (N : NoDup (map str (d_scripts d))) by (rewrite Es; apply NoDup_filter_map, Nd). split; [rewrite Es; apply sorted_filter, Sa|]. split; [exact N|]. split.
    - intros s i. apply index_iff, N.
    - intros s. split.
      + intros (e & E) M. destruct (member_idx d s M) as [i Ei]. congruence.
      + intros M. destruct (idx (d_scripts d) s) as [i|e] eqn:E; [|eauto]. exfalso. apply M. eapply idx_member; eauto.
  Qed.
  Theorem C51_lookup : forall s, (in_dictionary d s = true <-> member d s) /\ (member d s -> exists x, lookup d s = Ok x /\ str x = str s) /\ (~ member d s -> lookup d s = Err KeyError).
  Proof.
    intros s. split; [apply memb_text|]. split.
    - intros M. destruct (member_idx d s M) as [i Ei]. destruct (index_some _ _ _ Ei) as (x & Hx & Ex). exists x. unfold lookup. rewrite Ei. cbn [bind]. rewrite Hx. auto.
    - intros M. unfold lookup. destruct (idx (d_scripts d) s) as [i|e] eqn:E; [exfalso; apply M; eapply idx_member; eauto|]. cbn [bind]. unfold idx, index_of in E. destruct (find _ _) as [[j y]|]; congruence.
  Qed.

  (** * C52 *)
  Theorem C52_forest : forall r ts t, In (r, ts) (d_forest d) -> In t ts -> In r (d_root_scripts d) /\ climbs r ts t /\ included (tscript t) r.
  Proof.
    intros r ts t He Ht. destruct (make_spec so SO _ _ _ Made) as (all & A). split; [eapply forest_tree; eauto|]. split; [eapply climbs_all; eauto|eapply forest_table; eauto].
  Qed.
  Theorem C52_ranks : forall r ts t, In (r, ts) (d_forest d) -> In t ts ->
    (tparent t = None -> tscript t = r /\ rank t = 0) /\
    (forall p, tparent t = Some p -> rank p <= rank t /\ (tkind p <> K3D -> tkind p <> KSet -> rank p < rank t)).
  Proof.
    intros r ts t He Ht. destruct (make_spec so SO _ _ _ Made) as (all & A). split; [intros P; eapply root_rank; eauto|]. intros p P. assert (X : rank p <= rank t /\ (is_set p = false -> rank p < rank t)) by (eapply parent_rank; eauto). split; [apply X|]. intros K1 K2. apply X. unfold is_set. destruct (tkind p); congruence.
  Qed.
  Theorem C52_one_table : forall r ts r' ts' t t', In (r, ts) (d_forest d) -> In (r', ts') (d_forest d) -> In t ts -> In t' ts' -> str (tscript t) = str (tscript t') -> t = t' /\ r = r'.
  Proof.
    intros r ts r' ts' t t' He He' Ht Ht' E. destruct (make_spec so SO _ _ _ Made) as (all & A). destruct (unique_table so SO _ _ _ _ A r ts r' ts' t t' He He' Ht Ht' E) as (? & ? & _). auto.
  Qed.
  Theorem C52_root_of : forall s, In s (d_scripts d) -> forall r, root_of d s = Some r <-> In r (d_root_scripts d) /\ included s r.
  Proof.
    intros s Hs r. destruct (make_spec so SO _ _ _ Made) as (all & A). pose proof (scripts_wf so _ _ _ _ A s Hs) as W. split.
    - eapply root_of_spec; eauto.
    - intros [Hr I]. eapply root_of_total; eauto. exists s. auto.
  Qed.

  (** * C53 *)
  Lemma relations_of : exists contains fs fa fm opposed associated crossed twin ranks, rels (d_scripts d) (d_forest d) (d_inhibitions d) (d_relations d) contains fs fa fm opposed associated crossed twin ranks.
  Proof. destruct (make_spec so SO _ _ _ Made) as (all & A). eapply relation_list; eauto. Qed.
  Lemma related_in rel m s o : In (rel, m) (d_relations d) -> get_key rel (d_relations d) = Some m -> (related d rel s o <-> exists i j, idx (d_scripts d) s = Ok i /\ idx (d_scripts d) o = Ok j /\ In (i, j) m).
  Proof. intros H G. destruct relations_of as (cm & fs & fa & fm & op & ass & cr & tw & rk & R). apply related_spec; [|exact G]. eapply rels_placed; eauto. Qed.
  Theorem C53_inverse : forall rel s o, In rel RELATIONS -> (related d rel s o <-> related d (inverse rel) o s).
  Proof.
    destruct relations_of as (cm & fs & fa & fm & op & ass & cr & tw & rk & R). pose proof R as (Ec & Es & Ea & Em & Eo & Eas & Ecr & Et & Er & El).
    assert (Gen : forall rel rel' m m', In (rel, m) (d_relations d) -> In (rel', m') (d_relations d) -> get_key rel (d_relations d) = Some m -> get_key rel' (d_relations d) = Some m' -> (forall i j, In (i, j) m <-> In (j, i) m') -> forall s o, related d rel s o <-> related d rel' o s).
    { intros rel rel' m m' H H' G G' Q s o. rewrite (related_in rel m s o H G), (related_in rel' m' o s H' G'). split; intros (i & j & Ei & Ej & X); exists j, i; (split; [exact Ej|split; [exact Ei|now apply Q]]). }
    assert (Tr : forall m i j, In (i, j) m <-> In (j, i) (transposed m)) by (intros m i j; rewrite transposed_in; tauto).
    assert (Sib : forall f rel m, siblings (d_forest d) (d_inhibitions d) rel (siblings_in (d_scripts d) f) = Ok m -> forall i j, In (i, j) m <-> In (j, i) m).
    { intros f rel m E. assert (H : forall i j, In (i, j) m -> In (j, i) m); [|intros; split; apply H]. intros i j H. apply (siblings_spec _ _ _ _ _ _ _ E) in H as (e & m' & He & I & L & Em' & H). apply (siblings_spec _ _ _ _ _ _ _ E). exists e, m'. split; [exact He|]. split; [exact I|]. split; [exact L|]. split; [exact Em'|].
      apply (siblings_in_spec _ _ _ _ _ _ Em') in H as (x & y & C & Mx & My & F & K). apply (siblings_in_spec _ _ _ _ _ _ Em'). exists x, y. tauto. }
    assert (Twin : forall i j, In (i, j) tw <-> In (j, i) tw).
    { assert (H : forall i j, In (i, j) tw -> In (j, i) tw); [|intros; split; apply H]. intros i j H. apply (siblings_spec _ _ _ _ _ _ _ Et) in H as (e & m' & He & I & L & Em' & H). apply (siblings_spec _ _ _ _ _ _ _ Et). exists e, m'. split; [exact He|]. split; [exact I|]. split; [exact L|]. split; [exact Em'|].
      apply (twins_in_spec _ _ _ _ _ Em') in H as (x & y & C & Mx & My & F). apply (twins_in_spec _ _ _ _ _ Em'). exists x, y. tauto. }
    assert (Rk : forall n i j, In (i, j) (of_rank n rk) <-> In (j, i) (of_rank n rk)).
    { intros n. assert (H : forall i j, In (i, j) (of_rank n rk) -> In (j, i) (of_rank n rk)); [|intros; split; apply H]. intros i j H. destruct (table_rank_spec _ _ _ _ n i j Er) as (z & Ez & Q). destruct (table_rank_spec _ _ _ _ n j i Er) as (z' & Ez' & Q'). rewrite Ez in Ez'. apply Ok_inj in Ez'. subst z'. apply Q'. apply Q in H. destruct H as [(e & l & He & El' & H)|H].
      - left. exists e, l. split; [exact He|]. split; [exact El'|]. apply (between_spec _ _ _ _ _ _ _ _ El') in H as (x & y & k & C & Ix & Iy & Hi & Hj & Rq). apply (between_spec _ _ _ _ _ _ _ _ El'). exists y, x, k. split; [|auto]. apply couples_two. apply couples_two in C. tauto.
      - right. pose proof (ranks_of_placed _ _ _ _ _ _ _ _ _ Ez H). now subst j. }
    assert (Id : forall i j, In (i, j) (map (fun i => (i, i)) (seq 0 (List.length (d_scripts d)))) <-> In (j, i) (map (fun i => (i, i)) (seq 0 (List.length (d_scripts d))))).
    { assert (H : forall i j, In (i, j) (map (fun i => (i, i)) (seq 0 (List.length (d_scripts d)))) -> In (j, i) (map (fun i => (i, i)) (seq 0 (List.length (d_scripts d))))); [|intros; split; apply H]. intros i j H. apply in_map_iff in H as (k & X & H). injection X as <- <-. apply in_map_iff. eauto. }
    intros rel s o H. unfold RELATIONS in H. cbn [In] in H.
    repeat (destruct H as [<-|H]; [match goal with |- related d ?a _ _ <-> related d ?b _ _ => let b' := eval vm_compute in b in change b with b' end;
      eapply Gen; [rewrite El; cbn [In]; eauto 25|rewrite El; cbn [In]; eauto 25|rewrite El; reflexivity|rewrite El; reflexivity|]; eauto; intros i j; rewrite ?transposed_in; tauto|]). destruct H.
  Qed.
  Theorem C53_identity : forall s o, related d "identity" s o <-> member d s /\ str s = str o.
  Proof.
    intros s o. destruct relations_of as (cm & fs & fa & fm & op & ass & cr & tw & rk & R). pose proof R as (_ & _ & _ & _ & _ & _ & _ & _ & _ & El).
    rewrite (related_in "identity" (map (fun i => (i, i)) (seq 0 (List.length (d_scripts d))))); [|rewrite El; cbn [In]; auto 25|rewrite El; reflexivity]. split.
    - intros (i & j & Ei & Ej & H). split; [eapply idx_member; eauto|]. apply in_map_iff in H as (k & X & _). assert (i = j) as <- by congruence. eapply index_eq; eauto.
    - intros [M E]. destruct (member_idx d s M) as [i Ei]. exists i, i. split; [exact Ei|]. split; [unfold idx in *; now rewrite <- (index_text s o)|]. destruct (index_some _ _ _ Ei) as (x & Hx & _). apply in_map_iff. exists i. split; [reflexivity|]. apply in_seq. assert (i < List.length (d_scripts d)) by (apply nth_error_Some; congruence). lia.
  Qed.
  (** [relation(s, o)] lists the names of the relations that hold between [s] and [o], in the order of
      [RELATIONS]. *)
  Theorem C53_named : forall s o, member d s ->
    exists l, relation d s o = Ok l /\ (forall rel, In rel l <-> In rel RELATIONS /\ related d rel s o) /\ exists keep, l = filter keep RELATIONS.
  Proof.
    intros s o M. destruct (member_idx d s M) as [i Ei]. destruct relations_of as (cm & fs & fa & fm & op & ass & cr & tw & rk & R). pose proof R as (_ & _ & _ & _ & _ & _ & _ & _ & _ & El).
    assert (Ob : forall rel, In rel RELATIONS -> exists x, object d s rel = Ok x).
    { intros rel H. unfold object. assert (X : exists m, get_key rel (d_relations d) = Some m) by (rewrite El; unfold RELATIONS in H; cbn [In] in H; repeat (destruct H as [<-|H]; [eexists; reflexivity|]); destruct H). destruct X as (m & ->). rewrite Ei. cbn [bind]. eauto. }
    set (keep := fun rel => match object d s rel with Ok x => memb script_eqb o x | Err _ => false end).
    assert (F : relation d s o = Ok (filter keep RELATIONS)).
    { unfold relation. revert Ob. generalize RELATIONS. intros rs. induction rs as [|r rs IH]; intros Ob; [reflexivity|]. destruct (Ob r (or_introl eq_refl)) as (x & Ex). specialize (IH (fun rel H => Ob rel (or_intror H))).
      cbn [mapM filter]. unfold keep at 1. rewrite Ex. cbn [bind]. destruct (mapM _ rs) as [xs|]; cbn [bind] in IH |- *; [|discriminate]. apply Ok_inj in IH. cbn [List.concat]. rewrite IH. destruct (memb script_eqb o x); reflexivity. }
    exists (filter keep RELATIONS). split; [exact F|]. split; [|eauto]. intros rel. rewrite filter_In. unfold keep, related. split; intros [H1 H2]; (split; [exact H1|]); destruct (Ob rel H1) as (x & Ex); rewrite Ex in *.
    - exists x. split; [reflexivity|]. now apply memb_text.
    - destruct H2 as (l & E & H2). apply Ok_inj in E. subst l. now apply memb_text.
  Qed.
  (** What the siblings are, by their tables *)
  Lemma siblings_of rel R s o : In (rel, R) [("opposed", opposed); ("associated", associated); ("crossed", crossed); ("twin", twin)] -> member d s -> member d o -> (related d rel s o <-> sibling_tables d rel R s o).
  Proof.
    intros H Ms Mo. destruct (make_spec so SO _ _ _ Made) as (all & A). destruct relations_of as (cm & fs & fa & fm & op & ass & cr & tw & rk & Q). destruct Q as (_ & _ & _ & _ & Eo & Ea & Ecr & Et & _ & El).
    assert (Mu : forall (R : script -> script -> Prop) a b, (R a b -> exists x y z, a = Mul x y z) -> R a b -> is_mul a = true) by (intros R0 a b X Y; destruct (X Y) as (x & y & z & ->); reflexivity).
    destruct H as [H|[H|[H|[H|[]]]]]; injection H as <- <-.
    - apply (siblings_top so SO _ _ _ _ A "opposed" opposed opposed_sibling op); auto; [rewrite El; reflexivity|intros a b Wa Wb L _ _; now apply opposed_ok| |intros a b _; apply opposed_sym].
      intros a b (_ & _ & _ & x & y & z & x' & y' & z' & -> & -> & _). auto.
    - apply (siblings_top so SO _ _ _ _ A "associated" associated associated_sibling ass); auto; [rewrite El; reflexivity|intros a b Wa Wb L Ma Mb; now apply associated_ok| |intros a b _; apply associated_sym].
      intros a b (_ & x & y & z & x' & y' & z' & -> & -> & _). auto.
    - apply (siblings_top so SO _ _ _ _ A "crossed" crossed crossed_sibling cr); auto; [rewrite El; reflexivity|intros a b Wa Wb L Ma Mb; now apply crossed_ok| |intros a b; apply crossed_sym].
      intros a b (_ & _ & x & y & z & x' & y' & z' & -> & -> & _). auto.
    - apply (twins_top d tw); auto. rewrite El. reflexivity.
  Qed.
  Lemma related_member rel s o : In rel RELATIONS -> related d rel s o -> member d s /\ member d o.
  Proof.
    intros H K. assert (X : forall a b rel, related d rel a b -> member d a). { intros a b rl (l & E & _). unfold object in E. destruct (get_key rl (d_relations d)); [|discriminate]. destruct (idx (d_scripts d) a) as [i|] eqn:Ei; cbn [bind] in E; [|discriminate]. eapply idx_member; eauto. }
    split; [eapply X; eauto|]. apply C53_inverse in K; [|exact H]. eapply X; eauto.
  Qed.
  Theorem C53_irreflexive : forall rel s, In rel ["opposed"; "associated"; "crossed"; "twin"] -> ~ related d rel s s.
  Proof.
    intros rel s H K. destruct (make_spec so SO _ _ _ Made) as (all & A).
    assert (X : exists R, In (rel, R) [("opposed", opposed); ("associated", associated); ("crossed", crossed); ("twin", twin)]) by (destruct H as [<-|[<-|[<-|[<-|[]]]]]; eexists; simpl; eauto). destruct X as [R X].
    assert (In rel RELATIONS) by (destruct H as [<-|[<-|[<-|[<-|[]]]]]; unfold RELATIONS; simpl; auto 25). destruct (related_member rel s s) as [M _]; auto. apply (siblings_of rel R s s X M M) in K as (r & ts & x & y & He & _ & _ & C & Ex & Ey & _).
    apply (tables_differ so SO _ _ _ _ A r ts x y He C). congruence.
  Qed.

  (** * C54 *)
  Theorem C54_contains : forall s t, In s (d_scripts d) -> In t (d_scripts d) -> (related d "contains" s t <-> included t s).
  Proof.
    intros s t Hs Ht. destruct (make_spec so SO _ _ _ Made) as (all & A). apply (contains_spec so SO _ _ _ _ A); try (eapply scripts_wf; eauto); [exists s|exists t]; auto.
  Qed.
  Theorem C54_order : forall s t u, (member d s -> related d "contains" s s) /\ (related d "contains" s t -> related d "contains" t u -> related d "contains" s u).
  Proof.
    destruct (make_spec so SO _ _ _ Made) as (all & A).
    assert (Rep : forall s, member d s -> exists x, In x (d_scripts d) /\ str x = str s) by auto.
    assert (Tx : forall s t s' t', str s = str s' -> str t = str t' -> related d "contains" s t -> related d "contains" s' t').
    { intros s t s' t' Es Et (l & E & x & Hx & Ex). exists l. split; [|exists x; split; [exact Hx|congruence]]. unfold object in *. destruct (get_key "contains" (d_relations d)); [|exact E]. unfold idx in *. now rewrite <- (index_text s s'). }
    intros s t u. split.
    - intros (x & Hx & Ex). apply (Tx x x); auto. apply C54_contains; auto. apply inside_refl.
    - intros H K. assert (C : In "contains" RELATIONS) by (unfold RELATIONS; simpl; auto). destruct (related_member _ _ _ C H) as [(x & Hx & Ex) (y & Hy & Ey)]. destruct (related_member _ _ _ C K) as [_ (z & Hz & Ez)].
      apply (Tx x z); auto. apply (Tx s t x y) in H; auto. apply (Tx t u y z) in K; auto. apply C54_contains in H; auto. apply C54_contains in K; auto. apply C54_contains; auto. eapply inside_trans; eauto.
  Qed.

  (** * C55 *)
  Lemma meets_met s f : meets (d_scripts d) s f <-> met d s f.
  Proof. split; intros H; induction H; [now apply met_here|eapply met_below; eauto|now apply meets_here|eapply meets_below; eauto]. Qed.
  Theorem C55_fathers_partial : tidy so paradigms -> forall n rel s f, nth_error ["father_substance"; "father_attribute"; "father_mode"] n = Some rel -> In s (d_scripts d) ->
    (related d rel s f <-> exists a b c g, In (Mul a b c) (terms_of s) /\ met d (nth n [a; b; c] (Null 0)) g /\ str g = str f).
  Proof.
    intros T n rel s f Hn Hs. destruct (C51_index_partial T) as (_ & Nd & _). destruct relations_of as (cm & fs & fa & fm & op & ass & cr & tw & rk & R). pose proof R as (_ & Es & Ea & Em & _ & _ & _ & _ & _ & El).
    assert (X : exists m, compute_father (d_scripts d) n = Ok m /\ In (rel, m) (d_relations d) /\ get_key rel (d_relations d) = Some m).
    { destruct n as [|[|[|n]]]; cbn [nth_error] in Hn; try (injection Hn as <-); [exists fs|exists fa|exists fm|destruct n; discriminate]; rewrite El; (split; [assumption|split; [cbn [In]; auto 25|reflexivity]]). }
    destruct X as (m & Em' & Hm & G). rewrite (related_in rel m s f Hm G). split.
    - intros (i & j & Ei & Ej & H). apply (father_spec _ _ _ _ _ Em') in H as (s' & a & b & c & g & Hs' & Is & Ht & Mg & Jg). pose proof (index_eq _ _ _ _ Ei Is) as E. pose proof (nodup_inj str _ _ _ Nd Hs Hs' E). subst s'. exists a, b, c, g. split; [apply terms_in; split; [exact Ht|discriminate]|]. split; [now apply meets_met|]. eapply index_eq; eauto.
    - intros (a & b & c & g & Ht & Mg & Eg). destruct (member_idx d s (ex_intro _ s (conj Hs eq_refl))) as [i Ei].
      assert (Mf : member d g). { clear - Mg. induction Mg; auto. } destruct (member_idx d g Mf) as [j Ej]. exists i, j. split; [exact Ei|]. split; [unfold idx in *; now rewrite <- (index_text g f)|]. apply (father_spec _ _ _ _ _ Em'). exists s, a, b, c, g. split; [exact Hs|]. split; [exact Ei|]. split; [apply (proj1 (terms_in _ _)) in Ht; apply Ht|]. split; [now apply meets_met|exact Ej].
  Qed.

  (** * C56 *)
  Lemma inhibited_iff r rel : In r (d_root_scripts d) -> (inhibited (d_inhibitions d) r rel = true <-> inhibits so paradigms rows r rel).
  Proof.
    intros Hr. destruct (make_both so SO _ _ _ Made) as (all & A & Co). split.
    - intros H. destruct Co as (_ & Inh & _). destruct (Inh r rel Hr H) as (p & w & Hp & Pw & Ew & [I|C]); [exists p, w; auto|]. exfalso. apply (root_plural so SO _ _ _ _ A r Hr).
      pose proof (constructible_wf _ (parse_constructible so SO _ _ Pw)) as Ww. pose proof (Wroots so _ _ _ _ A) as Wr. rewrite Forall_forall in Wr. destruct (eq_attributes w r Ww (Wr r Hr) Ew) as [(_ & _ & Cc & _) _]. congruence.
    - intros (p & v & Hp & H & Pv & Ev). destruct A as (_ & _ & _ & _ & _ & _ & _ & _ & _ & Inh). eapply Inh; eauto.
  Qed.
  Theorem C56_siblings_partial : forall rel r s o, In rel ["opposed"; "associated"; "crossed"; "twin"] -> In r (d_root_scripts d) -> inhibits so paradigms rows r rel -> In s (d_scripts d) -> included s r -> ~ related d rel s o.
  Proof.
    intros rel r s o H Hr I Hs Is K. destruct (make_spec so SO _ _ _ Made) as (all & A).
    assert (X : exists R, In (rel, R) [("opposed", opposed); ("associated", associated); ("crossed", crossed); ("twin", twin)]) by (destruct H as [<-|[<-|[<-|[<-|[]]]]]; eexists; simpl; eauto). destruct X as [R X].
    assert (Hrel : In rel RELATIONS) by (destruct H as [<-|[<-|[<-|[<-|[]]]]]; unfold RELATIONS; simpl; auto 25). destruct (related_member rel s o Hrel K) as [Ms Mo]. apply (siblings_of rel R s o X Ms Mo) in K as (r' & ts & x & y & He & Ni & _ & C & Ex & _).
    pose proof (scripts_wf so _ _ _ _ A s Hs) as Ws. destruct (some_word s Ws) as [w Hw]. destruct (two_in x y ts C) as [Hx _]. pose proof (has_included so SO _ _ _ _ A r' ts s Ws (conj He (ex_intro _ x (conj Hx Ex)))) as [_ M'].
    destruct (forest_tree so SO _ _ _ _ A r' ts He) as (Hr' & _). assert (r' = r) by (apply (disjoint_one _ r' r w C50_disjoint_roots); auto; apply Is; auto). subst r'. apply (inhibited_iff r rel Hr) in I. congruence.
  Qed.

  (** * C63 *)
  Theorem C63_siblings : tidy so paradigms -> forall rel R s o, In (rel, R) [("opposed", opposed); ("associated", associated); ("crossed", crossed); ("twin", twin)] ->
    In s (d_scripts d) -> In o (d_scripts d) -> is_empty s = false -> is_empty o = false ->
    (related d rel s o <-> str s <> str o /\ R s o /\ exists r, In r (d_root_scripts d) /\ included s r /\ included o r /\ ~ inhibits so paradigms rows r rel).
  Proof.
    intros T rel R s o H Hs Ho Es Eo. destruct (make_both so SO _ _ _ Made) as (all & A & Co). rewrite (siblings_of rel R s o H) by (eexists; eauto).
    assert (Na : Forall nf all) by (destruct A as (_ & _ & _ & _ & _ & _ & _ & _ & Ti & _); apply (Ti T)). assert (Nr : Forall nf (d_root_scripts d)) by (apply Forall_forall; intros r Hr; exact (proj2 (proj1 Co r Hr) T)).
    assert (Lr : (forall a b, R a b -> layer a <> 0) /\ textual R).
    { destruct H as [H|[H|[H|[H|[]]]]]; injection H as <- <-; (split; [|auto using opposed_textual, associated_textual, crossed_textual, twin_textual]).
      - intros a b (_ & _ & _ & x & y & z & x' & y' & z' & -> & _). discriminate.
      - intros a b (_ & x & y & z & x' & y' & z' & -> & _). discriminate.
      - intros a b (_ & L & _). lia.
      - intros a b (_ & (x & y & z & -> & _) & _). discriminate. }
    destruct Lr as [Lr Tx]. rewrite (sibling_scripts so SO _ _ _ _ A Na Nr rel R s o Lr Tx Hs Ho Es Eo). split.
    - intros (N & F & r & Hr & Is & Io & I). split; [exact N|]. split; [exact F|]. exists r. split; [exact Hr|]. split; [exact Is|]. split; [exact Io|]. intros X. apply (inhibited_iff r rel Hr) in X. congruence.
    - intros (N & F & r & Hr & Is & Io & I). split; [exact N|]. split; [exact F|]. exists r. split; [exact Hr|]. split; [exact Is|]. split; [exact Io|]. destruct (inhibited (d_inhibitions d) r rel) eqn:X; [|reflexivity]. exfalso. apply I. now apply (inhibited_iff r rel Hr).
  Qed.

  (** * C64 *)
  Theorem C64_table_relations_partial : (forall s t, marks so rows "is_root" s -> marks so rows "is_ignored" t -> str s <> str t) ->
    forall k rel s o, nth_error ["table_0"; "table_1"; "table_2"; "table_3"; "table_4"; "table_5"] k = Some rel -> In s (d_scripts d) -> In o (d_scripts d) ->
    (related d rel s o <-> exists r ts c, In (r, ts) (d_forest d) /\ In c ts /\ rank c = k /\ included s (tscript c) /\ included o (tscript c)).
  Proof.
    intros Hm k rel s o Hk Hs Ho. destruct (make_spec so SO _ _ _ Made) as (all & A). destruct relations_of as (cm & fs & fa & fm & op & ass & cr & tw & rk & Q). pose proof Q as (Ec & _ & _ & _ & _ & _ & _ & _ & Er & El).
    assert (L : k < 6) by (apply (nth_error_Some ["table_0"; "table_1"; "table_2"; "table_3"; "table_4"; "table_5"] k); congruence).
    apply (table_k_top so SO _ _ _ _ A rel k rk cm); auto.
    - rewrite El. destruct k as [|[|[|[|[|[|k]]]]]]; cbn [nth_error] in Hk; try (injection Hk as <-; reflexivity). lia.
    - apply (covered_tables so SO _ _ _ _ A). intros a b Ma Mb. apply Hm; now apply marked_marks.
    - eapply scripts_wf; eauto.
    - eapply scripts_wf; eauto.
    - exists s. auto.
    - exists o. auto.
  Qed.

  (** * C65 *)
  Theorem C65_from_given : forall s, In s (d_scripts d) -> exists p v, In p paradigms /\ parse so p = Ok v /\ (str s = str v \/ cardinal s = 1%N /\ included s v).
  Proof. intros s Hs. destruct (make_both so SO _ _ _ Made) as (all & A & (_ & _ & _ & Gi & _)). apply Gi. eapply scripts_all; eauto. Qed.
  Theorem C65_ignored : tidy so paradigms -> forall p s value, In p paradigms -> parse so p = Ok s -> In (p, "is_ignored", value) rows -> true_value value -> ~ member d s.
  Proof.
    intros T p s value Hp Ps H Tv (x & Hx & Ex). destruct (make_both so SO _ _ _ Made) as (all & A & (_ & _ & _ & _ & Ig & _)). apply (Ig p s value T Hp H) with (x := x); auto; [now apply truthy_value|eapply scripts_all; eauto].
  Qed.
  Theorem C65_kept : forall p s, In p paradigms -> parse so p = Ok s -> cardinal s = 1%N -> (forall t, marks so rows "is_ignored" t -> str t <> str s) -> (forall w, means s w -> exists r, In r (d_root_scripts d) /\ means r w) -> member d s.
  Proof.
    intros p s Hp Ps C Ni Cov. destruct (make_both so SO _ _ _ Made) as (all & A & (_ & _ & _ & _ & _ & Ke)). destruct (Ke p s Hp Ps) as (x & Hx & Ex); [intros t Mt; apply Ni; now apply marked_marks|exact Cov|]. exists x. split; [|exact Ex].
    pose proof A as (Wa & Es & _). rewrite Es. apply filter_In. split; [exact Hx|]. apply orb_true_iff. left. apply N.eqb_eq. rewrite Forall_forall in Wa. destruct (eq_attributes x s (Wa x Hx) (constructible_wf _ (parse_constructible so SO _ _ Ps)) Ex) as [(_ & _ & Cc & _) _]. congruence.
  Qed.
  Theorem C65_singular_sequences : forall r l x, In r (d_root_scripts d) -> ss r = Ok l -> In x l -> member d x.
  Proof.
    intros r l x Hr El Hx. destruct (make_spec so SO _ _ _ Made) as (all & A). destruct (root_entry so SO _ _ _ _ A r Hr) as [ts He]. pose proof (Wroots so _ _ _ _ A) as W. rewrite Forall_forall in W. pose proof (ss_sing r l x (W r Hr) El Hx) as (Wx & Cx & Lx).
    destruct (cell_table so SO _ _ _ _ A r x Hr Wx Cx) as (ts' & He' & t & Ht & Et); [split; [exact Lx|intros w Hw; eapply ss_word; eauto]|]. destruct (tables_member so SO _ _ _ _ A r ts' t He' Ht) as (y & Hy & Ey). exists y. split; [exact Hy|congruence].
  Qed.
  Theorem C65_roots_inside : forall r, In r (d_root_scripts d) -> member d r /\ cardinal r <> 1%N.
  Proof.
    intros r Hr. destruct (make_spec so SO _ _ _ Made) as (all & A). split; [|eapply root_plural; eauto]. pose proof A as (_ & _ & _ & _ & _ & [is E] & _). destruct (mapM_each _ _ _ _ E Hr) as [i Ei]. eapply idx_member; eauto.
  Qed.
End Theorems.
Print Assumptions C50_disjoint_roots.
Print Assumptions C50_roots.
Print Assumptions C50_cover_partial.
Print Assumptions C50_stated_roots.
Print Assumptions C51_index_partial.
Print Assumptions C51_lookup.
Print Assumptions C52_forest.
Print Assumptions C52_ranks.
Print Assumptions C52_one_table.
Print Assumptions C52_root_of.
Print Assumptions C53_inverse.
Print Assumptions C53_identity.
Print Assumptions C53_named.
Print Assumptions C53_irreflexive.
Print Assumptions C54_contains.
Print Assumptions C54_order.
Print Assumptions C55_fathers_partial.
Print Assumptions C56_siblings_partial.
Print Assumptions C63_siblings.
Print Assumptions C64_table_relations_partial.
Print Assumptions C65_from_given.
Print Assumptions C65_ignored.
Print Assumptions C65_kept.
Print Assumptions C65_singular_sequences.
Print Assumptions C65_roots_inside.

(** * The hypotheses are met, and the relations are not empty: a dictionary of two roots, two tables
    of one line and seven singular scripts *)
Definition objects (d : dictionary) (s : script) (rel : string) : list string := match object d s rel with Ok l => map str l | Err _ => ["?"] end.
Definition related_b (d : dictionary) (rel : string) (s o : script) : bool := match object d s rel with Ok l => existsb (fun x => String.eqb (str x) (str o)) l | Err _ => false end.
Lemma related_b_ok d rel s o : related_b d rel s o = true <-> related d rel s o.
Proof.
  unfold related_b, related. destruct (object d s rel) as [l|e]; [|split; [discriminate|intros (l & E & _); discriminate]]. rewrite existsb_exists. split.
  - intros (x & Hx & E). apply String.eqb_eq in E. eauto.
  - intros (l' & E & x & Hx & Ex). apply Ok_inj in E. subst l'. exists x. split; [exact Hx|]. now apply String.eqb_eq.
Qed.
Lemma member_b_ok d s : memb script_eqb s (d_scripts d) = true <-> member d s.
Proof. apply memb_text. Qed.
Ltac at_text := match goal with |- In ?t (d_scripts ?d) => let l := eval vm_compute in (d_scripts d) in let v := eval vm_compute in t in change (In v l); cbn [In]; tauto end.

Example C50_case : map str (d_root_scripts d1) = ["O:"; "O:O:."] /\ map str (d_scripts d1) = ["U:"; "A:"; "O:"; "wo."; "wa."; "wu."; "we."; "U:O:."; "O:U:."; "O:O:."] /\
  forall s t, marks ident R1 "is_root" s -> marks ident R1 "is_ignored" t -> str s <> str t.
Proof.
  split; [vm_compute; reflexivity|]. split; [vm_compute; reflexivity|]. intros s t _ (v & (p & x & H & _) & _). cbn [R1 In] in H. destruct H as [H|[H|[H|[]]]]; discriminate.
Qed.
Example C50_overlap_case : make_dictionary ident ["O:"; "I:"] [("O:", "is_root", "True"); ("I:", "is_root", "True")] = Err ValueError.
Proof. vm_compute. reflexivity. Qed.
Example C51_case : tidy ident P1 /\ idx (d_scripts d1) (text "wu.") = Ok 5 /\ idx (d_scripts d1) (text "S:") = Err KeyError /\ in_dictionary d1 (text "O:U:.") = true.
Proof. split; [exact d1_tidy|vm_compute; auto]. Qed.
Example C52_case : map (fun e => map (fun t => (str (tscript t), rank t, option_map (fun p => str (tscript p)) (tparent t))) (snd e)) (d_forest d1) =
  [[("O:", 0, None); ("U:", 6, Some "O:"); ("A:", 6, Some "O:")];
   [("O:O:.", 0, None); ("U:O:.", 3, Some "O:O:."); ("O:U:.", 3, Some "O:O:."); ("wo.", 6, Some "O:O:."); ("wa.", 6, Some "O:O:."); ("wu.", 6, Some "O:O:."); ("we.", 6, Some "O:O:.")]] /\
  option_map str (root_of d1 (text "wu.")) = Some "O:O:.".
Proof. vm_compute. auto. Qed.
Example C53_case : objects d1 (text "wa.") "opposed" = ["wu."] /\ objects d1 (text "wo.") "twin" = ["we."] /\ objects d1 (text "wu.") "father_substance" = ["A:"] /\ objects d1 (text "A:") "child_substance" = ["wu."; "we."; "O:U:."; "O:O:."] /\
  objects d1 (text "wu.") "identity" = ["wu."] /\ relation d1 (text "wa.") (text "wu.") = Ok ["opposed"; "table_0"].
Proof. vm_compute. auto 10. Qed.
Example C54_case : objects d1 (text "O:U:.") "contains" = ["wo."; "wu."; "O:U:."] /\ objects d1 (text "wo.") "contained" = ["wo."; "U:O:."; "O:U:."; "O:O:."].
Proof. vm_compute. auto. Qed.
Example C55_case : objects d1 (text "wo.") "father_attribute" = ["U:"] /\ objects d1 (text "O:U:.") "father_substance" = ["U:"; "A:"].
Proof. vm_compute. auto. Qed.
(** A root whose siblings are inhibited *)
Definition R2 := (R1 ++ [("O:O:.", "inhibition", "twin")])%list.
Example C56_case : exists d, make_dictionary ident P1 R2 = Ok d /\ inhibits ident P1 R2 (text "O:O:.") "twin" /\ objects d (text "wo.") "twin" = [] /\ objects d (text "wa.") "opposed" = ["wu."].
Proof.
  eexists. split; [vm_compute; reflexivity|]. split; [|vm_compute; auto]. exists "O:O:.", (text "O:O:."). split; [simpl; auto|]. split; [simpl; auto 10|]. vm_compute. auto.
Qed.
Example C63_case : exists s o, In s (d_scripts d1) /\ In o (d_scripts d1) /\ opposed s o /\ related d1 "opposed" s o.
Proof.
  exists (text "wa."), (text "wu."). split; [at_text|]. split; [at_text|]. split; [|apply related_b_ok; vm_compute; reflexivity]. vm_compute. split; [reflexivity|]. split; [reflexivity|]. split; [reflexivity|]. do 6 eexists. split; [reflexivity|]. split; [reflexivity|]. auto.
Qed.
Example C64_case : objects d1 (text "wo.") "table_3" = ["wo."; "wa."; "wu."; "U:O:."; "O:U:."] /\ objects d1 (text "wa.") "table_3" = ["wo."; "wa."; "U:O:."].
Proof. vm_compute. auto. Qed.
Definition R3 := (R1 ++ [("U:O:.", "is_ignored", "true")])%list.
Example C65_case : exists d, make_dictionary ident P1 R3 = Ok d /\ map str (d_scripts d) = ["U:"; "A:"; "O:"; "wo."; "wa."; "wu."; "we."; "O:U:."; "O:O:."].
Proof. eexists. split; vm_compute; reflexivity. Qed.

(** * What fails *)
(** C50: a root which is also ignored leaves its singular scripts in the dictionary, in no root. *)
Definition P4 := ["O:"; "M:"].
Definition R4 := [("O:", "is_root", "True"); ("M:", "is_root", "true"); ("M:", "is_ignored", "true")].
Definition none : dictionary := {| d_scripts := []; d_root_scripts := []; d_forest := []; d_inhibitions := []; d_relations := [] |}.
Definition d4 : dictionary := match make_dictionary ident P4 R4 with Ok d => d | Err _ => none end.
Theorem C50_cover_refuted : make_dictionary ident P4 R4 = Ok d4 /\ In (text "S:") (d_scripts d4) /\ (exists w, means (text "S:") w) /\ forall r w, In r (d_root_scripts d4) -> means (text "S:") w -> ~ means r w.
Proof.
  split; [vm_compute; reflexivity|]. split; [at_text|]. split; [eexists; vm_compute; reflexivity|]. intros r w Hr Hw H. vm_compute in Hr. destruct Hr as [<-|[]]. vm_compute in Hw, H. destruct H as [H|[H|[]]]; congruence.
Qed.
Print Assumptions C50_cover_refuted.
(** C51: two spellings of one script give two entries. *)
Definition P5 := ["wo.+wa."; "wa.+wo."].
Definition R5 := [("wo.+wa.", "is_root", "True")].
Definition d5 : dictionary := match make_dictionary ident P5 R5 with Ok d => d | Err _ => none end.
Theorem C51_index_refuted : make_dictionary ident P5 R5 = Ok d5 /\ map str (d_scripts d5) = ["wo."; "wa."; "wo.+wa."; "wo.+wa."] /\ ~ sorted_lt (d_scripts d5) /\
  exists x, nth_error (d_scripts d5) 2 = Some x /\ idx (d_scripts d5) x = Ok 3.
Proof.
  split; [vm_compute; reflexivity|]. split; [vm_compute; reflexivity|]. split; [|eexists; split; vm_compute; reflexivity].
  intros S. assert (F : exists a b r x, d_scripts d5 = a :: b :: x :: x :: r /\ lt x x = false) by (do 4 eexists; split; [vm_compute; reflexivity|vm_compute; reflexivity]). destruct F as (a & b & r & x & E & L).
  rewrite E in S. inversion S as [|? ? S1 _]; subst. inversion S1 as [|? ? S2 _]; subst. inversion S2 as [|? ? _ H]; subst. apply Forall_inv in H. congruence.
Qed.
Print Assumptions C51_index_refuted.
(** C55: [O:] is in the dictionary and is the substance of [O:O:.], but its terms are the fathers. *)
Theorem C55_largest_refuted : exists a b c, text "O:O:." = Mul a b c /\ str a = "O:" /\ member d1 (text "O:O:.") /\ member d1 a /\ ~ related d1 "father_substance" (text "O:O:.") a /\ objects d1 (text "O:O:.") "father_substance" = ["U:"; "A:"].
Proof.
  do 3 eexists. split; [vm_compute; reflexivity|]. split; [vm_compute; reflexivity|]. split; [apply member_b_ok; vm_compute; reflexivity|]. split; [apply member_b_ok; vm_compute; reflexivity|]. split; [|vm_compute; reflexivity]. rewrite <- related_b_ok. vm_compute. discriminate.
Qed.
Print Assumptions C55_largest_refuted.
(** C56: the fathers can be inhibited, without effect. *)
Definition R6 := (R1 ++ [("O:O:.", "inhibition", "father_substance")])%list.
Definition d6 : dictionary := match make_dictionary ident P1 R6 with Ok d => d | Err _ => none end.
Theorem C56_fathers_refuted : make_dictionary ident P1 R6 = Ok d6 /\ inhibits ident P1 R6 (text "O:O:.") "father_substance" /\ objects d6 (text "wo.") "father_substance" = ["U:"].
Proof.
  split; [vm_compute; reflexivity|]. split; [|vm_compute; reflexivity]. exists "O:O:.", (text "O:O:."). split; [simpl; auto|]. split; [simpl; auto 10|]. vm_compute. auto.
Qed.
Print Assumptions C56_fathers_refuted.
(** C64: a singular script of an ignored root is in no table, and is said to share a table of rank 0 with itself. *)
Theorem C64_orphan_refuted : related d4 "table_0" (text "S:") (text "S:") /\ forall r ts c, In (r, ts) (d_forest d4) -> In c ts -> ~ included (text "S:") (tscript c).
Proof.
  split; [apply related_b_ok; vm_compute; reflexivity|]. intros r ts c He Hc [_ I]. assert (W : exists w, means (text "S:") w) by (eexists; vm_compute; reflexivity). destruct W as [w Hw]. pose proof (I w Hw) as H. clear I.
  assert (F : exists a t0 t1 t2, d_forest d4 = [(a, [t0; t1; t2])] /\ str a = "O:" /\ tscript t0 = text "O:" /\ tscript t1 = text "U:" /\ tscript t2 = text "A:") by (do 4 eexists; split; [vm_compute; reflexivity|vm_compute; auto]).
  destruct F as (a & t0 & t1 & t2 & E & _ & E0 & E1 & E2). rewrite E in He. destruct He as [He|[]]. injection He as <- <-. vm_compute in Hw. destruct Hc as [<-|[<-|[<-|[]]]]; rewrite ?E0, ?E1, ?E2 in H; vm_compute in H; [destruct H as [H|[H|[]]]|..]; congruence.
Qed.
Print Assumptions C64_orphan_refuted.
(** C65: a paradigm of the dictionary inside a root which fits in no table is silently left out. *)
Theorem C65_plural_refuted : exists d, make_dictionary ident ["M:M:."; "S:S:.+B:B:."] [("M:M:.", "is_root", "True")] = Ok d /\ in_dictionary d (text "S:S:.+B:B:.") = false /\ exists b, script_in (text "S:S:.+B:B:.") (text "M:M:.") = Ok b /\ b = true.
Proof. eexists. split; [vm_compute; reflexivity|]. split; [vm_compute; reflexivity|]. eexists. split; vm_compute; reflexivity. Qed.
Print Assumptions C65_plural_refuted.
(** C66: disjoint roots of which no dictionary is built: a singular root, a root whose sum repeats a
    singular sequence, tables nested four times, a script which is ignored and is in no root. *)
Theorem C66_built_refuted :
  make_dictionary ident ["U:"] [("U:", "is_root", "True")] = Err IndexError /\
  make_dictionary ident ["O:O:.+U:O:."] [("O:O:.+U:O:.", "is_root", "True")] = Err IndexError /\
  make_dictionary ident ["I:"; "F:"; "M:"; "S:+B:"] [("I:", "is_root", "True")] = Err IndexError /\
  make_dictionary ident ["O:"; "M:"] [("O:", "is_root", "True"); ("M:", "is_ignored", "True")] = Err KeyError.
Proof. vm_compute. auto 10. Qed.
Print Assumptions C66_built_refuted.
