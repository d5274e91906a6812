(** Proofs about the table of a lexeme with the flexion in the columns and the content in the rows. *)
From Coq Require Import List String Ascii Bool Arith Lia Permutation Sorted.
From Verif Require Import Base Script ScriptParser SortProofs ScriptWf ScriptStrProofs ScriptOrderProofs ScriptSpec ScriptCtorProofs ScriptParseProofs ScriptAlgProofs ScriptMoreProofs OrderTheory Commons Usl UslProofs UslSpec UslSsProofs
  Sfun SfunProofs SfunListProofs SfunWordProofs SfunSpec UslParser UslParserProofs UslRoundProofs Path PathLexProofs PathSpec PathProofs PathAlgProofs PathTextProofs PathDerefProofs PathBuildProofs Instance UslTable UslTableProofs UslTableSpec UslTableOrderProofs UslTableSsProofs LexBuildProofs.
Import ListNotations.
Local Open Scope string_scope.

(** ** Sorting by keys that are lexemes *)
Definition lkey_of (a : usl) : string := match a with ULexeme x => lexeme_str x | _ => "" end.
Lemma order_ulex {A} wl : order (fun a : usl * A => exists x, fst a = ULexeme x /\ lok x) (fun a => lkey_of (fst a)) (fun a b => String.eqb (lkey_of (fst a)) (lkey_of (fst b))) (fun a b => usl_lt wl (fst a) (fst b)).
Proof.
  constructor.
  - intros a b _ _. apply String.eqb_eq.
  - intros [? a] [? b] (p & -> & Hp) (q & -> & Hq). cbn. now apply (o_irr _ _ _ _ order_lexeme).
  - intros [? a] [? b] [? c] (p & -> & Hp) (q & -> & Hq) (r & -> & Hr). cbn. now apply (o_trans _ _ _ _ order_lexeme).
  - intros [? a] [? b] (p & -> & Hp) (q & -> & Hq). cbn. now apply (o_total _ _ _ _ order_lexeme).
Qed.
Lemma sort_by_lex {A} wl (f : A -> res usl) l : (forall x, In x l -> exists p, f x = Ok (ULexeme p) /\ lok p) ->
  exists l', sort_by wl f l = Ok l' /\ Permutation l' l /\ StronglySorted (fun x y => forall p q, f x = Ok (ULexeme p) -> f y = Ok (ULexeme q) -> lexeme_lt q p = false) l'.
Proof.
  intros H. destruct (mapM_total f l) as (ks & E); [intros x Hx; destruct (H x Hx) as (p & -> & _); eauto|]. unfold sort_by. rewrite E. cbn [bind]. eexists. split; [reflexivity|].
  assert (L : List.length ks = List.length l) by (now apply mapM_len in E).
  assert (P : Permutation (sort (fun a b => usl_lt wl (fst a) (fst b)) (combine ks l)) (combine ks l)) by apply sort_perm.
  assert (F : forall e, In e (combine ks l) -> f (snd e) = Ok (fst e) /\ In (snd e) l).
  { clear - E. revert ks E. induction l as [|x l IH]; intros ks E; [destruct ks; intros e []|]. rewrite mapM_step in E. destruct (f x) as [k|] eqn:Fx; [|discriminate]. cbn [bind] in E. destruct (mapM f l) as [r|] eqn:Er; [|discriminate]. injection E as <-.
    intros e [<-|He]; [split; [exact Fx|now left]|]. destruct (IH r eq_refl e He) as [A1 A2]. split; [exact A1|now right]. }
  split.
  - eapply perm_trans; [apply Permutation_map; exact P|]. clear - L. revert ks L. induction l as [|x l IH]; intros [|k ks] L; try discriminate; [constructor|]. cbn [combine map snd]. constructor. apply IH. now injection L.
  - pose proof (o_sorted (@order_ulex A wl) (combine ks l)) as S. assert (D : Forall (fun a : usl * A => exists p, fst a = ULexeme p /\ lok p) (combine ks l)).
    { apply Forall_forall. intros e He. destruct (F e He) as [F1 F2]. destruct (H (snd e) F2) as (p & Ep & Hp). exists p. split; [congruence|exact Hp]. }
    specialize (S D). unfold weak_sorted in S. clear D. assert (Q : forall e, In e (sort (fun a b => usl_lt wl (fst a) (fst b)) (combine ks l)) -> f (snd e) = Ok (fst e)) by (intros e He; apply F; apply (Permutation_in _ P He)).
    clear P F. induction S as [|a m S IH Ha]; [constructor|]. cbn [map]. constructor; [apply IH; intros e He; apply Q; now right|]. rewrite Forall_map. apply Forall_forall. intros b Hb p q Ep Eq.
    rewrite Q in Ep by now left. rewrite Q in Eq by now right. injection Ep as Ep. injection Eq as Eq. rewrite Forall_forall in Ha. specialize (Ha b Hb). rewrite Ep, Eq in Ha. exact Ha.
Qed.
Lemma sort_lex_keys {A} wl (f : A -> res usl) (c : A -> lexeme) l : (forall x, In x l -> lok (c x) /\ exists p, f x = Ok (ULexeme p) /\ lok p /\ lexeme_str p = lexeme_str (c x)) ->
  exists l', sort_by wl f l = Ok l' /\ Permutation l' l /\ StronglySorted (fun x y => lexeme_lt (c y) (c x) = false) l'.
Proof.
  intros H. destruct (sort_by_lex wl f l) as (l' & E & P & S).
  - intros x Hx. destruct (H x Hx) as (_ & p & Ep & Po & _). eauto.
  - exists l'. split; [exact E|]. split; [exact P|]. apply (sorted_weaken _ _ (fun x => In x l) l' ) with (3 := S).
    + apply Forall_forall. intros x Hx. eapply Permutation_in; eauto.
    + intros x y Hx Hy K. destruct (H x Hx) as (Cx & px & Ex & Pox & Tx). destruct (H y Hy) as (Cy & py & Ey & Poy & Ty). rewrite <- (K px py Ex Ey). apply (o_compat order_lexeme); auto.
Qed.

(** ** The singular sequences of a flexion *)
Lemma F2_in_r {A B} (R : A -> B -> Prop) la lb b : Forall2 R la lb -> In b lb -> exists a, In a la /\ R a b.
Proof. induction 1 as [|x y la lb H F IH]; intros []; [subst; exists x; split; [now left|auto]|]. destruct IH as (a & Ha & Hr); auto. exists a. split; [now right|auto]. Qed.
Lemma cats_of l : NoDup (map str l) -> (forall m, In m l -> exists t, In t FLEXION_SCRIPTS /\ of_root t m) -> (forall t m m', In t FLEXION_SCRIPTS -> In m l -> In m' l -> of_root t m -> of_root t m' -> str m = str m') ->
  exists cats, NoDup cats /\ Forall2 root_part cats (map (fun m => [m]) l).
Proof.
  induction l as [|m l IH]; intros N H U; [exists []; split; constructor|]. cbn [map] in N. apply NoDup_cons_iff in N. destruct N as [N1 N2]. destruct IH as (cats & Nc & Fc); [exact N2|intros x Hx; apply H; now right|intros t a b Ht Ha Hb; apply U; [exact Ht|now right..]|].
  destruct (H m (or_introl eq_refl)) as (t & Ht & Hm). exists (t :: cats). split; [constructor; [|exact Nc]|cbn [map]; constructor; [split; [exact Ht|]; intros x [<-|[]]; exact Hm|exact Fc]].
  intros Hc. apply N1. assert (X : exists q, In q (map (fun m => [m]) l) /\ root_part t q). { clear - Fc Hc. induction Fc as [|a b la lb R F IH]; [destruct Hc|]. destruct Hc as [->|Hc]; [exists b; split; [now left|auto]|]. destruct (IH Hc) as (q & Hq & R'). exists q. split; [now right|auto]. }
  destruct X as (q & Hq & _ & R). apply in_map_iff in Hq. destruct Hq as (m' & <- & Hm'). rewrite (U t m m'); [now apply in_map|exact Ht|now left|now right|exact Hm|]. apply R. now left.
Qed.
Lemma root_unique cats qs t m m' : Forall2 root_part cats qs -> NoDup cats -> Forall (fun q => List.length q <= 1) qs -> In m (List.concat qs) -> In m' (List.concat qs) -> In t FLEXION_SCRIPTS -> of_root t m -> of_root t m' -> m = m'.
Proof.
  intros F N L Hm Hm' Ht Rm Rm'. assert (Hc : In t cats).
  { apply in_concat in Hm. destruct Hm as (q & Hq & Hm). destruct (F2_in_r _ _ _ q F Hq) as (t' & Ht' & R1 & R2). rewrite (root_disjoint t t' m); auto. }
  pose proof (filter_roots cats qs F N) as G. assert (X : exists q, In q qs /\ filter (fun m => in_scripts m (flexion_root t)) (List.concat qs) = q).
  { clear - G Hc. revert G. generalize (List.concat qs) as all. intros all G. induction G as [|a b la lb E F IH]; [destruct Hc|]. destruct Hc as [->|Hc]; [exists b; split; [now left|auto]|]. destruct (IH Hc) as (q & Hq & E'). exists q. split; [now right|auto]. }
  destruct X as (q & Hq & E). rewrite Forall_forall in L. specialize (L q Hq). assert (A : In m q) by (rewrite <- E; apply filter_In; auto). assert (B : In m' q) by (rewrite <- E; apply filter_In; auto).
  destruct q as [|a [|b q]]; cbn in L; try lia; [destruct A|]. destruct A as [<-|[]], B as [<-|[]]. reflexivity.
Qed.
Lemma flex_ss so F s : set_order so -> flex_good F -> In s (pm_ss so F) -> flex_good s /\ groups s = [] /\ flatpm s /\
  (forall m, In m (constant s) -> In m (flex_ms F)).
Proof.
  intros SO G Hs. pose proof G as (Cl & L3 & Gg & cats & Nc & Fc). pose proof (clean_ok F Cl) as K.
  destruct (groups F) as [|g0 gs0] eqn:Gs.
  - unfold pm_ss in Hs. rewrite Gs in Hs. destruct Hs as [<-|[]]. split; [exact G|]. split; [exact Gs|]. split.
    + destruct Cl as ((cs & gs & Hc & Hg & E) & _). exists cs. split; [exact Hc|]. rewrite E in Gs |- *. cbn [mk_pm groups] in Gs. pose proof (sort_perm group_lt (map (fun g : list script * nat => (isort (filter_empty (fst g)), snd g)) gs)) as Pg. assert (Z : sort group_lt (map (fun g : list script * nat => (isort (filter_empty (fst g)), snd g)) gs) = []) by exact Gs. rewrite Z in Pg. apply Permutation_nil in Pg. apply map_eq_nil in Pg. now rewrite Pg.
    + intros m Hm. rewrite flex_ms_eq by (rewrite Gs; cbn; lia). apply in_or_app. now left.
  - assert (NE : groups F <> []) by now rewrite Gs. rewrite <- Gs in *. pose proof (flex_parts_nf F K) as Np. destruct K as [[K1 K2] K]. rewrite pm_ss_groups in Hs by auto.
    destruct (traits_spec so (groups F) (constant F) SO NE K2 K1) as (_ & _ & X). destruct (X s Hs) as (cs & d & Pk & D & Ld & ->). clear X.
    assert (Sg : single_groups (groups F)) by (eapply Forall_impl; [|exact Gg]; cbn; tauto). apply (picks_single _ _ Sg) in Pk as Am.
    pose proof (distinct_nf (groups F) cs (constant F) d K2 K1 Pk D) as Nd. destruct D as (Dn & Di & Dc).
    set (qs := (map (fun m => [m]) (filter_empty (constant F)) ++ cs)%list).
    assert (Fq : Forall2 root_part cats qs).
    { unfold flex_parts in Fc. unfold qs. apply Forall2_app_inv_r in Fc. destruct Fc as (c1 & c2 & F1 & F2 & ->). apply Forall2_app; [exact F1|]. clear - F2 Am. revert c2 F2. induction Am as [|g c gs cs [S1 _] Am IH]; intros c2 F2; cbn [map] in F2; inversion F2 as [|t ? c2' ? [R1 R2] F2']; subst; [constructor|].
      constructor; [|now apply IH]. split; [exact R1|]. intros m Hm. apply R2. now apply (subseq_incl _ _ S1). }
    assert (Lq : Forall (fun q => List.length q <= 1) qs).
    { unfold qs. apply Forall_app. split; [apply Forall_forall; intros q Hq; apply in_map_iff in Hq; destruct Hq as (m & <- & _); cbn; lia|]. clear - Am. induction Am as [|g c gs cs [_ H] Am IH]; constructor; auto. }
    assert (Md : forall m, In m (isort (filter_empty d)) -> In m (List.concat qs) /\ is_empty m = false).
    { intros m Hm. apply (Permutation_in _ (sort_perm _ _)) in Hm. apply filter_empty_in in Hm. destruct Hm as [Hm Em]. split; [|exact Em]. unfold qs. rewrite concat_app, concat_singles. apply Di, in_app_or in Hm. apply in_or_app. destruct Hm as [Hm|Hm]; [now right|left; now apply filter_empty_in]. }
    assert (Mf : forall m, In m (List.concat qs) -> In m (flex_ms F)).
    { intros m Hm. rewrite flex_ms_eq by exact L3. unfold qs in Hm. rewrite concat_app, concat_singles in Hm. apply in_app_or in Hm. apply in_or_app. destruct Hm as [Hm|Hm]; [left; now apply filter_empty_in in Hm|right]. clear - Am Hm. induction Am as [|g c gs cs [S1 _] Am IH]; [destruct Hm|]. cbn [List.concat map] in *. apply in_app_or in Hm. apply in_or_app. destruct Hm as [Hm|Hm]; [left; now apply (subseq_incl _ _ S1)|right; auto]. }
    assert (Mn : forall m, In m (flex_ms F) -> old_class (str m) = None).
    { intros m Hm. destruct (flex_leaf_ok F (PFlex m None, m) G) as [(_ & _ & _ & O) _]; [apply in_map_iff; eauto|exact O]. }
    assert (Ps : pok (mk_pm d [])) by (apply mk_pm_ok; [exact Nd|constructor]).
    split; [|split; [reflexivity|split; [exists d; auto|]]].
    + split; [split; [exists d, []; auto|]|].
      * split; [exact Ps|]. split; [|constructor]. unfold unmarked. cbn [mk_pm groups map sort flat_map]. rewrite app_nil_r. unfold printed. rewrite fe_constant. apply Forall_forall. intros m Hm. apply Mn, Mf. now apply Md.
      * split; [cbn; lia|]. split; [constructor|]. unfold flex_parts. cbn [groups mk_pm map sort]. rewrite app_nil_r, fe_constant. apply cats_of.
        -- eapply Permutation_NoDup; [apply Permutation_map, Permutation_sym, sort_perm|]. now apply NoDup_map_filter.
        -- intros m Hm. destruct (Md m Hm) as [Hc _]. apply in_concat in Hc. destruct Hc as (q & Hq & Hc). destruct (F2_in_r _ _ _ q Fq Hq) as (t & _ & R1 & R2). eauto.
        -- intros t m m' Ht Hm Hm' R R'. f_equal. apply (root_unique cats qs t m m'); auto; now apply Md.
    + cbn [mk_pm constant]. destruct (isort (filter_empty d)) as [|x l] eqn:E; [|intros m Hm; now apply Mf, Md].
      intros m [<-|[]]. rewrite flex_ms_eq by exact L3. apply in_or_app. left. destruct K as [K|[K Kf]]; [rewrite K; now left|]. exfalso. destruct (constant F) as [|c l] eqn:Ec; [congruence|]. apply Forall_cons_iff in Kf. destruct Kf as [Kf _].
      assert (H : In (str c) (map str d)) by (apply Dc, in_or_app; right; now left). apply in_map_iff in H. destruct H as (c' & E' & Hc'). apply Forall_cons_iff in K1. rewrite Forall_forall in Nd. assert (Em : is_empty c' = false) by (rewrite <- Kf; apply is_empty_str; [now apply nf_wf, Nd|apply nf_wf; tauto|exact E']).
      assert (Hi : In c' (isort (filter_empty d))) by (apply (Permutation_in _ (Permutation_sym (sort_perm _ _))); now apply filter_empty_in). rewrite E in Hi. destruct Hi.
Qed.

Lemma insert_map {A B} (lt1 : A -> A -> bool) (lt2 : B -> B -> bool) (h : A -> B) : (forall a b, lt2 (h a) (h b) = lt1 a b) -> forall a l, insert lt2 (h a) (map h l) = map h (insert lt1 a l).
Proof. intros H a l. induction l as [|b l IH]; [reflexivity|]. cbn [map insert]. rewrite H. destruct (lt1 b a); [cbn [map]; now rewrite IH|reflexivity]. Qed.
Lemma sort_map {A B} (lt1 : A -> A -> bool) (lt2 : B -> B -> bool) (h : A -> B) : (forall a b, lt2 (h a) (h b) = lt1 a b) -> forall l, sort lt2 (map h l) = map h (sort lt1 l).
Proof. intros H l. induction l as [|a l IH]; [reflexivity|]. cbn [map sort]. rewrite IH. now apply insert_map. Qed.
Lemma sort_by_map {A B} wl (h : A -> B) (f : B -> res usl) l l' : sort_by wl (fun x => f (h x)) l = Ok l' -> sort_by wl f (map h l) = Ok (map h l').
Proof.
  unfold sort_by. assert (M : mapM f (map h l) = mapM (fun x => f (h x)) l) by (induction l as [|z l IH]; [reflexivity|]; cbn [map]; now rewrite !mapM_step, IH). rewrite M. destruct (mapM (fun x => f (h x)) l) as [ks|]; [|discriminate]. cbn [bind]. intros E. apply Ok_inj in E. f_equal. rewrite <- E.
  assert (C : combine ks (map h l) = map (fun e => (fst e, h (snd e))) (combine ks l)) by (clear; revert l; induction ks as [|k ks IH]; intros [|z l]; cbn; try reflexivity; now rewrite IH). rewrite C, (sort_map (fun a b => usl_lt wl (fst a) (fst b))) by reflexivity. rewrite !map_map. reflexivity.
Qed.

Lemma mapM_then {A B C} (f : A -> res B) (g : A -> res C) (h : B -> C) l ys : (forall x y, In x l -> f x = Ok y -> g x = Ok (h y)) -> mapM f l = Ok ys -> mapM g l = Ok (map h ys).
Proof.
  revert ys. induction l as [|x l IH]; intros ys H E; [injection E as <-; reflexivity|]. rewrite mapM_step in E. rewrite mapM_step. destruct (f x) as [y|] eqn:Fx; [|discriminate]. cbn [bind] in E. destruct (mapM f l) as [r|]; [|discriminate]. injection E as <-.
  rewrite (H x y (or_introl eq_refl) Fx). cbn [bind]. rewrite (IH r); [reflexivity| |reflexivity]. intros z w Hz. apply H. now right.
Qed.
Lemma dims_gen po (f : gidx -> path) (Js : list gidx) ps : (forall l, Permutation (po l) l) -> NoDup Js -> (forall g h, In g Js -> In h Js -> path_str (f g) = path_str (f h) -> g = h) ->
  (forall p, In p ps -> exists g, In g Js /\ p = f g) -> (forall g, In g Js -> In (f g) ps) -> exists J', Permutation J' Js /\ po (dedup path_eqb ps) = map f J'.
Proof.
  intros PO NJ Inj H1 H2. set (L := po (dedup path_eqb ps)). assert (P : Permutation L (dedup path_eqb ps)) by apply PO.
  assert (M : forall p, In p L -> exists g, In g Js /\ p = f g) by (intros p Hp; apply (Permutation_in _ P) in Hp; apply dedup_in in Hp; auto).
  assert (N : NoDup (map path_str L)).
  { eapply Permutation_NoDup; [apply Permutation_map, Permutation_sym; exact P|]. pose proof (SortProofs.dedup_distinct path_eqb path_sym ps) as D. clear - D. induction D as [|x l Hx D IH]; constructor; [|exact IH]. intros H. apply in_map_iff in H. destruct H as (y & E & Hy). rewrite Forall_forall in Hx. specialize (Hx y Hy). unfold path_eqb in Hx. rewrite E, String.eqb_refl in Hx. discriminate. }
  assert (E : exists J', L = map f J' /\ incl J' Js).
  { clear - M. induction L as [|p L IH]; [exists []; split; [reflexivity|intros x []]|]. destruct IH as (J' & -> & I); [intros q Hq; apply M; now right|]. destruct (M p (or_introl eq_refl)) as (g & Hg & ->). exists (g :: J'). split; [reflexivity|]. intros x [<-|Hx]; auto. }
  destruct E as (J' & E & I). exists J'. split; [|exact E]. rewrite E in N. rewrite map_map in N. apply NoDup_Permutation; [now apply NoDup_map_inv in N|exact NJ|]. intros g. split; [apply I|]. intros Hg.
  destruct (SortProofs.dedup_complete path_eqb path_refl ps _ (H2 g Hg)) as (p & Hp & Ep). apply (Permutation_in _ (Permutation_sym P)) in Hp. rewrite E in Hp. apply in_map_iff in Hp. destruct Hp as (h & <- & Hh). unfold path_eqb in Ep. apply String.eqb_eq in Ep. rewrite (Inj g h); auto.
Qed.

Lemma mapM_app_ok {A B} (f : A -> res B) l l' r r' : mapM f l = Ok r -> mapM f l' = Ok r' -> mapM f (l ++ l')%list = Ok (r ++ r')%list.
Proof.
  intros E E'. revert r E. induction l as [|a l IH]; intros r E; [injection E as <-; exact E'|]. cbn [app]. rewrite mapM_step in E |- *. destruct (f a) as [y|]; [|discriminate]. cbn [bind] in *. destruct (mapM f l) as [ys|]; [|discriminate]. injection E as <-. now rewrite (IH ys eq_refl).
Qed.
Lemma concat_nils {A} (l : list (list A)) : (forall e, In e l -> e = []) -> List.concat l = [].
Proof. induction l as [|a l IH]; intros H; [reflexivity|]. cbn. rewrite (H a (or_introl eq_refl)), IH; [reflexivity|]. intros e He. apply H. now right. Qed.

Lemma dedup_len {A} (eqb : A -> A -> bool) l : List.length (dedup eqb l) <= List.length l.
Proof.
  unfold dedup. generalize (@nil A) as seen. induction l as [|a l IH]; intros seen; [auto|]. cbn [dedup_aux List.length]. destruct (memb eqb a seen); [specialize (IH seen)|specialize (IH (a :: seen)); cbn [List.length]]; lia.
Qed.
Lemma made_group_full u gr m : made u -> In gr (groups u) -> In m (fst gr) -> is_empty m = false.
Proof.
  intros (c & g & _ & _ & ->) Hg Hm. cbn [mk_pm groups] in Hg. apply (Permutation_in _ (sort_perm _ _)) in Hg. apply in_map_iff in Hg. destruct Hg as (g0 & <- & _). cbn [fst] in Hm. apply (Permutation_in _ (sort_perm _ _)) in Hm. apply filter_In in Hm. now apply negb_true_iff.
Qed.
Lemma flex_empty F m : flex_good F -> In m (flex_ms F) -> is_empty m = true -> str m = "E:".
Proof.
  intros (Cl & L3 & _) Hm Em. rewrite flex_ms_eq in Hm by exact L3. apply in_app_or in Hm. destruct Hm as [Hm|Hm].
  - destruct (clean_ok F Cl) as [_ [K|[_ K]]]; [rewrite K in Hm; destruct Hm as [<-|[]]; reflexivity|]. rewrite Forall_forall in K. specialize (K m Hm). congruence.
  - apply in_concat in Hm. destruct Hm as (l & Hl & Hm). apply in_map_iff in Hl. destruct Hl as (g & <- & Hg). rewrite (made_group_full F g m (proj1 Cl) Hg Hm) in Em. discriminate.
Qed.
(** Every morpheme of a flexion that is not empty occurs in one of its singular sequences. *)
Lemma flex_covered so F m : set_order so -> flex_good F -> groups F = [] \/ List.length (constant F) <= 4 -> In m (flex_ms F) -> is_empty m = false ->
  exists s m', In s (pm_ss so F) /\ In m' (constant s) /\ str m' = str m.
Proof.
  intros SO G Sm Hm Em. pose proof G as (Cl & L3 & Gg & _). pose proof (clean_ok F Cl) as K. rewrite flex_ms_eq in Hm by exact L3.
  destruct (groups F) as [|g0 gs0] eqn:Gs.
  - exists F, m. unfold pm_ss. rewrite Gs. split; [now left|]. split; [|reflexivity]. cbn in Hm. now rewrite app_nil_r in Hm.
  - assert (NE : groups F <> []) by now rewrite Gs. rewrite <- Gs in *. destruct Sm as [Sm|Sm]; [congruence|]. destruct K as [[K1 K2] K]. rewrite pm_ss_groups by auto.
    destruct (traits_spec so (groups F) (constant F) SO NE K2 K1) as (_ & X2 & X3).
    assert (Nm : nf m). { apply in_app_or in Hm. destruct Hm as [Hm|Hm]; [rewrite Forall_forall in K1; auto|]. apply in_concat in Hm. destruct Hm as (l & Hl & Hm). apply in_map_iff in Hl. destruct Hl as (g & <- & Hg). rewrite Forall_forall in K2. specialize (K2 g Hg). unfold gok in K2. rewrite Forall_forall in K2. auto. }
    assert (C : exists cs, Forall2 (fun g c => subseq c (fst g) /\ List.length c <= 1) (groups F) cs /\ List.length (List.concat cs) <= 1 /\ In m (List.concat cs ++ constant F)).
    { apply in_app_or in Hm. destruct Hm as [Hm|Hm].
      - exists (map (fun _ => []) (groups F)). split; [|split].
        + clear. induction (groups F) as [|g gs IH]; cbn [map]; [constructor|]. constructor; [split; [apply sub_nil|cbn; lia]|exact IH].
        + rewrite concat_nils; [cbn; lia|]. intros e He. apply in_map_iff in He. destruct He as (? & <- & _). reflexivity.
        + apply in_or_app. now right.
      - assert (Y : exists cs, Forall2 (fun g c => subseq c (fst g) /\ List.length c <= 1) (groups F) cs /\ List.concat cs = [m]).
        { revert Hm. clear. induction (groups F) as [|g gs IH]; intros Hm; [destruct Hm|]. cbn [map List.concat] in Hm. apply in_app_or in Hm. destruct Hm as [Hm|Hm].
          - exists ([m] :: map (fun _ => []) gs). split; [constructor; [split; [now apply subseq_one|cbn; lia]|]|].
            + clear. induction gs as [|g gs IH]; cbn [map]; [constructor|]. constructor; [split; [apply sub_nil|cbn; lia]|exact IH].
            + cbn [List.concat]. rewrite concat_nils; [reflexivity|]. intros e He. apply in_map_iff in He. destruct He as (? & <- & _). reflexivity.
          - destruct (IH Hm) as (cs & Fc & E). exists ([] :: cs). split; [constructor; [split; [apply sub_nil|cbn; lia]|exact Fc]|exact E]. }
        destruct Y as (cs & Fc & E). exists cs. split; [exact Fc|]. rewrite E. split; [cbn; lia|now left]. }
    destruct C as (cs & Fc & Lc & Hc).
    assert (Pk : picks (groups F) cs).
    { exists 0. split; [apply Forall_forall; intros; split; lia|]. assert (Fc' : Forall2 (fun g c => snd g = 1 /\ subseq c (fst g) /\ List.length c <= 1) (groups F) cs).
      { revert Gg. clear - Fc. induction Fc as [|g c gs cs H Fc IH]; intros Gg; constructor; [apply Forall_cons_iff in Gg; tauto|]. apply IH. now apply Forall_cons_iff in Gg. }
      eapply Forall2_in_impl; [|exact Fc']. cbn. intros g c _ (E & S1 & L). split; [exact S1|]. destruct c as [|y [|z c]]; [now left|right; split; [reflexivity|left; lia]|cbn in L; lia]. }
    pose proof (dedup_distinct_of (List.concat cs ++ constant F)) as D. set (d := dedup script_eqb (List.concat cs ++ constant F)) in *.
    pose proof (distinct_nf (groups F) cs (constant F) d K2 K1 Pk D) as Nd.
    assert (Hd : exists m0, In m0 d /\ str m0 = str m) by (destruct D as (_ & _ & D); specialize (D m Hc); apply in_map_iff in D; destruct D as (m0 & E0 & H0); eauto).
    destruct Hd as (m0 & H0 & E0). rewrite Forall_forall in Nd. assert (Em0 : is_empty m0 = false) by (rewrite <- Em; apply is_empty_str; auto using nf_wf).
    assert (B : In (pm_str (mk_pm d [])) (map pm_str (traits so (groups F) (constant F)))).
    { apply X2. exists cs. split; [exact Pk|]. exists d. split; [exact D|]. split; [|reflexivity]. split; [destruct d; [destruct H0|cbn; lia]|]. pose proof (dedup_len script_eqb (List.concat cs ++ constant F)) as Ld. fold d in Ld. rewrite app_length in Ld. lia. }
    apply in_map_iff in B. destruct B as (s & Es & Hs). exists s.
    assert (Ps : pok s). { destruct (X3 s Hs) as (cs' & d' & K' & D' & _ & ->). apply mk_pm_ok; [|constructor]. now apply (distinct_nf (groups F) cs' (constant F)). }
    apply pm_str_key in Es; [|exact Ps|apply mk_pm_ok; [now apply Forall_forall|constructor]]. unfold pkey in Es. assert (Ec : map str (constant s) = map str (constant (mk_pm d []))) by congruence.
    assert (Hk : In (str m) (map str (constant s))).
    { rewrite Ec, <- E0. apply in_map. cbn [mk_pm constant]. assert (Hi : In m0 (isort (filter_empty d))) by (apply (Permutation_in _ (Permutation_sym (sort_perm _ _))); now apply filter_empty_in). destruct (isort (filter_empty d)); [destruct Hi|exact Hi]. }
    apply in_map_iff in Hk. destruct Hk as (m' & E' & H'). exists m'. auto.
Qed.

Lemma flex_some so F : set_order so -> flex_good F -> groups F = [] \/ List.length (constant F) <= 4 -> pm_ss so F <> [].
Proof.
  intros SO G Sm E. pose proof G as (Cl & L3 & Gg & _). destruct (groups F) as [|g gs] eqn:Gs.
  - unfold pm_ss in E. rewrite Gs in E. discriminate.
  - apply Forall_cons_iff in Gg. destruct Gg as [(_ & L & _) _]. destruct (fst g) as [|m l] eqn:Eg; [cbn in L; lia|]. assert (Hg : In g (groups F)) by (rewrite Gs; now left). rewrite <- Gs in *. assert (Hm : In m (fst g)) by (rewrite Eg; now left).
    destruct (flex_covered so F m SO G Sm) as (s & _ & Hs & _); [|now apply (made_group_full F g m (proj1 Cl))|rewrite E in Hs; destruct Hs].
    rewrite flex_ms_eq by exact L3. apply in_or_app. right. apply in_concat. exists (fst g). split; [now apply in_map|exact Hm].
Qed.

Section Lex.
  Variable so : list script -> list script.
  Variable po : list path -> list path.
  Variable wl : word -> word -> bool.
  Hypothesis SO : set_order so.
  Hypothesis PO : forall l, Permutation (po l) l.
  Variable x : lexeme.
  Notation F := (pm_flexion x).
  Notation u := (pm_content x).
  Hypothesis GF : flex_good F.
  Hypothesis G : pm_good u.
  Hypothesis NR : no_repetition u.
  (** whether the path of the rows is given *)
  Variable hb : bool.
  Definition lrows : option path := if hb then Some LC else None.
  Notation inJ' := (inJ u Constant None).
  Notation parts := (row_parts u Constant None).
  Notation KK := (Ku u).
  Definition consts (d : list script) : list (gidx * script) := map (pair Constant) d.
  Definition cellc (d : list script) : pm := mk_pm (constant u ++ d) [].

  (** ** Parts of the builder *)
  Lemma rest0 : rest_groups u (gidx_eqb Constant) = [].
  Proof. unfold rest_groups. cbn [flat_map gidx_eqb]. destruct (groups_at u Group0), (groups_at u Group1), (groups_at u Group2); reflexivity. Qed.
  Lemma places0 : places u (gidx_eqb Constant) = consts (constant u).
  Proof. unfold places. cbn [filter gidx_eqb flat_map ms]. apply app_nil_r. Qed.
  Lemma inJ_group g : inJ' g = true -> g <> Constant /\ gidx_eqb Constant g = false.
  Proof. intros H. apply inJ_in in H. apply J_ok in H; [|exact Logic.I]. destruct H as [H _]. split; [exact H|]. destruct g; congruence || reflexivity. Qed.
  Lemma content_build d l : choice u inJ' d -> (forall e, In e l <-> In e (consts (constant u)) \/ In e (consts d)) ->
    exists p, usl_of_list so (map (itm nobare KK) l) = Ok (UPm p) /\ pok p /\ pm_str p = pm_str (cellc d) /\ Forall (place_ok KK) l /\ l <> [].
  Proof.
    intros C M. destruct (cell_ok so SO u G NR (gidx_eqb Constant) eq_refl inJ' d l C) as (p & E & Po & _ & T).
    - intros g Hg. now apply inJ_group.
    - rewrite places0. exact M.
    - exists p. split; [exact E|]. split; [exact Po|]. split; [rewrite T, rest0; reflexivity|]. split.
      + apply Forall_forall. intros [g m] He. apply M in He. destruct He as [He|He].
        * rewrite <- places0 in He. now apply (place_ok_u u G (gidx_eqb Constant)).
        * apply in_map_iff in He. destruct He as (y & Ey & Hy). injection Ey as <- <-. destruct (choice_old u G inJ' d y C Hy) as [A B]. split; [exact A|]. split; [exact B|]. cbn. congruence.
      + intros ->. destruct G as ((_ & ((_ & K) & _)) & _). destruct (constant u) as [|c cs] eqn:Ec; [destruct K as [K|[K _]]; congruence|]. apply (proj2 (M (Constant, c))). left. now left.
  Qed.
  Lemma choice0 : choice u inJ' []. Proof. split; [constructor|]. split; [constructor|]. intros m []. Qed.
  Lemma cellc_ok d : Forall nf d -> pok (cellc d).
  Proof. intros Fd. apply mk_pm_ok; [|constructor]. apply Forall_app. split; [apply (ms_nf u G Constant)|exact Fd]. Qed.
  Lemma empty_ok : pok (mk_pm [] []). Proof. apply mk_pm_ok; constructor. Qed.
  Lemma flex_named m : In m (flex_ms F) -> named m.
  Proof. intros Hm. destruct (flex_leaf_ok F (PFlex m None, m) GF) as [(_ & _ & N & O) _]; [apply in_map_iff; eauto|]. split; assumption. Qed.
  Lemma flex_nf l : Forall named l -> Forall nf l. Proof. apply Forall_impl. intros m [N _]. exact N. Qed.
  Lemma uniq_nf l : Forall nf l -> Forall nf (uniq (map (P so) l)).
  Proof. intros Fl. destruct (uniq_spec (map (P so) l)) as (_ & _ & I). apply Forall_forall. intros m Hm. apply I in Hm. pose proof (Forall_P so SO l Fl) as FP. rewrite Forall_forall in FP. auto. Qed.
  Lemma flexion_uniq l s : flex_good s -> Forall nf l -> (forall t, t <> "E:" -> In t (map str l) <-> In t (map str (flex_ms s))) ->
    pok (flexion_of (uniq (map (P so) l))) /\ pm_str (flexion_of (uniq (map (P so) l))) = pm_str s.
  Proof.
    intros Gs Fl M. destruct (flexion_rebuilt so SO s Gs) as [K E]. assert (Fs : Forall nf (flex_ms s)).
    { apply Forall_forall. intros m Hm. destruct (flex_leaf_ok s (PFlex m None, m) Gs) as [(_ & _ & N & _) _]; [apply in_map_iff; eauto|exact N]. }
    split; [now apply flexion_made, uniq_nf|]. rewrite <- E. apply flexion_text; [now apply uniq_nf|now apply Forall_P|]. intros t Ht. destruct (uniq_spec (map (P so) l)) as (_ & U & _). rewrite U, !(map_str_P so SO) by auto. now apply M.
  Qed.
  Lemma flex_flat s : groups s = [] -> flex_ms s = constant s.
  Proof. intros E. rewrite flex_ms_eq by (rewrite E; cbn; lia). rewrite E. cbn. apply app_nil_r. Qed.
  Lemma column_good s : In s (pm_ss so F) -> pok s /\ groups s = [] /\ flatpm s /\ constant s <> [] /\ Forall named (constant s) /\ (forall m, In m (constant s) -> In m (flex_ms F)) /\
    pok (flexion_of (uniq (map (P so) (constant s)))) /\ pm_str (flexion_of (uniq (map (P so) (constant s)))) = pm_str s.
  Proof.
    intros Hs. destruct (flex_ss so F s SO GF Hs) as (Gs & E & Fl & I). pose proof (clean_ok s (proj1 Gs)) as K. assert (N : Forall named (constant s)) by (apply Forall_forall; intros m Hm; now apply flex_named, I).
    split; [exact K|]. split; [exact E|]. split; [exact Fl|]. split; [destruct K as [_ [K|[K _]]]; [rewrite K; discriminate|exact K]|]. split; [exact N|]. split; [exact I|]. apply flexion_uniq; [exact Gs|now apply flex_nf|]. intros t _. now rewrite flex_flat.
  Qed.

  (** ** Paths *)
  Lemma lex_items : items (ULexeme x) = Ok (lex_leaves x).
  Proof.
    unfold items. cbn [iter_by_script iter_path bind]. rewrite iter_lexeme_leaves. induction (lex_leaves x) as [|e l IH]; [reflexivity|]. cbn [map]. rewrite mapM_step. cbn [U snd fst bind]. rewrite IH. destruct e; reflexivity.
  Qed.
  Definition lconst : list (path * script) := if hb then [] else CI KK (consts (constant u)).
  Lemma lex_leaves_eq : lex_leaves x = (map (fun m => (PLex Flexion (Some (PFlex m None)), m)) (flex_ms F) ++ CI KK (places u (fun _ => true)))%list.
  Proof. unfold lex_leaves, under_, flex_leaves, CI. rewrite map_map, leaves_places. reflexivity. Qed.
  Lemma lconst_ok : constant_paths (ULexeme x) LF lrows = Ok lconst.
  Proof.
    unfold constant_paths. rewrite lex_items. cbn [bind]. rewrite lex_leaves_eq.
    match goal with |- bind (mapM ?f ?l) _ = _ => destruct (keep_filter f (fun e => match fst e with PLex Content (Some (PPoly g _ _ _)) => (negb hb && gidx_eqb g Constant)%bool | _ => false end) l) as (ks & E & Fk) end.
    - intros e He. apply in_app_or in He. destruct He as [He|He].
      + apply in_map_iff in He. destruct He as (m & <- & _). unfold lrows. destruct hb; reflexivity.
      + unfold CI in He. rewrite map_map in He. apply in_map_iff in He. destruct He as ([g m] & <- & _). unfold lrows. destruct hb, g; reflexivity.
    - rewrite E. cbn [bind]. rewrite Fk. f_equal. rewrite filter_app, (filter_none _ (map _ (flex_ms F))) by (intros e He; apply in_map_iff in He; destruct He as (m & <- & _); reflexivity). cbn [app].
      unfold lconst. destruct hb; cbn [negb andb].
      + apply filter_none. intros e He. unfold CI in He. rewrite map_map in He. apply in_map_iff in He. destruct He as ([g m] & <- & _). destruct g; reflexivity.
      + rewrite <- places0. unfold CI. rewrite <- (places_filter u (gidx_eqb Constant)). clear. induction (places u (fun _ => true)) as [|[g m] l IH]; [reflexivity|]. cbn [map filter fst]. unfold lower at 1. cbn [fst itm]. cbn [fst] in IH. rewrite IH. destruct g; reflexivity.
  Qed.

  (** ** The columns *)
  Definition kc : pm := if hb then mk_pm [] [] else cellc [].
  Lemma kc_ok : pok kc. Proof. unfold kc. destruct hb; [apply empty_ok|apply cellc_ok; constructor]. Qed.
  Lemma lcolumns_ok : exists S, Permutation S (pm_ss so F) /\ column_paths_variation so wl (ULexeme x) LF lrows = Ok (map (fun s => FI (constant s)) S) /\
    StronglySorted (fun s t => lexeme_lt {| pm_flexion := t; pm_content := kc |} {| pm_flexion := s; pm_content := kc |} = false) S.
  Proof.
    unfold column_paths_variation. assert (D : element LF (ULexeme x) = Ok (UPm F)) by reflexivity. rewrite D. cbn [bind]. rewrite items_leaves. cbn [bind].
    set (named_ := map (fun e => (snd e, match fst e with PPoly g _ k c => PPoly g None k c | p => p end)) (leaves F)).
    assert (E1 : mapM (fun e => do p <- without_morpheme (fst e); Ok (snd e, p)) (leaves F) = Ok named_).
    { unfold named_. assert (X : forall e, In e (leaves F) -> exists g m k, fst e = PPoly g m k None) by (intros e He; apply leaves_in in He; destruct He as (g & k & -> & _); eauto). clear - X.
      induction (leaves F) as [|e l IH]; [reflexivity|]. rewrite mapM_step, IH by (intros z Hz; apply X; now right). destruct (X e (or_introl eq_refl)) as (g & m & k & E). cbn [map]. rewrite E. reflexivity. }
    rewrite E1. cbn [bind sequences usl_ss].
    assert (E2 : mapM (fun s => do its <- items s; mapM (fun e => do q <- last_of (snd e) named_; do p <- concat LF q false; Ok (p, snd e)) its) (map UPm (pm_ss so F)) = Ok (map (fun s => FI (constant s)) (pm_ss so F))).
    { assert (X : forall l, incl l (pm_ss so F) -> mapM (fun s => do its <- items s; mapM (fun e => do q <- last_of (snd e) named_; do p <- concat LF q false; Ok (p, snd e)) its) (map UPm l) = Ok (map (fun s => FI (constant s)) l)); [|apply X, incl_refl].
      induction l as [|s l IH]; intros Hl; [reflexivity|]. cbn [map]. rewrite mapM_step, items_leaves. assert (Hs : In s (pm_ss so F)) by (apply Hl; now left). destruct (column_good s Hs) as (_ & Es & _ & _ & _ & I & _). rewrite flat_leaves by auto. cbn [bind].
      assert (Y : forall d, incl d (constant s) -> mapM (fun e => do q <- last_of (snd e) named_; do p <- concat LF q false; Ok (p, snd e)) (map (fun m => (PPoly Constant (Some m) None None, m)) d) = Ok (FI d)).
      { induction d as [|m d IHd]; intros Hd; [reflexivity|]. cbn [map]. rewrite mapM_step. cbn [snd].
        destruct (last_of_in m named_) as (e & He & Ee).
        { assert (Hm : In m (flex_ms F)) by (apply I, Hd; now left). unfold flex_ms in Hm. apply in_map_iff in Hm. destruct Hm as (e & <- & He). eexists. split; [apply in_map_iff; exists e; split; [reflexivity|exact He]|reflexivity]. }
        rewrite Ee. cbn [bind]. apply in_map_iff in He. destruct He as (e' & <- & He'). apply leaves_in in He'. destruct He' as (g & k & Eg & _). rewrite Eg. cbn [snd].
        assert (Cn : concat LF (PPoly g None k None) false = Ok LF) by reflexivity. rewrite Cn. cbn [bind]. rewrite IHd by (intros z Hz; apply Hd; now right). reflexivity. }
      rewrite Y by apply incl_refl. cbn [bind]. rewrite IH by (intros z Hz; apply Hl; now right). reflexivity. }
    rewrite E2. cbn [bind].
    assert (CO : forall s, constants_of (FI (constant s)) = Ok (FI (constant s))).
    { intros s. unfold constants_of, FI. induction (constant s) as [|m l IH]; [reflexivity|]. cbn [map]. rewrite mapM_step, IH. reflexivity. }
    match goal with |- context [sort_by wl ?f ?l] => destruct (sort_lex_keys wl (fun s => f (FI (constant s))) (fun s => {| pm_flexion := s; pm_content := kc |}) (pm_ss so F)) as (l' & E3 & P & SS) end.
    - intros s Hs. destruct (column_good s Hs) as (Po & _ & _ & Ne & Nm & _ & Pf & Ef). split; [split; [exact Po|exact kc_ok]|]. rewrite CO. cbn [bind]. rewrite lconst_ok. cbn [bind]. unfold lconst, kc. destruct hb.
      + rewrite app_nil_r, lex_build_flexion by auto. eexists. split; [reflexivity|]. split; [split; [exact Pf|apply empty_ok]|]. apply lexeme_str_key; [split; [exact Pf|apply empty_ok]|split; [exact Po|apply empty_ok]|]. cbn [pm_flexion pm_content]. auto.
      + destruct (content_build [] (consts (constant u)) choice0) as (p & Ep & Pp & Tp & Fp & Np); [intros e; cbn; tauto|].
        pose proof (lex_build so SO KK [] (constant s) (consts (constant u)) p Ne Np Nm Fp Ep) as B. cbn [CI map app] in B. rewrite B. eexists. split; [reflexivity|].
        assert (Kc : pok (cellc [])) by (apply cellc_ok; constructor). split; [split; [exact Pf|exact Pp]|]. apply lexeme_str_key; [split; [exact Pf|exact Pp]|split; [exact Po|exact Kc]|]. cbn [pm_flexion pm_content]. auto.
    - exists l'. split; [exact P|]. split; [|exact SS]. exact (sort_by_map wl (fun s => FI (constant s)) _ _ _ E3).
  Qed.

  (** ** The dimensions of the rows *)
  Definition lpath (g : gidx) : path := PLex Content (Some (match g with Constant => PPoly Constant None None None | _ => gpath u g end)).
  Notation Js := (J u Constant None).
  Lemma lpath_item g m : without_morpheme (fst (lower (itm nobare KK (g, m)))) = Ok (lpath g) /\ (do p <- without_morpheme (fst (itm nobare KK (g, m))); concat LC p false) = Ok (lpath g) /\ without_morpheme (lpath g) = Ok (lpath g) /\ has_prefix (lpath g) (Some LF) = Ok false.
  Proof. destruct g; repeat split; reflexivity. Qed.
  Lemma lpath_size g m : In (g, m) (places u (fun _ => true)) -> exists y n, element (lpath g) (ULexeme x) = Ok y /\ size so y = Ok n /\ Nat.eqb n 1 = gidx_eqb Constant g.
  Proof.
    intros H. apply places_in in H. destruct H as [_ Hm]. destruct (gidx_eqb Constant g) eqn:E.
    - apply gidx_eqb_eq in E. subst g. exists (UPm (mk_pm (constant u) [])), 1. repeat split; reflexivity.
    - assert (Hc : g <> Constant) by (intros ->; discriminate). destruct (ms_group u g) as (gr & Eg); [intros X; rewrite X in Hm; destruct Hm|exact Hc|]. destruct (one_deref u g gr Eg) as [D _]. destruct (size_one so SO u G g gr Eg) as (n & En & Nn).
      exists (UPm (one u g)), n. split; [|split; [exact En|exact Nn]]. rewrite <- D. destruct g; [congruence|reflexivity..].
  Qed.
  Definition ldims (e : gidx * script) : list (path * bool) := if gidx_eqb Constant (fst e) then (if hb then [(lpath Constant, false)] else []) else [(lpath (fst e), true)].
  Lemma ldimensions_ok : dimensions so (ULexeme x) LF lrows = Ok (flat_map ldims (places u (fun _ => true))).
  Proof.
    unfold dimensions, lrows, ldims. destruct hb.
    - assert (D : element LC (ULexeme x) = Ok (UPm u)) by reflexivity. rewrite D. cbn [bind]. rewrite items_leaves. cbn [bind]. rewrite leaves_places.
      pose proof lpath_size as LS. revert LS. generalize (places u (fun _ => true)) as l. induction l as [|[g m] l IH]; intros LS; [reflexivity|]. cbn [map flat_map]. rewrite mapM_step, IH by (intros g' m' H; apply (LS g' m'); now right). clear IH.
      destruct (LS g m (or_introl eq_refl)) as (y & n & E1 & E2 & E3). destruct (lpath_item g m) as (_ & E0 & _). destruct (without_morpheme (fst (itm nobare KK (g, m)))) as [p|]; [|discriminate]. cbn [bind] in *. rewrite E0. cbn [bind]. rewrite E1. cbn [bind]. rewrite E2. cbn [bind]. rewrite E3. cbn [fst].
      destruct (gidx_eqb Constant g) eqn:Eg; [apply gidx_eqb_eq in Eg; subst g|]; reflexivity.
    - rewrite lex_items, lex_leaves_eq. cbn [bind].
      match goal with |- bind (mapM ?f (?a ++ ?b)) _ = _ => assert (A : mapM f a = Ok (map (fun _ => []) a)) end.
      { induction (flex_ms F) as [|m l IH]; [reflexivity|]. cbn [map]. rewrite mapM_step, IH. reflexivity. }
      match goal with |- bind (mapM ?f (?a ++ ?b)) _ = _ => assert (B : mapM f b = Ok (map (fun e => if gidx_eqb Constant (fst e) then [] else [(lpath (fst e), true)]) (places u (fun _ => true)))) end.
      { pose proof lpath_size as LS. revert LS. generalize (places u (fun _ => true)) as l. induction l as [|[g m] l IH]; intros LS; [reflexivity|]. unfold CI. cbn [map]. rewrite mapM_step. unfold CI in IH. rewrite IH by (intros g' m' H; apply (LS g' m'); now right). clear IH.
        destruct (LS g m (or_introl eq_refl)) as (y & n & E1 & E2 & E3). destruct (lpath_item g m) as (E0 & _ & E4 & E5). rewrite E0. cbn [bind]. rewrite E5. cbn [bind]. rewrite E1. cbn [bind]. rewrite E2. cbn [bind]. rewrite E3. cbn [fst]. destruct (gidx_eqb Constant g); [reflexivity|]. rewrite E4. reflexivity. }
      rewrite (mapM_app_ok _ _ _ _ _ A B). cbn [bind]. rewrite concat_app, (concat_nils (map _ (map _ (flex_ms F)))) by (intros l Hl; apply in_map_iff in Hl; destruct Hl as (? & <- & _); reflexivity). cbn [app]. now rewrite flat_map_concat_map.
  Qed.
  Lemma ldims_spec : UslTable.dims_of po false (flat_map ldims (places u (fun _ => true))) = (if hb then [lpath Constant] else []) /\ exists J', Permutation J' Js /\ UslTable.dims_of po true (flat_map ldims (places u (fun _ => true))) = map lpath J'.
  Proof.
    split.
    - unfold UslTable.dims_of. assert (Ne : exists c, In (Constant, c) (places u (fun _ => true))).
      { destruct G as ((_ & ((_ & K) & _)) & _). destruct (constant u) as [|c cs] eqn:Ec; [destruct K as [K|[K _]]; congruence|]. exists c. apply places_in. split; [reflexivity|]. cbn [ms]. rewrite Ec. now left. }
      assert (X : forall p, In p (map fst (filter (fun e => Bool.eqb (snd e) false) (flat_map ldims (places u (fun _ => true))))) <-> hb = true /\ p = lpath Constant).
      { intros p. rewrite in_map_iff. split.
        - intros (e & <- & He). apply filter_In in He. destruct He as [He Se]. apply in_flat_map in He. destruct He as ([g m] & _ & He). unfold ldims in He. cbn [fst] in He. destruct (gidx_eqb Constant g); [destruct hb; [|destruct He]|]; destruct He as [<-|[]]; [auto|discriminate].
        - intros (Eb & ->). destruct Ne as (c & Hc). exists (lpath Constant, false). split; [reflexivity|]. apply filter_In. split; [|reflexivity]. apply in_flat_map. exists (Constant, c). split; [exact Hc|]. unfold ldims. rewrite Eb. now left. }
      revert X. generalize (map fst (filter (fun e => Bool.eqb (snd e) false) (flat_map ldims (places u (fun _ => true))))) as l. intros l X. destruct hb.
      + assert (D : dedup path_eqb l = [lpath Constant]).
        { assert (I : forall p, In p (dedup path_eqb l) -> p = lpath Constant) by (intros p Hp; apply dedup_in in Hp; now apply X). pose proof (SortProofs.dedup_distinct path_eqb path_sym l) as DD. destruct (SortProofs.dedup_complete path_eqb path_refl l (lpath Constant)) as (p & Hp & _); [now apply X|].
          destruct (dedup path_eqb l) as [|a [|b r]]; [destruct Hp|f_equal; apply I; now left|]. exfalso. inversion DD as [|? ? Ha]; subst. apply Forall_cons_iff in Ha. destruct Ha as [Ha _]. rewrite (I a), (I b), path_refl in Ha by (cbn; auto). discriminate. }
        rewrite D. apply Permutation_length_1_inv. apply Permutation_sym, PO.
      + destruct l as [|p l]; [|exfalso; destruct (proj1 (X p) (or_introl eq_refl)); discriminate]. apply Permutation_nil. apply Permutation_sym, (PO []).
    - apply dims_gen; [exact PO|apply J_nodup; exact Logic.I| | |].
      + intros g h Hg Hh E. apply J_ok in Hg; [|exact Logic.I]. apply J_ok in Hh; [|exact Logic.I]. destruct Hg as (Hc & _), Hh as (Hc' & _). apply (f_equal (fun t => q_path (erase (plex 0 t)))) in E.
        rewrite !raw0_ok in E; [destruct g, h; try congruence; try reflexivity; discriminate E|destruct h; repeat constructor; congruence|destruct g; repeat constructor; congruence].
      + intros p Hp. apply in_map_iff in Hp. destruct Hp as (e & <- & He). apply filter_In in He. destruct He as [He Se]. apply in_flat_map in He. destruct He as ([g m] & Hm & He). unfold ldims in He. cbn [fst] in He. destruct (gidx_eqb Constant g) eqn:Eg.
        * destruct hb; [|destruct He]; destruct He as [<-|[]]; discriminate.
        * destruct He as [<-|[]]. exists g. split; [|reflexivity]. apply (proj2 (J_in u Constant None Logic.I g)). assert (Hc : g <> Constant) by (intros ->; discriminate). split; [exact Hc|]. apply places_in in Hm. destruct Hm as [_ Hm]. destruct (ms_group u g) as (gr & E); [intros X; rewrite X in Hm; destruct Hm|exact Hc|]. unfold has_group. now rewrite E.
      + intros g Hg. apply J_ok in Hg; [|exact Logic.I]. destruct Hg as (Hc & _ & gr & Eg). apply in_map_iff. exists (lpath g, true). split; [reflexivity|]. apply filter_In. split; [|reflexivity]. apply in_flat_map. pose proof (group_nonempty u G g gr Eg) as Ne. destruct (ms u g) as [|m l] eqn:Em; [congruence|].
        exists (g, m). split; [apply places_in; split; [reflexivity|rewrite Em; now left]|]. unfold ldims. cbn [fst]. destruct (gidx_eqb Constant g) eqn:E; [apply gidx_eqb_eq in E; congruence|now left].
  Qed.

  (** ** The rows *)
  Notation bare l := (map (itm barec KK) l).
  Lemma lby_pm_more ds v : (forall g, In g ds -> In g Js) -> by_pm (ULexeme x) [(LC, v)] (map lpath ds) = Ok [(LC, v ++ bare (flat_map (bv u) ds))%list].
  Proof.
    revert v. induction ds as [|g ds IH]; intros v H; [cbn; now rewrite app_nil_r|]. cbn [map by_pm]. destruct (J_ok u Constant None Logic.I g) as (Hc & _ & gr & Eg); [apply H; now left|].
    assert (S1 : split_tail (lpath g) = Ok (LC, gpath u g)) by (destruct g; [congruence|reflexivity..]). rewrite S1. cbn [bind]. destruct (one_deref u g gr Eg) as [D _]. assert (D' : element (lpath g) (ULexeme x) = Ok (UPm (one u g))) by (rewrite <- D; destruct g; [congruence|reflexivity..]). unfold gpath at 1. rewrite D'. cbn [bind]. rewrite items_leaves. cbn [bind]. rewrite bv_leaves by auto. cbn [extend]. change (path_eqb LC LC) with true. cbn [flat_map]. rewrite IH by (intros z Hz; apply H; now right).
    rewrite map_app, app_assoc. reflexivity.
  Qed.
  Lemma lby_pm ds : (forall g, In g ds -> In g Js) -> by_pm (ULexeme x) [] (map lpath ds) = Ok (match ds with [] => [] | _ => [(LC, bare (flat_map (bv u) ds))] end).
  Proof.
    destruct ds as [|g ds]; intros H; [reflexivity|]. cbn [map by_pm]. destruct (J_ok u Constant None Logic.I g) as (Hc & _ & gr & Eg); [apply H; now left|].
    assert (S1 : split_tail (lpath g) = Ok (LC, gpath u g)) by (destruct g; [congruence|reflexivity..]). rewrite S1. cbn [bind]. destruct (one_deref u g gr Eg) as [D _]. assert (D' : element (lpath g) (ULexeme x) = Ok (UPm (one u g))) by (rewrite <- D; destruct g; [congruence|reflexivity..]). unfold gpath at 1. rewrite D'. cbn [bind]. rewrite items_leaves. cbn [bind]. rewrite bv_leaves by auto. cbn [extend flat_map]. rewrite lby_pm_more by (intros z Hz; apply H; now right).
    rewrite map_app. reflexivity.
  Qed.
  Definition lowU (e : path * usl) : path * usl := (PLex Content (Some (fst e)), snd e).
  Lemma last_of_some m l q : last_of m l = Ok q -> exists e, In e l /\ q = snd e.
  Proof. unfold last_of. destruct (find _ (rev l)) as [e|] eqn:E; [|discriminate]. intros H. injection H as <-. apply find_some in E. exists e. split; [now apply in_rev|reflexivity]. Qed.
  Lemma variations_under v vs : variations_of so (PUsl None, bare v) = Ok vs -> variations_of so (LC, bare v) = Ok (map (map lowU) vs).
  Proof.
    unfold variations_of. destruct (usl_of_list so (bare v)) as [y|]; [|discriminate]. cbn [bind]. destruct (sequences so y) as [seqs|]; [|discriminate]. cbn [bind]. apply mapM_then. intros s r _. destruct (items s) as [its|]; [|discriminate]. cbn [bind]. apply mapM_then. intros e w _.
    destruct (last_of (snd e) (map (fun e => (snd e, fst e)) (bare v))) as [q|] eqn:E; [|discriminate]. cbn [bind]. apply last_of_some in E. destruct E as (z & Hz & ->). apply in_map_iff in Hz. destruct Hz as (z' & <- & Hz). apply in_map_iff in Hz. destruct Hz as ([g m] & <- & _). cbn [snd fst itm].
    intros H. match type of H with bind (concat _ ?q _) _ = _ => assert (X : concat (PUsl None) q false = Ok q /\ concat LC q false = Ok (PLex Content (Some q))) by (split; reflexivity); destruct X as [X1 X2]; rewrite X1 in H; rewrite X2 end. cbn [bind] in *. injection H as <-. reflexivity.
  Qed.
  Definition pre : list script := if hb then constant (mk_pm (constant u) []) else [].
  Definition lrow (s : pm) : list (path * script) := CI KK (consts (pre ++ parts s)).
  Lemma pre_in m : In m (pre ++ (if hb then [] else constant u)) <-> In m (constant u).
  Proof.
    unfold pre. destruct hb; [|reflexivity]. rewrite app_nil_r. destruct G as ((_ & ((_ & K) & _)) & _). cbn [mk_pm constant]. destruct K as [->|[K Kf]]; [reflexivity|].
    assert (Ef : filter_empty (constant u) = constant u) by (apply filter_true; intros y Hy; rewrite Forall_forall in Kf; now rewrite (Kf y Hy)). rewrite Ef. assert (P : Permutation (isort (constant u)) (constant u)) by apply sort_perm. destruct (isort (constant u)) as [|z l] eqn:E; [apply Permutation_nil in P; congruence|].
    split; intros H; [eapply Permutation_in; [exact P|exact H]|eapply Permutation_in; [apply Permutation_sym, P|exact H]].
  Qed.
  Lemma CI_app l l' : CI KK (l ++ l') = (CI KK l ++ CI KK l')%list. Proof. unfold CI. now rewrite !map_app. Qed.
  Lemma lrow_items v d : map snd v = map UScript d -> Forall (fun e => exists h, fst e = gpath u h) v ->
    exists l, mapM (fun e : path * usl => do its <- items (snd e); mapM (fun i => do p <- concat (fst e) (fst i) false; do p <- as_constant p (Some (snd i)); Ok (p, snd i)) its) ((if hb then [(lpath Constant, UPm (mk_pm (constant u) []))] else []) ++ map lowU v) = Ok l /\ List.concat l = CI KK (consts (pre ++ d)).
  Proof.
    intros E F. assert (X : exists l, mapM (fun e : path * usl => do its <- items (snd e); mapM (fun i => do p <- concat (fst e) (fst i) false; do p <- as_constant p (Some (snd i)); Ok (p, snd i)) its) (map lowU v) = Ok l /\ List.concat l = CI KK (consts d)).
    { revert d E F. induction v as [|[q y] v IH]; intros [|m d] E F; try discriminate; [exists []; split; reflexivity|]. cbn [map snd] in E. injection E as -> E. apply Forall_cons_iff in F. destruct F as [(h & Eh) F]. cbn [fst] in Eh. subst q. destruct (IH d E F) as (l & El & Ll).
      cbn [map]. rewrite mapM_step, El. eexists. split; [reflexivity|]. cbn [List.concat map app]. rewrite Ll. reflexivity. }
    destruct X as (l & El & Ll). unfold pre. destruct hb; [|exists l; auto]. cbn [app]. rewrite mapM_step, El. cbn [snd]. rewrite items_leaves, flat_leaves by reflexivity. cbn [bind fst].
    match goal with |- context [mapM ?f (map ?h ?c0)] => assert (Y : forall c, mapM f (map h c) = Ok (CI KK (consts c))) by (clear; induction c as [|m c IH]; [reflexivity|]; cbn [map]; rewrite mapM_step, IH; reflexivity); rewrite Y end.
    cbn [bind]. eexists. split; [reflexivity|]. cbn [List.concat]. rewrite Ll, <- CI_app. unfold consts. now rewrite map_app.
  Qed.
  Lemma as_constant_lrow d : mapM (fun e => do p <- as_constant (fst e) None; Ok (p, snd e)) (CI KK (consts d)) = Ok (CI KK (consts d)).
  Proof. induction d as [|m d IH]; [reflexivity|]. unfold CI, consts in *. cbn [map]. rewrite mapM_step, IH. reflexivity. Qed.
  Lemma constants_lrow d : constants_of (CI KK (consts d)) = Ok (CI KK (consts d)).
  Proof. unfold constants_of. induction d as [|m d IH]; [reflexivity|]. unfold CI, consts in *. cbn [map]. rewrite mapM_step, IH. reflexivity. Qed.
  (** what the constants and the row put together hold *)
  Definition lall (s : pm) : list (gidx * script) := (consts (pre ++ parts s) ++ (if hb then [] else consts (constant u)))%list.
  Lemma lall_in s e : In e (lall s) <-> In e (consts (constant u)) \/ In e (consts (parts s)).
  Proof.
    unfold lall, consts. rewrite map_app, !in_app_iff. destruct e as [g m]. pose proof (pre_in m) as PI. rewrite in_app_iff in PI.
    assert (X : forall d, In (g, m) (map (pair Constant) d) <-> g = Constant /\ In m d) by (intros d; rewrite in_map_iff; split; [intros (y & E & Hy); injection E as <- <-; auto|intros [-> H]; eauto]).
    destruct hb; rewrite !X; cbn [In] in *; tauto.
  Qed.
  Definition rgood (s : pm) : Prop := choice u inJ' (parts s) /\ flatpm s.
  Lemma rkey_ok s : rgood s -> lok {| pm_flexion := mk_pm [] []; pm_content := cellc (parts s) |}.
  Proof. intros [(Fd & _) _]. split; [apply empty_ok|now apply cellc_ok]. Qed.
  Lemma lconst_eq : lconst = CI KK (if hb then [] else consts (constant u)). Proof. unfold lconst. destruct hb; reflexivity. Qed.
  Lemma lrows_ok : exists S, Permutation (map pm_str S) (map pm_str (pm_ss so (rowpm u Constant None))) /\ Forall rgood S /\
    row_paths_variation so po wl (ULexeme x) LF lrows = Ok (map lrow S) /\ StronglySorted (fun s t => lexeme_lt {| pm_flexion := mk_pm [] []; pm_content := cellc (parts t) |} {| pm_flexion := mk_pm [] []; pm_content := cellc (parts s) |} = false) S.
  Proof.
    unfold row_paths_variation. rewrite ldimensions_ok. cbn [bind]. destruct ldims_spec as (F0 & J' & PJ & F1). rewrite F0, F1. rewrite lby_pm by (intros g Hg; eapply Permutation_in; [exact PJ|exact Hg]).
    assert (C0 : mapM (fun p => do y <- element p (ULexeme x); do l <- sequences so y; Ok (map (pair p) l)) (if hb then [lpath Constant] else []) = Ok (if hb then [[(lpath Constant, UPm (mk_pm (constant u) []))]] else [])) by (destruct hb; reflexivity).
    rewrite C0. cbn [bind]. assert (C1 : List.concat (if hb then [[(lpath Constant, UPm (mk_pm (constant u) []))]] else []) = (if hb then [(lpath Constant, UPm (mk_pm (constant u) []))] else [])) by (destruct hb; reflexivity). rewrite C1.
    assert (K : forall S0, Permutation (map pm_str S0) (map pm_str (pm_ss so (rowpm u Constant None))) -> Forall rgood S0 ->
      exists S, Permutation (map pm_str S) (map pm_str (pm_ss so (rowpm u Constant None))) /\ Forall rgood S /\
      sort_by wl (fun l => do l <- mapM (fun e => do p <- as_constant (fst e) None; Ok (p, snd e)) l; do c <- constant_paths (ULexeme x) LF lrows; usl_of_list so (l ++ c)%list) (map lrow S0) = Ok (map lrow S) /\
      StronglySorted (fun s t => lexeme_lt {| pm_flexion := mk_pm [] []; pm_content := cellc (parts t) |} {| pm_flexion := mk_pm [] []; pm_content := cellc (parts s) |} = false) S).
    { intros S0 PS FS.
      match goal with |- context [sort_by wl ?f (map lrow S0)] => destruct (sort_lex_keys wl (fun s => f (lrow s)) (fun s => {| pm_flexion := mk_pm [] []; pm_content := cellc (parts s) |}) S0) as (l' & E3 & P3 & SS) end.
      - intros s Hs. rewrite Forall_forall in FS. specialize (FS s Hs). split; [now apply rkey_ok|]. unfold lrow. rewrite as_constant_lrow. cbn [bind]. rewrite lconst_ok. cbn [bind]. rewrite lconst_eq, <- CI_app. fold (lall s).
        destruct (content_build (parts s) (lall s) (proj1 FS) (lall_in s)) as (p & Ep & Pp & Tp & Fp & Np). rewrite (lex_build_content so SO KK (lall s) p Np Fp Ep). eexists. split; [reflexivity|]. split; [split; [apply empty_ok|exact Pp]|].
        apply lexeme_str_key; [split; [apply empty_ok|exact Pp]|now apply rkey_ok|]. cbn [pm_flexion pm_content]. auto.
      - exists l'. split; [rewrite P3; exact PS|]. split; [apply Forall_forall; rewrite Forall_forall in FS; intros s Hs; apply FS; eapply Permutation_in; [exact P3|exact Hs]|]. split; [|exact SS]. exact (sort_by_map wl lrow _ _ _ E3). }
    destruct J' as [|g J'].
    - apply Permutation_nil in PJ. cbn [mapM bind product]. destruct (lrow_items [] []) as (l & El & Ll); [reflexivity|constructor|]. cbn [map] in El. cbn [List.concat]. rewrite El. cbn [bind mapM]. rewrite Ll.
      assert (Er : CI KK (consts (pre ++ [])) = lrow (rowpm u Constant None)) by (unfold lrow, row_parts; rewrite PJ; reflexivity). rewrite Er. apply (K [rowpm u Constant None]).
      + unfold pm_ss. assert (X : groups (rowpm u Constant None) = []); [|rewrite X; reflexivity]. unfold rowpm, row_groups, inJ. rewrite PJ. cbn [existsb flat_map]. destruct (groups_at u Group0), (groups_at u Group1), (groups_at u Group2); reflexivity.
      + constructor; [|constructor]. split; [|exists []; split; [constructor|]; unfold rowpm; f_equal; unfold row_groups, inJ; rewrite PJ; cbn [existsb flat_map]; destruct (groups_at u Group0), (groups_at u Group1), (groups_at u Group2); reflexivity]. unfold row_parts. rewrite PJ. apply choice0.
    - destruct (variations_ok so SO u G NR Constant None Logic.I (g :: J') PJ) as (p & vs & Ev & Po & Ep & N & Fv); [discriminate|]. rewrite mapM_step, (variations_under _ vs Ev). cbn [mapM bind]. rewrite product_one.
      assert (NJ : Js <> []) by (intros X; rewrite X in PJ; apply Permutation_sym, Permutation_nil in PJ; discriminate).
      assert (RP : forall s, parts s = constant s) by (intros s; unfold row_parts; destruct Js; [congruence|reflexivity]).
      match goal with |- context [mapM ?f (map (fun z => [z]) (map (map lowU) vs))] => assert (X : forall ss vs, Forall2 (fun s v => map snd v = map UScript (constant s) /\ Forall (fun e => exists h, fst e = gpath u h) v) ss vs -> mapM f (map (fun z => [z]) (map (map lowU) vs)) = Ok (map lrow ss)) end.
      { clear Fv Ev. induction 1 as [|s v ss vs' (A & B) _ IH]; [reflexivity|]. cbn [map]. rewrite mapM_step, IH. cbn [List.concat app]. rewrite app_nil_r. destruct (lrow_items v (constant s) A B) as (l & El & Ll). rewrite El. cbn [bind]. rewrite Ll. unfold lrow. rewrite RP. reflexivity. }
      rewrite (X _ _ Fv). cbn [bind]. apply (K (pm_ss so p)).
      + apply ss_text; auto. now apply rowpm_ok.
      + apply Forall_forall. intros s Hs. split; [rewrite RP; now apply (row_choice so SO u G Constant None p s)|now apply (ss_flatpm so p s)].
  Qed.

  (** ** The cells *)
  Definition la : list (gidx * script) := if hb then [] else consts (constant u).
  Lemma lcell_in s e : In e (la ++ consts (pre ++ parts s)) <-> In e (consts (constant u)) \/ In e (consts (parts s)).
  Proof. rewrite <- lall_in. unfold la, lall. rewrite !in_app_iff. tauto. Qed.
  Lemma lcols_constant S : column_paths_variation so wl (ULexeme x) LF lrows = Ok (map (fun s => FI (constant s)) S) -> column_paths_constant so wl (ULexeme x) LF lrows = Ok (map (fun s => FI (constant s)) S).
  Proof.
    intros E. unfold column_paths_constant. rewrite E. cbn [bind]. clear E. induction S as [|s S IH]; [reflexivity|]. cbn [map]. rewrite mapM_step, IH.
    assert (X : forall l, constants_of (FI l) = Ok (FI l)) by (unfold constants_of, FI; induction l as [|m l IHl]; [reflexivity|]; cbn [map]; rewrite mapM_step, IHl; reflexivity). now rewrite X.
  Qed.
  Lemma lrows_constant R : row_paths_variation so po wl (ULexeme x) LF lrows = Ok (map lrow R) -> row_paths_constant so po wl (ULexeme x) LF lrows = Ok (map lrow R).
  Proof.
    intros E. unfold row_paths_constant. rewrite E. cbn [bind]. clear E. induction R as [|s R IH]; [reflexivity|]. cbn [map]. rewrite mapM_step. unfold lrow at 1. rewrite constants_lrow. cbn [bind]. now rewrite IH.
  Qed.
  Definition lcell (c r : pm) : lexeme := {| pm_flexion := c; pm_content := cellc (parts r) |}.
  Definition shows (y : usl) (l : lexeme) : Prop := exists p, y = ULexeme p /\ lok p /\ lok l /\ lexeme_str p = lexeme_str l.
  Definition lcover : Prop := groups F = [] \/ List.length (constant F) <= 4.
  Lemma lex_table : exists C R cells hs, Permutation C (pm_ss so F) /\ Permutation (map pm_str R) (map pm_str (pm_ss so (rowpm u Constant None))) /\ Forall rgood R /\
    StronglySorted (fun s t => lexeme_lt {| pm_flexion := t; pm_content := kc |} {| pm_flexion := s; pm_content := kc |} = false) C /\
    StronglySorted (fun s t => lexeme_lt {| pm_flexion := mk_pm [] []; pm_content := cellc (parts t) |} {| pm_flexion := mk_pm [] []; pm_content := cellc (parts s) |} = false) R /\
    table_cells so po wl (ULexeme x) LF lrows = Ok cells /\ Forall2 (fun r l => Forall2 (fun c y => shows y (lcell c r)) C l) R cells /\
    table_rows so po wl (ULexeme x) LF lrows = Ok hs /\ (lcover -> Forall2 (fun r y => shows y (lcell F r)) R hs).
  Proof.
    destruct lcolumns_ok as (C & PC & EC & SC). destruct lrows_ok as (R & PR & FR & ER & SR).
    assert (A : exists cells, table_cells so po wl (ULexeme x) LF lrows = Ok cells /\ Forall2 (fun r l => Forall2 (fun c y => shows y (lcell c r)) C l) R cells).
    { unfold table_cells. rewrite (lrows_constant R ER). cbn [bind].
      match goal with |- context [mapM ?f (map lrow R)] => assert (Em : forall l, mapM f (map lrow l) = mapM (fun r => f (lrow r)) l) by (induction l as [|z l IH]; [reflexivity|]; cbn [map]; now rewrite !mapM_step, IH); rewrite Em; clear Em end.
      apply mapM_F2_ok. intros r Hr. rewrite (lcols_constant C EC). cbn [bind].
      match goal with |- context [mapM ?f (map ?h C)] => assert (Em : forall l, mapM f (map h l) = mapM (fun r => f (h r)) l) by (induction l as [|z l IH]; [reflexivity|]; cbn [map]; now rewrite !mapM_step, IH); rewrite Em; clear Em end.
      apply mapM_F2_ok. intros c Hc. rewrite lconst_ok. cbn [bind]. rewrite lconst_eq. rewrite Forall_forall in FR. specialize (FR r Hr). apply (Permutation_in _ PC) in Hc. destruct (column_good c Hc) as (Po & _ & _ & Ne & Nm & _ & Pf & Ef).
      destruct (content_build (parts r) (la ++ consts (pre ++ parts r)) (proj1 FR) (lcell_in r)) as (p & Ep & Pp & Tp & Fp & Np). unfold lrow. fold la. rewrite (lex_build so SO KK la (constant c) (consts (pre ++ parts r)) p Ne Np Nm Fp Ep). eexists. split; [reflexivity|].
      assert (Kc : lok (lcell c r)) by (split; [exact Po|apply cellc_ok, FR]). eexists. split; [reflexivity|]. split; [split; [exact Pf|exact Pp]|]. split; [exact Kc|]. apply lexeme_str_key; [split; [exact Pf|exact Pp]|exact Kc|]. cbn [pm_flexion pm_content lcell]. auto. }
    assert (B : exists hs, table_rows so po wl (ULexeme x) LF lrows = Ok hs /\ (lcover -> Forall2 (fun r y => shows y (lcell F r)) R hs)).
    { unfold table_rows. rewrite EC, (lrows_constant R ER). cbn [bind]. rewrite lconst_ok. cbn [bind]. rewrite lconst_eq. fold la.
      assert (Ecol : List.concat (map (fun s => FI (constant s)) C) = FI (flat_map constant C)) by (clear; induction C as [|s C IH]; [reflexivity|]; cbn [map List.concat flat_map]; rewrite IH; unfold FI; now rewrite map_app). rewrite Ecol.
      match goal with |- context [mapM ?f (map lrow R)] => assert (Em : forall l, mapM f (map lrow l) = mapM (fun r => f (lrow r)) l) by (induction l as [|z l IH]; [reflexivity|]; cbn [map]; now rewrite !mapM_step, IH); rewrite Em; clear Em end.
      set (f := flat_map constant C).
      assert (Nf : Forall named f). { apply Forall_forall. intros m Hm. apply in_flat_map in Hm. destruct Hm as (s & Hs & Hm). apply (Permutation_in _ PC) in Hs. destruct (column_good s Hs) as (_ & _ & _ & _ & Nm & _). rewrite Forall_forall in Nm. auto. }
      match goal with |- context [mapM ?g R] => destruct (mapM_F2_ok g (fun r y => lcover -> shows y (lcell F r)) R) as (hs & E & Fh) end.
      - intros r Hr. rewrite Forall_forall in FR. specialize (FR r Hr). destruct (content_build (parts r) (la ++ consts (pre ++ parts r)) (proj1 FR) (lcell_in r)) as (p & Ep & Pp & Tp & Fp & Np).
        unfold lrow. rewrite app_assoc, <- CI_app. assert (Ef : f = [] \/ f <> []) by (destruct f; [now left|right; discriminate]). destruct Ef as [Ef|Ef].
        + rewrite Ef. unfold FI at 1. cbn [map]. rewrite app_nil_r, (lex_build_content so SO KK _ p Np Fp Ep). eexists. split; [reflexivity|]. intros Cv. exfalso. destruct C as [|s C'].
          * apply Permutation_nil in PC. exact (flex_some so F SO GF Cv PC).
          * destruct (column_good s) as (_ & _ & _ & Ne & _); [eapply Permutation_in; [exact PC|now left]|]. apply Ne. unfold f in Ef. cbn [flat_map] in Ef. now apply app_eq_nil in Ef.
        + pose proof (lex_build so SO KK (la ++ consts (pre ++ parts r)) f [] p Ef) as LB. rewrite app_nil_r in LB. specialize (LB Np Nf Fp Ep). cbn [CI map] in LB. rewrite app_nil_r in LB. rewrite LB. eexists. split; [reflexivity|]. intros Cv.
          destruct (flexion_uniq f F GF (flex_nf f Nf)) as (Pf & Ef').
          { intros t Ht. split.
            - intros H. apply in_map_iff in H. destruct H as (m & <- & Hm). apply in_flat_map in Hm. destruct Hm as (s & Hs & Hm). apply (Permutation_in _ PC) in Hs. destruct (column_good s Hs) as (_ & _ & _ & _ & _ & I & _). now apply in_map, I.
            - intros H. apply in_map_iff in H. destruct H as (m & <- & Hm). destruct (flex_covered so F m SO GF Cv Hm) as (s & m' & Hs & Hm' & E).
              + destruct (is_empty m) eqn:Em; [|reflexivity]. exfalso. apply Ht. now apply (flex_empty F).
              + rewrite <- E. apply in_map. apply in_flat_map. exists s. split; [|exact Hm']. eapply Permutation_in; [apply Permutation_sym, PC|exact Hs]. }
          assert (Kc : lok (lcell F r)) by (split; [apply clean_ok, GF|apply cellc_ok, FR]). eexists. split; [reflexivity|]. split; [split; [exact Pf|exact Pp]|]. split; [exact Kc|]. apply lexeme_str_key; [split; [exact Pf|exact Pp]|exact Kc|]. cbn [pm_flexion pm_content lcell]. auto.
      - exists hs. split; [exact E|]. intros Cv. eapply Forall2_in_impl; [|exact Fh]. auto. }
    destruct A as (cells & A1 & A2), B as (hs & B1 & B2). exists C, R, cells, hs. auto 20.
  Qed.
End Lex.
