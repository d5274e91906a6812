(** The cells of the table of a polymorpheme and its singular sequences. *)
From Coq Require Import List String Bool Arith Permutation Sorting Lia.
From Verif Require Import Base Commons Script ScriptSpec ScriptOrderProofs SortProofs OrderTheory Usl UslSpec UslProofs UslSsProofs UslRoundProofs Sfun UslParser Path PathBuildProofs RebuildSpec Instance UslTable UslTableProofs TablesProofs UslTableSpec UslTableOrderProofs ScriptMoreProofs.
Import ListNotations.
Local Open Scope string_scope.

(** ** Lists *)
Lemma sorted_increasing {A} (R : A -> A -> Prop) l : StronglySorted R l -> increasing R l.
Proof. induction 1 as [|x l S IH F]; cbn [increasing]; [exact Logic.I|]. split; [|exact IH]. now apply Forall_forall. Qed.
Lemma F2_map {A B C} (R : A -> B -> Prop) (f : B -> C) (g : A -> C) l m : Forall2 R l m -> (forall a b, In a l -> R a b -> f b = g a) -> map f m = map g l.
Proof. induction 1 as [|a b l m H F IH]; intros E; [reflexivity|]. cbn [map]. rewrite (E a b) by (auto; now left). f_equal. apply IH. intros x y Hx. apply E. now right. Qed.
Lemma Forall2_in_right {A B} (R : A -> B -> Prop) l m : Forall2 R l m -> forall b, In b m -> exists a, In a l /\ R a b.
Proof. induction 1 as [|a b l m H F IH]; intros x Hx; [destruct Hx|]. destruct Hx as [<-|Hx]; [exists a; split; [now left|exact H]|]. destruct (IH x Hx) as (y & Hy & Ry). exists y. split; [now right|exact Ry]. Qed.
Lemma F2_sorted {A B} (R : A -> B -> Prop) (P : A -> Prop) (Q : A -> A -> Prop) (S : B -> B -> Prop) l m : Forall2 R l m -> Forall P l -> StronglySorted Q l ->
  (forall a b a' b', P a -> P a' -> Q a a' -> R a b -> R a' b' -> S b b') -> StronglySorted S m.
Proof.
  intros F FP FQ H. revert FP FQ. induction F as [|a b l m Rab F IH]; intros FP FQ; [constructor|]. apply Forall_cons_iff in FP. destruct FP as [Pa FP]. apply StronglySorted_inv in FQ. destruct FQ as [FQ Fa]. constructor; [auto|].
  apply Forall_forall. intros b' Hb'. destruct (Forall2_in_right _ _ _ F b' Hb') as (a' & Ha' & Rab'). rewrite Forall_forall in FP, Fa. eauto.
Qed.

Lemma nodup_grid {A B C} (f : A -> B -> C) la lb : NoDup la -> NoDup lb -> (forall a a' b b', In a la -> In a' la -> In b lb -> In b' lb -> f a b = f a' b' -> a = a' /\ b = b') ->
  NoDup (List.concat (map (fun a => map (f a) lb) la)).
Proof.
  intros Na Nb Inj. induction Na as [|a la Ha Na IH]; [constructor|]. cbn [map List.concat]. apply NoDup_app_iff. split; [|split].
  - clear IH. assert (X : forall l, NoDup l -> incl l lb -> NoDup (map (f a) l)).
    { induction 1 as [|b l Hb N IH]; intros Inc; [constructor|]. cbn [map]. constructor; [|apply IH; intros x Hx; apply Inc; now right]. intros H. apply in_map_iff in H. destruct H as (b' & E & Hb'). apply Inj in E; [|now left|now left|apply Inc; now right|apply Inc; now left]. destruct E as [_ ->]. auto. }
    apply X; [exact Nb|apply incl_refl].
  - apply IH. intros x x' y y' Hx Hx'. apply Inj; now right.
  - intros t H1 H2. apply in_map_iff in H1. destruct H1 as (b & <- & Hb). apply in_concat in H2. destruct H2 as (l & Hl & Ht). apply in_map_iff in Hl. destruct Hl as (a' & <- & Ha'). apply in_map_iff in Ht. destruct Ht as (b' & E & Hb').
    apply Inj in E; [|now right|now left|exact Hb'|exact Hb]. destruct E as [-> _]. auto.
Qed.
Lemma flat_same c : flatpm c -> pm_str (mk_pm (constant c) []) = pm_str c.
Proof. intros (d & F & ->). apply (proj2 (text_same [] [] (constant (mk_pm d [])) d (Forall_nil _) (flatpm_nf (mk_pm d []) (ex_intro _ d (conj F eq_refl))) F (Forall_nil _))). apply same_constant. Qed.
Lemma flat_ok c : flatpm c -> pok c. Proof. intros (d & F & ->). now apply mk_pm_ok. Qed.
Lemma flat_lt c c' : flatpm c -> flatpm c' -> NoDup (map str (filter_empty (constant c))) -> NoDup (map str (filter_empty (constant c'))) -> smaller (constant c) (constant c') = pm_lt c c'.
Proof.
  intros F F' N N'. rewrite smaller_pm by auto using flatpm_nf. apply (o_compat order_pm); auto using flat_ok, flat_same; apply mk_pm_ok; auto using flatpm_nf.
Qed.
Lemma flat_unique l l' : Forall (fun c => flatpm c /\ NoDup (map str (filter_empty (constant c)))) l -> Forall (fun c => flatpm c /\ NoDup (map str (filter_empty (constant c)))) l' ->
  StronglySorted (fun s t => smaller (constant s) (constant t) = true) l -> StronglySorted (fun s t => smaller (constant s) (constant t) = true) l' ->
  Permutation (map pm_str l) (map pm_str l') -> map pm_str l = map pm_str l'.
Proof.
  assert (W : forall l, Forall (fun c => flatpm c /\ NoDup (map str (filter_empty (constant c)))) l -> StronglySorted (fun s t => smaller (constant s) (constant t) = true) l -> weak_sorted pm_lt l).
  { intros m F S. refine (sorted_weaken _ _ _ _ F _ S). intros x y [Fx Nx] [Fy Ny] L. rewrite flat_lt in L by auto. destruct (pm_lt y x) eqn:Q; [|reflexivity].
    pose proof (o_trans _ _ _ _ order_pm x y x (flat_ok x Fx) (flat_ok y Fy) (flat_ok x Fx) L Q) as Z. rewrite (o_irr _ _ _ _ order_pm x x) in Z; auto using flat_ok. }
  intros F F' S S' P. apply (o_unique order_pm); auto.
  - eapply Forall_impl; [|exact F]. intros c [H _]. now apply flat_ok.
  - eapply Forall_impl; [|exact F']. intros c [H _]. now apply flat_ok.
Qed.
Lemma ss_orders so so' p : set_order so -> set_order so' -> pok p -> Permutation (map pm_str (pm_ss so p)) (map pm_str (pm_ss so' p)).
Proof.
  intros SO SO' Po. apply NoDup_Permutation; [now apply ss_nodup|now apply ss_nodup|]. intros t. destruct (groups p) as [|g gs] eqn:E; [unfold pm_ss; rewrite E; tauto|].
  destruct Po as [[P1 P2] _]. rewrite !pm_ss_groups by congruence. destruct (traits_spec so (groups p) (constant p)) as (_ & X & _); auto; [congruence|]. destruct (traits_spec so' (groups p) (constant p)) as (_ & X' & _); auto; [congruence|]. rewrite X, X'. tauto.
Qed.

Section Facts.
  Variable u : pm.
  Hypothesis G : pm_good u.
  Hypothesis NR : no_repetition u.
  Variable gi : gidx.
  Variable hrow : option gidx.
  Hypothesis Hi : groups_at u gi <> None.
  Hypothesis Hh : match hrow with Some h => groups_at u h <> None /\ h <> gi | None => True end.
  Notation cc c := (choice u (fun h => gidx_eqb h gi) (constant c) /\ flatpm c).
  Notation rr r := (choice u (inJ u gi hrow) (kR u gi hrow r) /\ flatpm r /\ same (kR u gi hrow r) (constant r)).
  Notation grid cs rs cells := (Forall2 (fun r l => Forall2 (fun c => is_cell u gi hrow c r) cs l) rs cells).
  Lemma grid_texts cs rs cells : grid cs rs cells -> map (map usl_str) cells = map (fun r => map (fun c => pm_str (cell u gi hrow c r)) cs) rs.
  Proof. intros F. eapply F2_map; [exact F|]. intros r l _ Fl. eapply F2_map; [exact Fl|]. intros c x _ (p & -> & _ & _ & E). exact E. Qed.
  Lemma header_texts rs hs : Forall2 (is_header u gi hrow) rs hs -> map usl_str hs = map (fun r => pm_str (header u gi hrow r)) rs.
  Proof. intros F. eapply F2_map; [exact F|]. intros r x _ (p & -> & _ & _ & E). exact E. Qed.
  Lemma grid_distinct cs rs cells : Forall (fun c => cc c) cs -> Forall (fun r => rr r) rs -> NoDup (map pm_str cs) -> NoDup (map pm_str rs) -> grid cs rs cells -> NoDup (List.concat (map (map usl_str) cells)).
  Proof.
    intros FC FR NC NRw F. rewrite (grid_texts cs rs cells F). rewrite Forall_forall in FC, FR. apply (nodup_grid (fun r c => pm_str (cell u gi hrow c r)) rs cs).
    - now apply nodup_of_map in NRw.
    - now apply nodup_of_map in NC.
    - intros r r' c c' Hr Hr' Hc Hc' E. apply (cell_inj u G NR gi hrow Hi Hh) in E; auto. destruct E as [E1 E2]. split; [now apply (nodup_map_eq pm_str rs)|now apply (nodup_map_eq pm_str cs)].
  Qed.
  Lemma grid_rows wl cs rs cells : Forall (fun c => cc c) cs -> Forall (fun r => rr r) rs -> StronglySorted (fun s t => smaller (constant s) (constant t) = true) cs -> grid cs rs cells ->
    Forall (StronglySorted (fun x y => usl_lt wl x y = true)) cells.
  Proof.
    intros FC FR S F. revert FR. induction F as [|r l rs cells Fl F IH]; intros FR; [constructor|]. apply Forall_cons_iff in FR. destruct FR as [Hr FR]. constructor; [|auto].
    refine (F2_sorted _ _ _ _ _ _ Fl FC S _). intros c x c' x' Hc Hc' L (p & -> & Po & _ & E) (p' & -> & Po' & _ & E'). cbn [usl_lt]. rewrite <- L, <- (cell_row u G NR gi hrow Hi Hh c c' r) by auto.
    apply (o_compat order_pm); auto; now apply (cell_ok' u G gi hrow).
  Qed.
  Lemma grid_columns wl cs rs cells : Forall (fun c => cc c) cs -> Forall (fun r => rr r) rs -> StronglySorted (fun s t => smaller (constant s) (constant t) = true) rs -> grid cs rs cells ->
    StronglySorted (Forall2 (fun x y => usl_lt wl x y = true)) cells.
  Proof.
    intros FC FR S F. refine (F2_sorted _ _ _ _ _ _ F FR S _). intros r l r' l' Hr Hr' L Fl Fl'. clear F. revert l' Fl'. induction Fl as [|c x cs l (p & -> & Po & _ & E) Fl IH]; intros l' Fl'; inversion Fl' as [|? ? ? m (p' & -> & Po' & _ & E') Fm]; subst; [constructor|].
    apply Forall_cons_iff in FC. destruct FC as [Hc FC]. constructor; [|now apply IH]. cbn [usl_lt]. rewrite <- L, <- (cell_column u G NR gi hrow Hi Hh c r r') by auto. apply (o_compat order_pm); auto; now apply (cell_ok' u G gi hrow).
  Qed.
  Lemma header_rows wl rs hs : Forall (fun r => rr r) rs -> StronglySorted (fun s t => smaller (constant s) (constant t) = true) rs -> Forall2 (is_header u gi hrow) rs hs -> StronglySorted (fun x y => usl_lt wl x y = true) hs.
  Proof.
    intros FR S F. refine (F2_sorted _ _ _ _ _ _ F FR S _). intros r x r' x' Hr Hr' L (p & -> & Po & _ & E) (p' & -> & Po' & _ & E'). cbn [usl_lt]. rewrite <- L, <- (header_row u G NR gi hrow Hh r r') by auto.
    apply (o_compat order_pm); auto; now apply (header_ok' u G gi hrow).
  Qed.
  Lemma cell_text_eq c c' r r' : cc c -> cc c' -> rr r -> rr r' -> pm_str c = pm_str c' -> pm_str r = pm_str r' -> pm_str (cell u gi hrow c r) = pm_str (cell u gi hrow c' r').
  Proof.
    intros [_ Fc] [_ Fc'] (_ & Fr & _) (_ & Fr' & _) Ec Er. apply flatpm_text in Ec, Er; auto. apply text_same; auto using (nf_u u G), (sel_ok u G); [apply Forall_app; split; auto using flatpm_nf..|].
    rewrite !fe_app, !map_app, Ec, Er. reflexivity.
  Qed.
  Lemma header_text_eq r r' : rr r -> rr r' -> pm_str r = pm_str r' -> pm_str (header u gi hrow r) = pm_str (header u gi hrow r').
  Proof. intros (_ & Fr & _) (_ & Fr' & _) Er. apply flatpm_text in Er; auto. apply text_same; auto using (nf_u u G), (sel_ok u G), flatpm_nf. Qed.
  Lemma map_eq_F2 {A B} (f : A -> B) l l' : map f l = map f l' -> Forall2 (fun x y => f x = f y) l l'.
  Proof. revert l'. induction l as [|x l IH]; intros [|y l'] E; try discriminate; constructor; cbn in E; [congruence|]. apply IH. congruence. Qed.
  Lemma grid_equal cs cs' rs rs' : Forall (fun c => cc c) cs -> Forall (fun c => cc c) cs' -> Forall (fun r => rr r) rs -> Forall (fun r => rr r) rs' -> map pm_str cs = map pm_str cs' -> map pm_str rs = map pm_str rs' ->
    map (fun r => map (fun c => pm_str (cell u gi hrow c r)) cs) rs = map (fun r => map (fun c => pm_str (cell u gi hrow c r)) cs') rs'.
  Proof.
    intros FC FC' FR FR' EC ER. apply map_eq_F2 in EC, ER. revert FR FR'. induction ER as [|r r' rs rs' E _ IH]; intros FR FR'; [reflexivity|]. apply Forall_cons_iff in FR, FR'. destruct FR as [Hr FR], FR' as [Hr' FR']. cbn [map]. rewrite IH by auto. f_equal.
    clear IH FR FR'. revert FC FC'. induction EC as [|c c' cs cs' E' _ IH]; intros FC FC'; [reflexivity|]. apply Forall_cons_iff in FC, FC'. destruct FC as [Hc FC], FC' as [Hc' FC']. cbn [map]. rewrite IH by auto. f_equal. now apply cell_text_eq.
  Qed.
  Lemma headers_equal rs rs' : Forall (fun r => rr r) rs -> Forall (fun r => rr r) rs' -> map pm_str rs = map pm_str rs' -> map (fun r => pm_str (header u gi hrow r)) rs = map (fun r => pm_str (header u gi hrow r)) rs'.
  Proof.
    intros FR FR' ER. apply map_eq_F2 in ER. revert FR FR'. induction ER as [|r r' rs rs' E _ IH]; intros FR FR'; [reflexivity|]. apply Forall_cons_iff in FR, FR'. destruct FR as [Hr FR], FR' as [Hr' FR']. cbn [map]. rewrite IH by auto. f_equal. now apply header_text_eq.
  Qed.
  Lemma cc_flat cs : Forall (fun c => cc c) cs -> Forall (fun c => flatpm c /\ NoDup (map str (filter_empty (constant c)))) cs.
  Proof. intros F. eapply Forall_impl; [|exact F]. intros c [(_ & N & _) H]. auto. Qed.
  Lemma rr_flat rs : Forall (fun r => rr r) rs -> Forall (fun c => flatpm c /\ NoDup (map str (filter_empty (constant c)))) rs.
  Proof. intros F. eapply Forall_impl; [|exact F]. intros c ((_ & N & _) & H & Sc). split; [exact H|]. eapply Permutation_NoDup; [exact Sc|exact N]. Qed.
End Facts.

(** ** Choices and texts *)
Lemma in_texts l t : Forall nf l -> (In t (map str (filter_empty l)) <-> exists x, In x l /\ is_empty x = false /\ str x = t).
Proof.
  intros F. rewrite in_map_iff. split.
  - intros (x & E & H). apply filter_In in H. destruct H as [H N]. apply negb_true_iff in N. eauto.
  - intros (x & H & N & E). exists x. split; [exact E|]. apply filter_In. split; [exact H|]. now rewrite N.
Qed.
Lemma texts_str l x : Forall nf l -> nf x -> is_empty x = false -> In (str x) (map str l) -> In (str x) (map str (filter_empty l)).
Proof.
  intros F Hx N H. apply in_map_iff in H. destruct H as (y & E & Hy). apply in_texts; [exact F|]. exists y. split; [exact Hy|]. split; [|exact E]. rewrite Forall_forall in F. rewrite (is_empty_str y x); auto using nf_wf.
Qed.
Lemma picked_nf gs cs : Forall gok gs -> picks gs cs -> Forall nf (List.concat cs).
Proof. intros F K. apply Forall_forall. intros x Hx. destruct (picks_in gs cs K x Hx) as (g & Hg & H). rewrite Forall_forall in F. specialize (F g Hg). unfold gok in F. rewrite Forall_forall in F. auto. Qed.
Lemma mk_groups_ok K gs : Forall gok gs -> Forall gok (groups (mk_pm K gs)).
Proof. intros F. pose proof (mk_pm_ok [] gs (Forall_nil _) F) as [[_ H] _]. exact H. Qed.
Lemma distinct_same K gs cs d : Forall nf K -> Forall gok gs -> picks (groups (mk_pm K gs)) cs -> NoDup (map str (filter_empty (K ++ List.concat cs))) ->
  distinct_of (List.concat cs ++ constant (mk_pm K gs)) d -> Forall nf d /\ same d (K ++ List.concat cs).
Proof.
  intros FK Fg P N D. assert (Fc : Forall nf (constant (mk_pm K gs))) by (pose proof (mk_pm_ok K gs FK Fg) as [[H _] _]; exact H). assert (Fcs := picked_nf _ _ (mk_groups_ok K gs Fg) P).
  assert (Fd : Forall nf d) by (apply (distinct_nf (groups (mk_pm K gs)) cs (constant (mk_pm K gs))); auto using mk_groups_ok). split; [exact Fd|]. destruct D as (Nd & Inc & All).
  apply NoDup_Permutation; [now apply NoDup_map_filter|exact N|]. intros t. assert (FKc : Forall nf (K ++ List.concat cs)) by (now apply Forall_app). rewrite !in_texts by auto. split.
  - intros (x & Hx & Ex & <-). apply Inc in Hx. apply in_app_or in Hx. destruct Hx as [Hx|Hx]; [exists x; split; [apply in_or_app; now right|auto]|].
    assert (Q : In (str x) (map str (filter_empty K))) by (apply (Permutation_in _ (same_constant K gs)); apply in_texts; eauto). apply in_texts in Q; [|exact FK]. destruct Q as (y & Hy & Ey & E). exists y. split; [apply in_or_app; now left|auto].
  - intros (x & Hx & Ex & <-). assert (Hnf : nf x) by (rewrite Forall_forall in FKc; auto). apply in_app_or in Hx. apply in_texts; [exact Fd|]. apply texts_str; auto. destruct Hx as [Hx|Hx].
    + assert (Q : In (str x) (map str (filter_empty (constant (mk_pm K gs))))) by (apply (Permutation_in _ (Permutation_sym (same_constant K gs))); apply in_texts; eauto). apply in_texts in Q; [|exact Fc]. destruct Q as (y & Hy & _ & E). rewrite <- E. apply All. apply in_or_app. now right.
    + apply All. apply in_or_app. now left.
Qed.
Lemma result_text K gs cs t : Forall nf K -> Forall gok gs -> picks (groups (mk_pm K gs)) cs -> NoDup (map str (filter_empty (K ++ List.concat cs))) ->
  result_of (constant (mk_pm K gs)) cs t -> t = pm_str (mk_pm (K ++ List.concat cs) []).
Proof.
  intros FK Fg P N (d & D & _ & ->). destruct (distinct_same K gs cs d FK Fg P N D) as [Fd S]. apply (text_same [] []); auto. apply Forall_app. split; [exact FK|]. exact (picked_nf _ _ (mk_groups_ok K gs Fg) P).
Qed.
Lemma result_made K gs cs : Forall nf K -> Forall gok gs -> picks (groups (mk_pm K gs)) cs -> NoDup (map str (filter_empty (K ++ List.concat cs))) ->
  List.length (constant (mk_pm K gs)) + List.length (List.concat cs) <= 5 -> result_of (constant (mk_pm K gs)) cs (pm_str (mk_pm (K ++ List.concat cs) [])).
Proof.
  intros FK Fg P N L. pose proof (dedup_distinct_of (List.concat cs ++ constant (mk_pm K gs))) as D. exists (dedup script_eqb (List.concat cs ++ constant (mk_pm K gs))). split; [exact D|]. split.
  - split.
    + destruct D as (_ & _ & D). assert (X : exists c, In c (constant (mk_pm K gs))) by (cbn [constant mk_pm]; destruct (isort (filter_empty K)) as [|x l]; eexists; now left). destruct X as (c & Hc). assert (Q := D c (in_or_app _ _ _ (or_intror Hc))). destruct (dedup script_eqb _); [destruct Q|cbn; lia].
    + destruct D as (D1 & D2 & _). rewrite <- (map_length str). etransitivity; [apply NoDup_incl_length; [exact D1|]|].
      * intros s Hs. apply in_map_iff in Hs. destruct Hs as (x & <- & Hx). apply in_map. exact (D2 x Hx).
      * rewrite map_length, app_length. lia.
  - destruct (distinct_same K gs cs _ FK Fg P N D) as [Fd S]. symmetry. apply (text_same [] []); auto. apply Forall_app. split; [exact FK|]. exact (picked_nf _ _ (mk_groups_ok K gs Fg) P).
Qed.
Lemma ss_member so K gs t : set_order so -> Forall nf K -> Forall gok gs -> gs <> [] -> (In t (map pm_str (pm_ss so (mk_pm K gs))) <-> exists cs, picks (groups (mk_pm K gs)) cs /\ result_of (constant (mk_pm K gs)) cs t).
Proof.
  intros SO FK Fg N. assert (Ng : groups (mk_pm K gs) <> []). { cbn [groups mk_pm]. intros E. pose proof (sort_perm group_lt (map (fun g : group => (isort (filter_empty (fst g)), snd g)) gs)) as P. match type of P with Permutation ?a _ => assert (Z : a = []) by exact E end. rewrite Z in P. apply Permutation_nil in P. apply map_eq_nil in P. auto. }
  pose proof (mk_pm_ok K gs FK Fg) as [[F1 F2] _]. rewrite pm_ss_groups by exact Ng. apply traits_spec; auto.
Qed.

(** ** Rows and their headers *)
Section Rows.
  Variable so : list script -> list script.
  Hypothesis SO : set_order so.
  Variable u : pm.
  Hypothesis G : pm_good u.
  Hypothesis NR : no_repetition u.
  Variable gi : gidx.
  Variable hrow : option gidx.
  Hypothesis Hi : groups_at u gi <> None.
  Hypothesis Hh : match hrow with Some h => groups_at u h <> None /\ h <> gi | None => True end.
  Hypothesis Alone : select u (in_rest gi hrow) = [].
  Notation cc c := (choice u (fun h => gidx_eqb h gi) (constant c) /\ flatpm c).
  Notation rr r := (choice u (inJ u gi hrow) (kR u gi hrow r) /\ flatpm r /\ same (kR u gi hrow r) (constant r)).
  Lemma choice_norm f d : choice u f d -> choice u f (constant (mk_pm d [])).
  Proof.
    intros (F & N & H). cbn [mk_pm constant]. destruct (isort (filter_empty d)) as [|x l] eqn:E.
    - split; [constructor; [split; [cbn; lia|discriminate]|constructor]|]. split; [constructor|]. intros m [<-|[]]. now left.
    - rewrite <- E. assert (P := sort_perm lt (filter_empty d)). fold isort in P. split; [apply (Permutation_Forall (Permutation_sym P)); now apply fe_nf|]. split.
      + apply NoDup_map_filter. eapply Permutation_NoDup; [apply Permutation_map, Permutation_sym, P|exact N].
      + intros m Hm. apply H. apply (Permutation_in _ P) in Hm. apply filter_In in Hm. tauto.
  Qed.
  Lemma cc_of d : choice u (fun h => gidx_eqb h gi) d -> cc (mk_pm d []).
  Proof. intros C. split; [now apply choice_norm|]. exists d. split; [apply C|reflexivity]. Qed.
  Lemma head_one gr : groups_at u gi = Some gr -> select u (fun h => (in_rest gi hrow h || gidx_eqb h gi)%bool) = [gr].
  Proof.
    intros E. pose proof Alone as A. unfold select in *. cbn [flat_map] in *. rewrite app_nil_r in *. apply app_eq_nil in A. destruct A as [A0 A]. apply app_eq_nil in A. destruct A as [A1 A2].
    pose proof (gi_not u gi Hi) as GN.
    assert (X : forall g, match groups_at u g with Some gr => if in_rest gi hrow g then [gr] else [] | None => [] end = [] -> match groups_at u g with Some gr0 => if (in_rest gi hrow g || gidx_eqb g gi)%bool then [gr0] else [] | None => [] end = if gidx_eqb g gi then [gr] else []).
    { intros g A. destruct (gidx_eqb g gi) eqn:Eg.
      - assert (Eg' := Eg). apply gidx_eqb_eq in Eg'. rewrite Eg' at 1. rewrite E, orb_true_r. reflexivity.
      - destruct (groups_at u g); [|reflexivity]. rewrite orb_false_r. destruct (in_rest gi hrow g); [discriminate|reflexivity]. }
    rewrite (X Group0 A0), (X Group1 A1), (X Group2 A2). clear - GN. destruct gi; [congruence|reflexivity..].
  Qed.
  Lemma one_picks K gr cs : picks (groups (mk_pm K [gr])) cs -> exists c, cs = [c] /\ subseq c (isort (filter_empty (fst gr))) /\ List.length c <= snd gr.
  Proof.
    intros (q & O & F). cbn [mk_pm groups map sort insert] in *. inversion F as [|? c ? ? [S L] F']; subst. inversion F'; subst. exists c. split; [reflexivity|]. cbn [fst snd] in *. split; [exact S|].
    apply Forall_inv in O. cbn [fst snd] in O. destruct L as [L|[L [L'|(h & [<-|[]] & L')]]]; [lia|lia|]. apply subseq_length in S. cbn [fst] in L'. lia.
  Qed.
  Lemma pick_choice gr c : groups_at u gi = Some gr -> subseq c (isort (filter_empty (fst gr))) -> choice u (fun h => gidx_eqb h gi) c.
  Proof.
    intros E S. pose proof (group_eq u gi gr E) as Eg. assert (Em : fst gr = ms u gi) by (rewrite Eg; reflexivity). rewrite Em in S.
    assert (Inc : forall m, In m c -> In m (ms u gi) /\ is_empty m = false). { intros m Hm. apply (subseq_incl _ _ S) in Hm. apply (Permutation_in _ (sort_perm lt _)) in Hm. apply filter_empty_in in Hm. exact Hm. }
    split; [|split].
    - apply Forall_forall. intros m Hm. pose proof (ms_nf u G gi) as F. rewrite Forall_forall in F. now apply F, Inc.
    - apply NoDup_map_filter. assert (N : NoDup (map str (isort (filter_empty (ms u gi))))) by (eapply Permutation_NoDup; [apply Permutation_map, Permutation_sym, sort_perm|]; apply NoDup_map_filter, (ms_nodup u G NR)).
      clear - S N. induction S as [l|x a b S IH|x a b S IH]; cbn [map] in *; [constructor| |].
      + apply NoDup_cons_iff in N. destruct N as [N1 N2]. constructor; [|auto]. intros H. apply N1. apply in_map_iff in H. destruct H as (y & E & Hy). rewrite <- E. apply in_map. now apply (subseq_incl _ _ S).
      + apply IH. apply NoDup_cons_iff in N. tauto.
    - intros m Hm. right. destruct (Inc m Hm) as [H1 H2]. split; [exact H2|]. exists gi, m. split; [now apply gidx_eqb_eq|auto].
  Qed.
  Lemma row_member cs r p t : Permutation (map pm_str cs) (map pm_str (pm_ss so (one u gi))) -> Forall (fun c => cc c) cs -> rr r ->
    pok p -> made p -> pm_str p = pm_str (header u gi hrow r) -> (forall gr, groups_at u gi = Some gr -> List.length (constant p) + snd gr <= 5) ->
    In t (map pm_str (pm_ss so p)) <-> In t (map (fun c => pm_str (cell u gi hrow c r)) cs).
  Proof.
    intros PC FC Hr Po Ma Ep Fit. destruct (Hi_some u gi Hi) as (gr & E). specialize (Fit gr E). pose proof (header_ok' u G gi hrow r Hr) as Ho.
    assert (Pss := ss_text so p (header u gi hrow r) SO Po Ho Ep).
    assert (Lh : List.length (constant (header u gi hrow r)) = List.length (constant p)). { apply pm_str_key in Ep; auto. unfold pkey in Ep. assert (Ec : map str (constant p) = map str (constant (header u gi hrow r))) by congruence. apply (f_equal (@List.length string)) in Ec. rewrite !map_length in Ec. auto. }
    assert (Eh : header u gi hrow r = mk_pm (constant u ++ constant r) [gr]) by (unfold header; now rewrite (head_one gr E)). rewrite Eh in *.
    assert (Fr := flatpm_nf r (proj1 (proj2 Hr))). assert (FK : Forall nf (constant u ++ constant r)) by (apply Forall_app; split; auto using (nf_u u G)). assert (Fg : Forall gok [gr]) by (rewrite <- (head_one gr E); apply (sel_ok u G)).
    rewrite Forall_forall in FC.
    assert (Mix : forall c, subseq c (isort (filter_empty (fst gr))) -> NoDup (map str (filter_empty ((constant u ++ constant r) ++ c)))).
    { intros c Sc. pose proof (pick_choice gr c E Sc) as Cc. pose proof (mix_nodup u G NR gi hrow Hi Hh (mk_pm c []) r (cc_of c Cc) Hr) as N. eapply Permutation_NoDup; [|exact N]. rewrite !fe_app, !map_app, <- app_assoc. apply Permutation_app_head. rewrite (same_constant c []). apply Permutation_app_comm. }
    assert (Txt : forall x c, cc x -> subseq c (isort (filter_empty (fst gr))) -> pm_str x = pm_str (mk_pm c []) -> pm_str (cell u gi hrow x r) = pm_str (mk_pm ((constant u ++ constant r) ++ c) [])).
    { intros x c Hx Sc Ex. pose proof (pick_choice gr c E Sc) as Cc. rewrite (cell_text_eq u G gi hrow x (mk_pm c []) r r); auto using cc_of. unfold cell. rewrite Alone, <- app_assoc. destruct (cc_of c Cc) as [_ Fc].
      apply text_same; auto using (nf_u u G); [apply Forall_app; split; auto using flatpm_nf..|]; [apply Cc|]. rewrite !fe_app, !map_app. rewrite (same_constant c []). apply Permutation_app_comm. }
    split.
    - intros Ht. apply (Permutation_in _ Pss) in Ht. apply ss_member in Ht; auto; [|discriminate]. destruct Ht as (l & Pl & Rl). destruct (one_picks _ _ _ Pl) as (c & -> & Sc & Lc).
      apply result_text in Rl; auto; [|cbn [List.concat]; rewrite app_nil_r; now apply Mix]. cbn [List.concat] in Rl. rewrite app_nil_r in Rl.
      assert (Q : In (pm_str (mk_pm c [])) (map pm_str (pm_ss so (one u gi)))).
      { rewrite (one_eq u gi gr E). apply ss_member; auto; [discriminate|]. exists [c]. split; [exact Pl|]. pose proof (result_made [] [gr] [c] (Forall_nil _) Fg Pl) as X. cbn [app List.concat] in X. rewrite app_nil_r in X. apply X.
        - apply (pick_choice gr c E Sc).
        - change (constant (mk_pm [] [gr])) with [Null 0]. cbn [List.length]. assert (1 <= List.length (constant p)); [|lia]. destruct Po as [_ [-> | [Q _]]]; [cbn; lia|]. destruct (constant p); [congruence|cbn; lia]. }
      apply (Permutation_in _ (Permutation_sym PC)) in Q. apply in_map_iff in Q. destruct Q as (x & Ex & Hx). apply in_map_iff. exists x. split; [|exact Hx]. rewrite Rl. apply Txt; auto.
    - intros Ht. apply in_map_iff in Ht. destruct Ht as (x & <- & Hx). apply (Permutation_in _ (Permutation_sym Pss)).
      assert (Q : In (pm_str x) (map pm_str (pm_ss so (one u gi)))) by (eapply Permutation_in; [exact PC|now apply in_map]). rewrite (one_eq u gi gr E) in Q. apply ss_member in Q; auto; [|discriminate]. destruct Q as (l & Pl & Rl). destruct (one_picks _ _ _ Pl) as (c & -> & Sc & Lc).
      apply result_text in Rl; auto; [|cbn [List.concat app]; rewrite app_nil_r; apply (pick_choice gr c E Sc)]. cbn [List.concat app] in Rl. rewrite app_nil_r in Rl.
      apply ss_member; auto; [discriminate|]. exists [c]. split; [exact Pl|]. rewrite (Txt x c) by auto. pose proof (result_made (constant u ++ constant r) [gr] [c] FK Fg Pl) as X. cbn [List.concat] in X. rewrite app_nil_r in X. apply X; [now apply Mix|]. lia.
  Qed.
  Lemma row_perm cs r p : Permutation (map pm_str cs) (map pm_str (pm_ss so (one u gi))) -> Forall (fun c => cc c) cs -> rr r ->
    pok p -> made p -> pm_str p = pm_str (header u gi hrow r) -> (forall gr, groups_at u gi = Some gr -> List.length (constant p) + snd gr <= 5) ->
    Permutation (map pm_str (pm_ss so p)) (map (fun c => pm_str (cell u gi hrow c r)) cs).
  Proof.
    intros PC FC Hr Po Ma Ep Fit. apply NoDup_Permutation; [now apply ss_nodup| |intros t; now apply row_member].
    assert (NC : NoDup (map pm_str cs)) by (eapply Permutation_NoDup; [apply Permutation_sym, PC|]; apply ss_nodup; [exact SO|apply (one_ok u G gi)]).
    assert (X : forall l, incl l cs -> NoDup (map pm_str l) -> NoDup (map (fun c => pm_str (cell u gi hrow c r)) l)); [|apply X; [apply incl_refl|exact NC]].
    rewrite Forall_forall in FC. induction l as [|c l IH]; intros Inc N; [constructor|]. cbn [map] in *. apply NoDup_cons_iff in N. destruct N as [N1 N2]. constructor; [|apply IH; [intros y Hy; apply Inc; now right|exact N2]].
    intros H. apply in_map_iff in H. destruct H as (c' & E & Hc'). apply (cell_inj u G NR gi hrow Hi Hh) in E; auto; [|apply FC, Inc; now right|apply FC, Inc; now left]. apply N1. rewrite <- (proj1 E). now apply in_map.
  Qed.
End Rows.

Lemma one_column u gi : groups_at u gi <> None -> one u gi = column_choices u gi.
Proof.
  intros Hi. unfold column_choices. destruct (groups_at u gi) as [gr|] eqn:E; [|congruence]. rewrite (one_eq u gi gr E). f_equal. unfold select. cbn [flat_map].
  destruct gi; [discriminate E|..]; rewrite E; cbn [gidx_eqb app]; repeat match goal with |- context [groups_at u ?g] => destruct (groups_at u g) end; reflexivity.
Qed.
(** ** Groups of which one morpheme is taken at most *)
Definition single_groups (gs : list group) : Prop := Forall (fun g => snd g = 1 /\ 2 <= List.length (fst g)) gs.
Definition at_most_one (g : group) (c : list script) : Prop := subseq c (fst g) /\ List.length c <= 1.
Lemma picks_single gs cs : single_groups gs -> (picks gs cs <-> Forall2 at_most_one gs cs).
Proof.
  intros Sg. unfold single_groups in Sg. split.
  - intros (q & O & F). assert (F' : Forall2 (fun g c => In g gs /\ (subseq c (fst g) /\ (List.length c = q \/ List.length c = S q /\ (S q <= snd g \/ exists h, In h gs /\ List.length (fst h) = q)))) gs cs).
    { clear - F. assert (X : forall l, incl l gs -> forall cs, Forall2 (fun g c => subseq c (fst g) /\ (List.length c = q \/ List.length c = S q /\ (S q <= snd g \/ exists h, In h gs /\ List.length (fst h) = q))) l cs -> Forall2 (fun g c => In g gs /\ (subseq c (fst g) /\ (List.length c = q \/ List.length c = S q /\ (S q <= snd g \/ exists h, In h gs /\ List.length (fst h) = q)))) l cs).
      { induction l as [|g l IH]; intros Inc cs0 F0; inversion F0; subst; constructor; [split; [apply Inc; now left|assumption]|]. apply IH; [intros x Hx; apply Inc; now right|assumption]. }
      apply X; [apply incl_refl|exact F]. }
    clear F. rewrite Forall_forall in *. induction F' as [|g c l cs (Hg & S & L) F IH]; constructor; [|exact IH]. split; [exact S|]. destruct (Sg g Hg) as [S1 S2], (O g Hg) as [O1 O2].
    destruct L as [L|[L [L'|(h & Hh & L')]]]; [lia|lia|]. destruct (Sg h Hh). lia.
  - intros F. exists 0. split; [apply Forall_forall; intros; lia|]. induction F as [|g c l cs [S L] F IH]; constructor.
    + apply Forall_inv in Sg. split; [exact S|]. destruct (List.length c) as [|[|]]; [now left|right; split; [reflexivity|left; lia]|lia].
    + apply Forall_inv_tail in Sg. assert (Q := IH Sg). clear - Q. eapply Forall2_in_impl; [|exact Q]. intros g0 c0 _ (S0 & L0). split; [exact S0|]. destruct L0 as [L0|[L0 [L1|(h & Hh & L1)]]]; [now left|right; auto|right; split; [exact L0|right; exists h; split; [now right|exact L1]]].
Qed.

Section Exact.
  Variable so : list script -> list script.
  Hypothesis SO : set_order so.
  Variable u : pm.
  Hypothesis G : pm_good u.
  Hypothesis NR : no_repetition u.
  Hypothesis SG : single_groups (groups u).
  Notation opt p g := (match p g with Some m => [m] | None => [] end : list script).
  Notation taken_by p := (flat_map (fun g => opt p g) [Group0; Group1; Group2]).
  Notation sel f ls := (flat_map (fun g => match groups_at u g with Some gr => if f g then [gr] else [] | None => [] end : list group) ls).
  Definition picked (f : gidx -> bool) (p : gidx -> option script) : Prop := forall g m, p g = Some m -> f g = true /\ g <> Constant /\ In m (ms u g).
  Lemma one_of g c : g <> Constant -> forall gr, groups_at u g = Some gr -> at_most_one (gnorm gr) c -> exists o, c = (match o with Some m => [m] | None => [] end : list script) /\ forall m, o = Some m -> In m (ms u g).
  Proof.
    intros Hg gr E [S L]. cbn [gnorm fst] in S. destruct c as [|m [|]]; [exists None; split; [reflexivity|discriminate]| |cbn in L; lia]. exists (Some m). split; [reflexivity|]. intros m' Em. injection Em as <-. assert (Hm : In m (isort (filter_empty (fst gr)))) by (apply (subseq_incl _ _ S); now left).
    apply (Permutation_in _ (sort_perm lt _)) in Hm. apply filter_empty_in in Hm. rewrite (group_eq u g gr E) in Hm. apply Hm.
  Qed.
  Lemma pick_of (f : gidx -> bool) (ls : list gidx) : NoDup ls -> ~ In Constant ls -> forall cs, Forall2 at_most_one (map gnorm (sel f ls)) cs -> exists p, picked f p /\ (forall g, p g <> None -> In g ls) /\ List.concat cs = flat_map (fun g => opt p g) ls.
  Proof.
    induction ls as [|g ls IH]; intros N NC cs F.
    - cbn in F. inversion F; subst. exists (fun _ => None). split; [intros g m; discriminate|]. split; [intros g H; congruence|reflexivity].
    - apply NoDup_cons_iff in N. destruct N as [Ng N]. assert (Hg : g <> Constant) by (intros ->; apply NC; now left). assert (NC' : ~ In Constant ls) by (intros H; apply NC; now right).
      assert (K : forall o cs', (forall m, o = Some m -> f g = true /\ In m (ms u g)) -> Forall2 at_most_one (map gnorm (sel f ls)) cs' -> exists p, picked f p /\ (forall h, p h <> None -> In h (g :: ls)) /\ ((match o with Some m => [m] | None => [] end) ++ List.concat cs')%list = flat_map (fun g => opt p g) (g :: ls)).
      { intros o cs' Ho F'. destruct (IH N NC' cs' F') as (p & P1 & P2 & P3). exists (fun h => if gidx_eqb h g then o else p h). split; [|split].
        - intros h m. destruct (gidx_eqb h g) eqn:E; [|apply P1]. apply gidx_eqb_eq in E. subst h. intros Em. destruct (Ho m Em). auto.
        - intros h. destruct (gidx_eqb h g) eqn:E; [apply gidx_eqb_eq in E; subst h; intros _; now left|]. intros H. right. now apply P2.
        - cbn [flat_map]. assert (Eg : gidx_eqb g g = true) by (now apply gidx_eqb_eq). rewrite Eg. f_equal. rewrite P3. clear - Ng. induction ls as [|h ls IH]; [reflexivity|]. cbn [flat_map]. assert (E : gidx_eqb h g = false) by (apply not_true_iff_false; intros E; apply gidx_eqb_eq in E; subst h; apply Ng; now left). rewrite E. f_equal. apply IH. intros H. apply Ng. now right. }
      cbn [flat_map] in F. destruct (groups_at u g) as [gr|] eqn:E; [destruct (f g) eqn:Ef|].
      + cbn [app map] in F. inversion F as [|? c ? cs' Hc F']; subst. destruct (one_of g c Hg gr E Hc) as (o & -> & Ho). cbn [List.concat]. apply K; auto.
      + apply (K None cs); auto. discriminate.
      + apply (K None cs); auto. discriminate.
  Qed.
  Lemma of_pick (f : gidx -> bool) (ls : list gidx) p : ~ In Constant ls -> picked f p -> exists cs, Forall2 at_most_one (map gnorm (sel f ls)) cs /\ List.concat cs = flat_map (fun g => opt p g) ls.
  Proof.
    intros NC P. induction ls as [|g ls IH]; [exists []; split; [constructor|reflexivity]|]. destruct IH as (cs & F & E); [intros H; apply NC; now right|]. assert (Hg : g <> Constant) by (intros ->; apply NC; now left). cbn [flat_map].
    destruct (p g) as [m|] eqn:Ep.
    - destruct (P g m Ep) as (Fg & _ & Hm). assert (X : exists gr, groups_at u g = Some gr) by (unfold ms in Hm; destruct (groups_at u g); [eauto|destruct g; [congruence|destruct Hm..]]). destruct X as (gr & Egr). rewrite Egr, Fg. exists ([m] :: cs). cbn [app map List.concat]. rewrite E. split; [|reflexivity]. constructor; [|exact F].
      split; [|cbn; lia]. cbn [gnorm fst]. apply subseq_one. apply (Permutation_in _ (Permutation_sym (sort_perm lt _))). rewrite (group_eq u g gr Egr). cbn [fst]. apply filter_empty_in. split; [exact Hm|]. now apply (ms_full u G g).
    - destruct (groups_at u g) as [gr|] eqn:Egr; [destruct (f g) eqn:Ef|]; cbn [app map].
      + exists ([] :: cs). cbn [List.concat app]. split; [|exact E]. constructor; [|exact F]. split; [constructor|cbn; lia].
      + exists cs. auto.
      + exists cs. auto.
  Qed.
  Lemma sel_single (f : gidx -> bool) (ls : list gidx) : ~ In Constant ls -> single_groups (map gnorm (sel f ls)).
  Proof.
    intros NC. apply Forall_forall. intros g' Hg'. apply in_map_iff in Hg'. destruct Hg' as (gr & <- & Hgr). apply in_flat_map in Hgr. destruct Hgr as (g & Hg & Hgr). destruct (groups_at u g) as [x|] eqn:E; [|destruct Hgr]. destruct (f g); [|destruct Hgr]. destruct Hgr as [<-|[]].
    unfold single_groups in SG. rewrite Forall_forall in SG. pose proof (groups_at_in u g x E) as Hx. destruct (SG x (proj1 Hx)) as [S1 S2]. cbn [gnorm fst snd]. split; [exact S1|]. rewrite isort_len. assert (Em : fst x = ms u g) by (rewrite (group_eq u g x E); reflexivity). rewrite Em. assert (Hc : g <> Constant) by (intros ->; auto).
    unfold filter_empty. rewrite (filter_true _ (ms u g)); [now rewrite <- Em|]. intros m Hm. apply negb_true_iff. now apply (ms_full u G g).
  Qed.
  Lemma choice_pick f p ls : NoDup ls -> picked f p -> choice u (fun g => (f g && existsb (gidx_eqb g) ls)%bool) (flat_map (fun g => opt p g) ls).
  Proof.
    intros N P. induction ls as [|g ls IH]; [split; [constructor|split; [constructor|intros m []]]|]. apply NoDup_cons_iff in N. destruct N as [Ng N]. cbn [flat_map]. destruct (p g) as [m|] eqn:Ep.
    - destruct (P g m Ep) as (Fg & Hc & Hm). assert (C1 : choice u (fun h => gidx_eqb h g) [m]).
      { split; [constructor; [|constructor]; pose proof (ms_nf u G g) as F; rewrite Forall_forall in F; auto|]. split; [apply NoDup_map_filter; constructor; [intros []|constructor]|]. intros x [<-|[]]. right. split; [now apply (ms_full u G g)|]. exists g, m. split; [now apply gidx_eqb_eq|auto]. }
      assert (C := choice_app u G NR _ _ _ _ C1 (IH N)). assert (C' : choice u (fun h => (gidx_eqb h g || f h && existsb (gidx_eqb h) ls)%bool) ([m] ++ flat_map (fun g => opt p g) ls)).
      { apply C. intros h E H. apply gidx_eqb_eq in E. subst h. apply andb_true_iff in H. destruct H as [_ H]. apply existsb_exists in H. destruct H as (x & Hx & E). apply gidx_eqb_eq in E. subst x. auto. }
      destruct C' as (A & B & D). split; [exact A|]. split; [exact B|]. intros x Hx. destruct (D x Hx) as [->|(Ex & h & m' & Hh & Hm' & E)]; [now left|]. right. split; [exact Ex|]. exists h, m'. split; [|auto]. cbn [existsb]. apply orb_true_iff in Hh. destruct Hh as [Hh|Hh].
      + assert (Q := Hh). apply gidx_eqb_eq in Q. subst h. rewrite Fg, Hh. reflexivity.
      + apply andb_true_iff in Hh. destruct Hh as [-> ->]. now rewrite orb_true_r.
    - cbn [app]. destruct (IH N) as (A & B & D). split; [exact A|]. split; [exact B|]. intros x Hx. destruct (D x Hx) as [->|(Ex & h & m' & Hh & Hm' & E)]; [now left|]. right. split; [exact Ex|]. exists h, m'. split; [|auto]. cbn [existsb]. apply andb_true_iff in Hh. destruct Hh as [-> ->]. now rewrite orb_true_r.
  Qed.
  Lemma N3 : NoDup [Group0; Group1; Group2]. Proof. repeat constructor; cbn; intuition discriminate. Qed.
  Lemma NC3 : ~ In Constant [Group0; Group1; Group2]. Proof. cbn. intuition discriminate. Qed.
  Lemma picked_choice f p : picked f p -> choice u (fun g => (f g && negb (gidx_eqb g Constant))%bool) (taken_by p).
  Proof.
    intros P. destruct (choice_pick f p _ N3 P) as (A & B & D). split; [exact A|]. split; [exact B|]. intros x Hx. destruct (D x Hx) as [->|(Ex & h & m' & Hh & Hm' & E)]; [now left|]. right. split; [exact Ex|]. exists h, m'. split; [|auto]. apply andb_true_iff in Hh. destruct Hh as [-> Hh]. cbn. destruct h; [discriminate|reflexivity..].
  Qed.
  Lemma len_pick p : List.length (taken_by p) <= 3.
  Proof. cbn [flat_map]. rewrite !app_length. destruct (p Group0), (p Group1), (p Group2); cbn; lia. Qed.
  Lemma ss_pick K f t : Forall nf K -> (forall p, picked f p -> NoDup (map str (filter_empty (K ++ taken_by p)))) ->
    (forall p, picked f p -> List.length (constant (mk_pm K (select u f))) + List.length (taken_by p) <= 5) ->
    (In t (map pm_str (pm_ss so (mk_pm K (select u f)))) <-> exists p, picked f p /\ t = pm_str (mk_pm (K ++ taken_by p) [])).
  Proof.
    intros FK N L. assert (Fg : Forall gok (select u f)) by (apply (sel_ok u G)). destruct (select u f) as [|g0 gs0] eqn:Es.
    - split.
      + intros [<-|[]]. exists (fun _ => None). split; [intros g m; discriminate|]. cbn [flat_map app]. now rewrite app_nil_r.
      + intros (p & P & ->). left. change (pm_str (mk_pm K []) = pm_str (mk_pm (K ++ taken_by p) [])). assert (X : taken_by p = []); [|now rewrite X, app_nil_r].
        assert (Y : forall g, In g [Group0; Group1; Group2] -> p g = None). { intros g Hg. destruct (p g) as [m|] eqn:Ep; [|reflexivity]. exfalso. destruct (P g m Ep) as (Fg' & Hc & Hm). assert (Q : exists gr, groups_at u g = Some gr) by (unfold ms in Hm; destruct (groups_at u g); [eauto|destruct g; [congruence|destruct Hm..]]). destruct Q as (gr & E).
          assert (Z : In gr (select u f)) by (apply in_flat_map; exists g; split; [exact Hg|]; rewrite E, Fg'; now left). rewrite Es in Z. destruct Z. }
        cbn [flat_map]. rewrite !Y by (cbn; auto). reflexivity.
    - rewrite <- Es in *. assert (Ne : select u f <> []) by (rewrite Es; discriminate). clear Es g0 gs0. rewrite ss_member by auto.
      assert (Pg : Permutation (groups (mk_pm K (select u f))) (map gnorm (select u f))) by apply sort_perm.
      assert (Sg : single_groups (map gnorm (select u f))) by (apply sel_single, NC3).
      assert (Sg' : single_groups (groups (mk_pm K (select u f)))) by (apply (Permutation_Forall (Permutation_sym Pg)); exact Sg).
      split.
      + intros (cs & Pc & Rc). assert (Pc' := Pc). apply (picks_single _ _ Sg') in Pc'. apply Forall2_flip in Pc'. destruct (Forall2_perm _ _ _ Pg cs Pc') as (cs' & PP & F'). apply Forall2_flip in F'.
        destruct (pick_of f _ N3 NC3 cs' F') as (p & P1 & _ & P3). exists p. split; [exact P1|]. assert (E : Permutation (List.concat cs) (taken_by p)) by (rewrite <- P3; now apply concat_perm).
        assert (S : same (K ++ List.concat cs) (K ++ taken_by p)). { rewrite !fe_app, !map_app. apply Permutation_app_head. apply Permutation_map. unfold filter_empty. clear - E. induction E; cbn [filter]; [constructor| | |eapply perm_trans; eauto].
          - destruct (negb (is_empty x)); auto.
          - destruct (negb (is_empty x)), (negb (is_empty y)); auto. apply perm_swap. }
        apply result_text in Rc; auto; [|eapply Permutation_NoDup; [apply Permutation_sym, S|]; auto]. rewrite Rc. apply (text_same [] []); auto; apply Forall_app; split; auto; [exact (picked_nf _ _ (mk_groups_ok K _ Fg) Pc)|apply (picked_choice f p P1)].
      + intros (p & P1 & ->). destruct (of_pick f _ p NC3 P1) as (cs' & F' & E'). apply Forall2_flip in F'. destruct (Forall2_perm _ _ _ (Permutation_sym Pg) cs' F') as (cs & PP & F). apply Forall2_flip in F. assert (Pc : picks (groups (mk_pm K (select u f))) cs) by (now apply (picks_single _ _ Sg')).
        assert (E : Permutation (List.concat cs) (taken_by p)) by (rewrite <- E'; apply concat_perm; now apply Permutation_sym).
        assert (S : same (K ++ List.concat cs) (K ++ taken_by p)). { rewrite !fe_app, !map_app. apply Permutation_app_head. apply Permutation_map. unfold filter_empty. clear - E. induction E; cbn [filter]; [constructor| | |eapply perm_trans; eauto].
          - destruct (negb (is_empty x)); auto.
          - destruct (negb (is_empty x)), (negb (is_empty y)); auto. apply perm_swap. }
        exists cs. split; [exact Pc|]. replace (pm_str (mk_pm (K ++ taken_by p) [])) with (pm_str (mk_pm (K ++ List.concat cs) [])).
        * apply result_made; auto; [eapply Permutation_NoDup; [apply Permutation_sym, S|]; auto|]. rewrite (Permutation_length E). auto.
        * apply (text_same [] []); auto; apply Forall_app; split; auto; [exact (picked_nf _ _ (mk_groups_ok K _ Fg) Pc)|apply (picked_choice f p P1)].
  Qed.
  Lemma select_all : select u (fun _ => true) = groups u.
  Proof. unfold select. cbn [flat_map groups_at]. destruct G as (_ & L & _). destruct (groups u) as [|a [|b [|c [|]]]]; cbn in L; try lia; reflexivity. Qed.
  Lemma u_text : pm_str (mk_pm (constant u) (groups u)) = pm_str u.
  Proof. destruct G as ((M & _) & _). assert (O : pok u) by (destruct M as (c & g & F1 & F2 & ->); now apply mk_pm_ok). apply remake; auto; apply O. Qed.
  Lemma taken_len f p : picked f p -> List.length (taken_by p) <= List.length (select u f).
  Proof.
    intros P. destruct (of_pick f _ p NC3 P) as (cs & F & E). rewrite <- E. unfold select. rewrite <- (map_length gnorm). clear E. induction F as [|g c gs cs [_ L] F IH]; [cbn; lia|]. cbn [List.concat List.length]. rewrite app_length. lia.
  Qed.
  Lemma taken_nodup f p : picked f p -> NoDup (map str (filter_empty (taken_by p))).
  Proof. intros P. apply (picked_choice f p P). Qed.
  Lemma ss_pick_flat f t : (In t (map pm_str (pm_ss so (mk_pm [] (select u f)))) <-> exists p, picked f p /\ t = pm_str (mk_pm (taken_by p) [])).
  Proof.
    rewrite ss_pick; [reflexivity|constructor|intros p P; cbn [app]; now apply (taken_nodup f)|]. intros p P. pose proof (len_pick p) as Lp. assert (L1 : List.length (constant (mk_pm [] (select u f))) = 1) by reflexivity. rewrite L1. clear L1. lia.
  Qed.
  Lemma ss_pick_u t : List.length (constant u) + List.length (groups u) <= 5 -> (In t (map pm_str (pm_ss so u)) <-> exists p, picked (fun _ => true) p /\ t = pm_str (mk_pm (constant u ++ taken_by p) [])).
  Proof.
    intros L. assert (M : made u) by apply G. assert (O : pok u) by (destruct M as (c & g & F1 & F2 & ->); now apply mk_pm_ok).
    assert (Og : Forall gok (groups u)) by apply O.
    assert (PP := ss_text so (mk_pm (constant u) (groups u)) u SO (mk_pm_ok _ _ (nf_u u G) Og) O u_text).
    assert (X : In t (map pm_str (pm_ss so u)) <-> In t (map pm_str (pm_ss so (mk_pm (constant u) (groups u))))) by (split; intros H; [apply (Permutation_in _ (Permutation_sym PP)) in H|apply (Permutation_in _ PP) in H]; exact H).
    rewrite X, <- select_all. apply ss_pick; [apply (nf_u u G)| |].
    - intros p P. pose proof (picked_choice _ p P) as C. apply (choice_nodup u G NR _ _ C). reflexivity.
    - intros p P. pose proof (taken_len _ p P) as T. rewrite select_all in *. assert (Lc : List.length (constant (mk_pm (constant u) (groups u))) <= List.length (constant u)); [|lia].
      pose proof u_text as E. apply pm_str_key in E; [|now apply mk_pm_ok; auto using (nf_u u G)|exact O]. unfold pkey in E. assert (Ec : map str (constant (mk_pm (constant u) (groups u))) = map str (constant u)) by congruence. apply (f_equal (@List.length string)) in Ec. rewrite !map_length in Ec. lia.
  Qed.

  Variable gi : gidx.
  Variable hrow : option gidx.
  Hypothesis Hi : groups_at u gi <> None.
  Hypothesis Hh : match hrow with Some h => groups_at u h <> None /\ h <> gi | None => True end.
  Hypothesis Alone : select u (in_rest gi hrow) = [].
  Notation cc c := (choice u (fun h => gidx_eqb h gi) (constant c) /\ flatpm c).
  Notation rr r := (choice u (inJ u gi hrow) (kR u gi hrow r) /\ flatpm r /\ same (kR u gi hrow r) (constant r)).
  Definition cut (b : bool) (p : gidx -> option script) (g : gidx) : option script := if Bool.eqb b (gidx_eqb g gi) then p g else None.
  Definition join (a b : gidx -> option script) (g : gidx) : option script := if gidx_eqb g gi then a g else b g.
  Lemma rows_of g m : g <> Constant -> In m (ms u g) -> gidx_eqb g gi = false -> in_rows gi hrow g = true.
  Proof.
    intros Hg Hm N. assert (X : exists gr, groups_at u g = Some gr) by (unfold ms in Hm; destruct (groups_at u g); [eauto|destruct g; [congruence|destruct Hm..]]). destruct X as (gr & E).
    destruct (in_rest gi hrow g) eqn:R.
    - exfalso. assert (Z : In gr (select u (in_rest gi hrow))) by (apply in_flat_map; exists g; rewrite E, R; split; [destruct g; cbn; auto; congruence|now left]). rewrite Alone in Z. destruct Z.
    - unfold in_rest, in_rows in *. destruct hrow; rewrite N in *; [|reflexivity]. cbn in R. now apply negb_false_iff in R.
  Qed.
  Lemma cut_col p : picked (fun _ => true) p -> picked (fun g => gidx_eqb g gi) (cut true p).
  Proof. intros P g m. unfold cut. destruct (gidx_eqb g gi) eqn:E; cbn; [|discriminate]. intros Em. destruct (P g m Em) as (_ & A & B). auto. Qed.
  Lemma cut_row p : picked (fun _ => true) p -> picked (in_rows gi hrow) (cut false p).
  Proof. intros P g m. unfold cut. destruct (gidx_eqb g gi) eqn:E; cbn; [discriminate|]. intros Em. destruct (P g m Em) as (_ & A & B). split; [|auto]. now apply (rows_of g m). Qed.
  Lemma join_all a b : picked (fun g => gidx_eqb g gi) a -> picked (in_rows gi hrow) b -> picked (fun _ => true) (join a b).
  Proof. intros A B g m. unfold join. destruct (gidx_eqb g gi); intros E; [destruct (A g m E) as (_ & X)|destruct (B g m E) as (_ & X)]; auto. Qed.
  Lemma join_cut p g : join (cut true p) (cut false p) g = p g.
  Proof. unfold join, cut. destruct (gidx_eqb g gi); reflexivity. Qed.
  Lemma taken_ext p q : (forall g, p g = q g) -> taken_by p = taken_by q.
  Proof. intros E. cbn [flat_map]. now rewrite !E. Qed.
  Lemma rows_not g : in_rows gi hrow g = true -> gidx_eqb g gi = false.
  Proof. unfold in_rows. destruct hrow as [h|]; [|apply negb_true_iff]. intros E. apply gidx_eqb_eq in E. subst g. apply not_true_iff_false. intros E. apply gidx_eqb_eq in E. destruct Hh. auto. Qed.
  Lemma taken_join a b : picked (fun g => gidx_eqb g gi) a -> picked (in_rows gi hrow) b -> Permutation (taken_by (join a b)) (taken_by a ++ taken_by b).
  Proof.
    intros A B. assert (X : forall ls, Permutation (flat_map (fun g => opt (join a b) g) ls) (flat_map (fun g => opt a g) ls ++ flat_map (fun g => opt b g) ls)); [|apply X].
    induction ls as [|g ls IH]; [constructor|]. cbn [flat_map]. assert (Q : opt (join a b) g = (opt a g ++ opt b g)%list).
    { unfold join. destruct (gidx_eqb g gi) eqn:E.
      - destruct (b g) as [m|] eqn:Eb; [|now rewrite app_nil_r]. destruct (B g m Eb) as (X & _). apply rows_not in X. congruence.
      - destruct (a g) as [m|] eqn:Ea; [|reflexivity]. destruct (A g m Ea) as (X & _). congruence. }
    rewrite Q, <- !app_assoc. apply Permutation_app_head. rewrite IH, !app_assoc. apply Permutation_app_tail, Permutation_app_comm.
  Qed.
  Lemma perm_same a b : Permutation a b -> same a b.
  Proof.
    intros E. apply Permutation_map. unfold filter_empty. induction E; cbn [filter]; [constructor| | |eapply perm_trans; eauto].
    - destruct (negb (is_empty x)); auto.
    - destruct (negb (is_empty x)), (negb (is_empty y)); auto. apply perm_swap.
  Qed.
  Lemma exact_member cs rs t : Permutation (map pm_str cs) (map pm_str (pm_ss so (one u gi))) -> Permutation (map pm_str rs) (map pm_str (pm_ss so (rowpm u gi hrow))) ->
    Forall (fun c => cc c) cs -> Forall (fun r => rr r) rs -> List.length (constant u) + List.length (groups u) <= 5 ->
    In t (map pm_str (pm_ss so u)) <-> exists c r, In c cs /\ In r rs /\ t = pm_str (cell u gi hrow c r).
  Proof.
    intros PC PR FC FR L. rewrite (ss_pick_u t L). rewrite Forall_forall in FC, FR.
    rewrite (one_column u gi Hi) in PC. unfold column_choices in PC. rewrite (rows_eq u gi hrow Hh) in PR.
    assert (Ic : forall x, In x (map pm_str cs) <-> exists p, picked (fun g => gidx_eqb g gi) p /\ x = pm_str (mk_pm (taken_by p) [])) by (intros x; rewrite <- ss_pick_flat; split; intros H; [apply (Permutation_in _ PC)|apply (Permutation_in _ (Permutation_sym PC))]; exact H).
    assert (Ir : forall x, In x (map pm_str rs) <-> exists p, picked (in_rows gi hrow) p /\ x = pm_str (mk_pm (taken_by p) [])) by (intros x; rewrite <- ss_pick_flat; split; intros H; [apply (Permutation_in _ PR)|apply (Permutation_in _ (Permutation_sym PR))]; exact H).
    assert (Nf : forall f p, picked f p -> Forall nf (taken_by p)) by (intros f p P; apply (picked_choice f p P)).
    assert (Txt : forall a b c r, picked (fun g => gidx_eqb g gi) a -> picked (in_rows gi hrow) b -> In c cs -> In r rs -> pm_str c = pm_str (mk_pm (taken_by a) []) -> pm_str r = pm_str (mk_pm (taken_by b) []) -> pm_str (cell u gi hrow c r) = pm_str (mk_pm (constant u ++ taken_by (join a b)) [])).
    { intros a b c r A B Hc Hr Ec Er. destruct (FC c Hc) as [_ Fc], (FR r Hr) as (_ & Fr & _). assert (Na := Nf _ _ A). assert (Nb := Nf _ _ B). rewrite <- (flat_same c Fc) in Ec. rewrite <- (flat_same r Fr) in Er. apply (text_same [] []) in Ec; auto using flatpm_nf. apply (text_same [] []) in Er; auto using flatpm_nf.
      unfold cell. rewrite Alone. apply text_same; auto using (nf_u u G); [apply Forall_app; split; auto using flatpm_nf|exact (Nf _ _ (join_all a b A B))|].
      eapply perm_trans; [|apply Permutation_sym, perm_same, (taken_join a b A B)]. rewrite !fe_app, !map_app. now apply Permutation_app. }
    split.
    - intros (p & P & ->). pose proof (cut_col p P) as A. pose proof (cut_row p P) as B.
      assert (Xc : In (pm_str (mk_pm (taken_by (cut true p)) [])) (map pm_str cs)) by (apply Ic; eauto). assert (Xr : In (pm_str (mk_pm (taken_by (cut false p)) [])) (map pm_str rs)) by (apply Ir; eauto).
      apply in_map_iff in Xc, Xr. destruct Xc as (c & Ec & Hc), Xr as (r & Er & Hr). exists c, r. split; [exact Hc|]. split; [exact Hr|]. rewrite (Txt _ _ c r A B Hc Hr Ec Er). do 3 f_equal. apply taken_ext. intros g. symmetry. apply join_cut.
    - intros (c & r & Hc & Hr & ->). assert (Xc := in_map pm_str _ _ Hc). assert (Xr := in_map pm_str _ _ Hr). apply Ic in Xc. apply Ir in Xr. destruct Xc as (a & A & Ec), Xr as (b & B & Er). exists (join a b). split; [now apply join_all|]. now apply Txt.
  Qed.
End Exact.
