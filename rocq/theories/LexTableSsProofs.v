(** The table of a lexeme: its order, and its cells as singular sequences. *)
From Coq Require Import List String Ascii Bool Arith Lia Permutation Sorted.
From Verif Require Import Base Script ScriptParser SortProofs ScriptWf ScriptStrProofs ScriptOrderProofs ScriptSpec ScriptCtorProofs ScriptParseProofs ScriptAlgProofs ScriptMoreProofs OrderTheory Commons Usl UslProofs UslSpec UslSsProofs
  Sfun SfunProofs SfunListProofs SfunWordProofs SfunSpec UslParser UslParserProofs UslRoundProofs Path PathLexProofs PathSpec PathProofs PathAlgProofs PathTextProofs PathDerefProofs PathBuildProofs Instance UslTable UslTableProofs UslTableSpec UslTableOrderProofs UslTableSsProofs LexBuildProofs LexTableSpec LexTableProofs.
Import ListNotations.
Local Open Scope string_scope.

(** A list sorted by keys that are different is strictly sorted. *)
Lemma strictly {A B K : Type} {D : B -> Prop} {k : B -> K} {eqb lt} (O : order D k eqb lt) (c : A -> B) l : (forall x, In x l -> D (c x)) -> (forall x y, In x l -> In y l -> k (c x) = k (c y) -> x = y) -> NoDup l ->
  StronglySorted (fun x y => lt (c y) (c x) = false) l -> StronglySorted (fun x y => lt (c x) (c y) = true) l.
Proof.
  intros FD Inj N. induction 1 as [|x l Sl IH Fx]; [constructor|]. apply NoDup_cons_iff in N. destruct N as [Nx N]. constructor.
  - apply IH; auto; [intros y Hy; apply FD; now right|]. intros a b Ha Hb. apply Inj; now right.
  - rewrite Forall_forall in *. intros y Hy. specialize (Fx y Hy). destruct (o_total _ _ _ _ O (c x) (c y)) as [L|L]; [apply FD; now left|apply FD; now right| |exact L|congruence].
    intros E. apply Inj in E; [|now left|now right]. subst y. auto.
Qed.
Lemma lexeme_lt_flexion a b k : pok k -> lexeme_lt {| pm_flexion := a; pm_content := k |} {| pm_flexion := b; pm_content := k |} = pm_lt a b.
Proof. intros K. unfold lexeme_lt. cbn [pm_flexion pm_content]. rewrite (o_irr _ _ _ _ order_pm k k K K eq_refl), andb_false_r. apply orb_false_r. Qed.
Lemma lexeme_lt_content f a b : pok f -> lexeme_lt {| pm_flexion := f; pm_content := a |} {| pm_flexion := f; pm_content := b |} = pm_lt a b.
Proof. intros K. unfold lexeme_lt. cbn [pm_flexion pm_content]. rewrite (o_irr _ _ _ _ order_pm f f K K eq_refl). assert (E : pm_eqb f f = true) by (now apply (o_eqb _ _ _ _ order_pm)). now rewrite E. Qed.

Lemma ss_ok so p s : set_order so -> pok p -> In s (pm_ss so p) -> pok s.
Proof. intros SO K Hs. destruct (groups p) as [|g gs] eqn:E; [unfold pm_ss in Hs; rewrite E in Hs; destruct Hs as [<-|[]]; exact K|]. apply flat_ok. apply (ss_flatpm so p s SO K); [rewrite E; discriminate|exact Hs]. Qed.

(** A flexion with groups is not singular. *)
Lemma flex_not_singular so F : set_order so -> flex_good F -> groups F = [] \/ List.length (constant F) <= 4 -> groups F <> [] -> List.length (pm_ss so F) <> 1.
Proof.
  intros SO G Sm NE L1. pose proof G as (Cl & L3 & Gg & cats & Nc & Fc). destruct (pm_ss so F) as [|s [|]] eqn:Es; try discriminate. clear L1.
  destruct (groups F) as [|g gs] eqn:Gs; [congruence|]. assert (Hg : In g (groups F)) by (rewrite Gs; now left). rewrite <- Gs in *. rewrite Forall_forall in Gg. destruct (Gg g Hg) as (_ & L2 & Nd). destruct (fst g) as [|m1 [|m2 l]] eqn:Eg; cbn in L2; try lia.
  assert (H1 : In m1 (fst g)) by (rewrite Eg; cbn; auto). assert (H2 : In m2 (fst g)) by (rewrite Eg; cbn; auto).
  assert (I : forall m, In m (fst g) -> In m (flex_ms F)) by (intros m Hm; rewrite flex_ms_eq by exact L3; apply in_or_app; right; apply in_concat; exists (fst g); split; [now apply in_map|exact Hm]).
  assert (Em : forall m, In m (fst g) -> is_empty m = false) by (intros m Hm; now apply (made_group_full F g m (proj1 Cl))).
  assert (X : forall m, In m (fst g) -> exists m', In m' (filter_empty (constant s)) /\ str m' = str m).
  { intros m Hm. destruct (flex_covered so F m SO G Sm (I m Hm) (Em m Hm)) as (s' & m' & Hs & Hm' & E). rewrite Es in Hs. destruct Hs as [<-|[]]. exists m'. split; [|exact E]. apply filter_empty_in. split; [exact Hm'|]. rewrite <- (Em m Hm). 
    destruct (flex_ss so F s SO G) as (_ & _ & _ & Hi); [rewrite Es; now left|].  apply is_empty_str; [| |exact E].
    - destruct (flex_leaf_ok F (PFlex m' None, m') G) as [(_ & _ & N & _) _]; [apply in_map_iff; exists m'; auto|]. now apply nf_wf.
    - destruct (flex_leaf_ok F (PFlex m None, m) G) as [(_ & _ & N & _) _]; [apply in_map_iff; exists m; auto|]. now apply nf_wf. }
  assert (T : exists t, root_part t (fst g)). { destruct (F2_in_r _ _ _ (fst g) Fc) as (t & _ & R); [unfold flex_parts; apply in_or_app; right; now apply in_map|]. eauto. }
  destruct T as (t & Ht & R). destruct (X m1 H1) as (a & Ha & Ea). destruct (X m2 H2) as (b & Hb & Eb).
  destruct (flex_ss so F s SO G) as ((_ & _ & _ & cats' & Nc' & Fc') & Gn & _); [rewrite Es; now left|]. unfold flex_parts in Fc'. rewrite Gn in Fc'. cbn [map] in Fc'. rewrite app_nil_r in Fc'.
  assert (Ro : forall m m', In m (fst g) -> str m' = str m -> of_root t m') by (intros m m' Hm E; unfold of_root; apply in_scripts_iff; rewrite E; apply in_scripts_iff; now apply R).
  assert (a = b).
  { apply (root_unique cats' _ t a b Fc' Nc'); auto.
    - apply Forall_forall. intros q Hq. apply in_map_iff in Hq. destruct Hq as (? & <- & _). cbn. lia.
    - now rewrite concat_singles.
    - now rewrite concat_singles.
    - now apply (Ro m1).
    - now apply (Ro m2). }
  subst b. cbn [map] in Nd. apply NoDup_cons_iff in Nd. destruct Nd as [Nd _]. apply Nd. left. congruence.
Qed.

Section Spec.
  Variable so : list script -> list script.
  Variable po : list path -> list path.
  Variable wl : word -> word -> bool.
  Hypothesis SO : set_order so.
  Hypothesis PO : forall l, Permutation (po l) l.
  Variable x : lexeme.
  Notation F := (pm_flexion x).
  Notation u := (pm_content x).
  Hypothesis GF : flex_good F.
  Hypothesis G : pm_good u.
  Hypothesis NR : no_repetition u.
  Notation parts := (row_parts u Constant None).
  Notation taken_by p := (flat_map (fun g => match p g with Some m => [m] | None => [] end : list script) [Group0; Group1; Group2]).
  Definition rowc (r : pm) : pm := mk_pm (constant u ++ constant r) [].
  Definition rgood' (r : pm) : Prop := choice u (inJ u Constant None) (parts r) /\ flatpm r /\ same (parts r) (constant r).
  Lemma sel_all : select u (fun _ => true) = groups u.
  Proof. unfold select. cbn [flat_map groups_at]. destruct G as (_ & L & _). destruct (groups u) as [|a [|b [|c [|]]]]; cbn in L; try lia; reflexivity. Qed.
  Lemma rowpm_choices : rowpm u Constant None = content_choices x.
  Proof.
    rewrite (rows_eq u Constant None Logic.I). unfold content_choices. rewrite <- sel_all. reflexivity.
  Qed.
  Lemma rowc_text r : rgood' r -> pm_str (cellc x (parts r)) = pm_str (rowc r).
  Proof. intros (C & Fr & Sr). apply text_same; [apply (nf_u u G)|apply C|now apply flatpm_nf|constructor|exact Sr]. Qed.
  Lemma rowc_ok r : flatpm r -> pok (rowc r).
  Proof. intros Fr. apply mk_pm_ok; [|constructor]. apply Forall_app. split; [apply (nf_u u G)|now apply flatpm_nf]. Qed.
  Lemma rowc_inj r r' : flatpm r -> flatpm r' -> (pm_str (rowc r) = pm_str (rowc r') <-> pm_str r = pm_str r').
  Proof. intros Fr Fr'. unfold rowc. rewrite text_same by auto using (nf_u u G), flatpm_nf. symmetry. now apply flatpm_text. Qed.

  Lemma lex_spec hb : exists cs rs cells hs,
    Permutation (map pm_str cs) (map pm_str (pm_ss so F)) /\ Permutation (map pm_str rs) (map pm_str (pm_ss so (content_choices x))) /\
    Forall pok cs /\ Forall flatpm rs /\
    StronglySorted (fun s t => pm_lt s t = true) cs /\ StronglySorted (fun s t => pm_lt (rowc s) (rowc t) = true) rs /\
    table_cells so po wl (ULexeme x) flexion_path (if hb : bool then Some content_path else None) = Ok cells /\
    table_rows so po wl (ULexeme x) flexion_path (if hb : bool then Some content_path else None) = Ok hs /\
    Forall2 (fun r l => Forall2 (fun c y => shows y (lexeme_at x c r)) cs l) rs cells /\
    (shown_flexion F -> Forall2 (fun r y => shows y (lexeme_at x F r)) rs hs).
  Proof.
    destruct (lex_table so po wl SO PO x GF G NR hb) as (C & R & cells & hs & PC & PR & FR & SC & SR & Ec & Fc & Eh & Fh). rewrite rowpm_choices in PR.
    assert (Ro : pok (content_choices x)) by (rewrite <- rowpm_choices; now apply rowpm_ok).
    assert (NC : NoDup (map pm_str C)) by (eapply Permutation_NoDup; [apply Permutation_map, Permutation_sym, PC|]; apply ss_nodup; [exact SO|apply clean_ok, GF]).
    assert (NRw : NoDup (map pm_str R)) by (eapply Permutation_NoDup; [apply Permutation_sym, PR|]; now apply ss_nodup).
    assert (FC : forall c, In c C -> pok c) by (intros c Hc; apply (Permutation_in _ PC) in Hc; destruct (column_good so SO x GF c Hc) as (Po & _); exact Po).
    assert (FR' : forall r, In r R -> rgood' r).
    { intros r Hr. rewrite Forall_forall in FR. destruct (FR r Hr) as [Cr Fr]. split; [exact Cr|]. split; [exact Fr|]. unfold row_parts. destruct (J u Constant None) eqn:EJ; [|reflexivity].
      pose proof (J_nil u Constant None Logic.I EJ) as Sn. assert (Hr' : In (pm_str r) (map pm_str (pm_ss so (rowpm u Constant None)))) by (rewrite rowpm_choices; eapply Permutation_in; [exact PR|now apply in_map]). rewrite (rows_eq u Constant None Logic.I), Sn in Hr'. cbn [pm_ss mk_pm groups map sort] in Hr'. cbn [map In] in Hr'. destruct Hr' as [E|[]].
      change (pm_str (mk_pm [] []) = pm_str r) in E. assert (F0 : flatpm (mk_pm [] [])) by (exists []; split; [constructor|reflexivity]). apply (flatpm_text _ _ F0 Fr) in E. exact E. }
    assert (TX : forall c r, In r R -> pok c -> lok (lexeme_at x c r) /\ lexeme_str (lcell x c r) = lexeme_str (lexeme_at x c r)).
    { intros c r Hr Pc. destruct (FR' r Hr) as (Cr & Fr & Sr). assert (A : lok (lexeme_at x c r)) by (split; [exact Pc|now apply rowc_ok]). split; [exact A|]. apply lexeme_str_key; [split; [exact Pc|apply cellc_ok; [exact G|apply Cr]]|exact A|]. split; [reflexivity|]. now apply rowc_text. }
    exists C, R, cells, hs. split; [now apply Permutation_map|]. split; [exact PR|]. split; [now apply Forall_forall|]. split; [apply Forall_forall; intros r Hr; apply (FR' r Hr)|]. split; [|split; [|split; [exact Ec|split; [exact Eh|split]]]].
    - assert (X : StronglySorted (fun s t => lexeme_lt {| pm_flexion := s; pm_content := kc x hb |} {| pm_flexion := t; pm_content := kc x hb |} = true) C).
      { apply (strictly order_lexeme (fun s => {| pm_flexion := s; pm_content := kc x hb |})); [| |now apply nodup_of_map in NC|exact SC].
        - intros s Hs. split; [now apply FC|now apply kc_ok].
        - intros s t Hs Ht E. apply lexeme_str_key in E; [|split; [now apply FC|now apply kc_ok]..]. destruct E as [E _]. now apply (nodup_map_eq pm_str C). }
      refine (sorted_weaken _ _ (fun _ => True) _ _ _ X); [now apply Forall_forall|]. intros s t _ _ L. rewrite lexeme_lt_flexion in L by now apply kc_ok. exact L.
    - assert (X : StronglySorted (fun s t => pm_lt (cellc x (parts s)) (cellc x (parts t)) = true) R).
      { apply (strictly order_pm (fun s => cellc x (parts s))); [| |now apply nodup_of_map in NRw|].
        - intros s Hs. apply cellc_ok; [exact G|apply (FR' s Hs)].
        - intros s t Hs Ht E. pose proof (FR' s Hs) as Gs. pose proof (FR' t Ht) as Gt. rewrite !rowc_text in E by auto. apply (proj1 (rowc_inj s t (proj1 (proj2 Gs)) (proj1 (proj2 Gt)))) in E. now apply (nodup_map_eq pm_str R).
        - refine (sorted_weaken _ _ (fun _ => True) _ _ _ SR); [now apply Forall_forall|]. intros s t _ _ L. rewrite lexeme_lt_content in L by apply empty_ok. exact L. }
      assert (FRb : Forall rgood' R) by (now apply Forall_forall). refine (sorted_weaken _ _ _ _ FRb _ X). intros s t Gs Gt L. rewrite <- L. apply (o_compat order_pm); [apply rowc_ok, Gs|apply rowc_ok, Gt|apply cellc_ok; [exact G|apply Gs]|apply cellc_ok; [exact G|apply Gt]|symmetry; now apply rowc_text..].
    - eapply Forall2_in_impl; [|exact Fc]. intros r l Hr Fl. eapply Forall2_in_impl; [|exact Fl]. intros c y Hc (p & -> & Lp & _ & E). destruct (TX c r Hr (FC c Hc)) as [A B]. exists p. split; [reflexivity|]. split; [exact Lp|]. split; [exact A|]. congruence.
    - intros Cv. specialize (Fh Cv). eapply Forall2_in_impl; [|exact Fh]. intros r y Hr (p & -> & Lp & _ & E). destruct (TX F r Hr (clean_ok F (proj1 GF))) as [A B]. exists p. split; [reflexivity|]. split; [exact Lp|]. split; [exact A|]. congruence.
  Qed.

  (** ** Grids *)
  Notation grid cs rs cells := (Forall2 (fun r l => Forall2 (fun c y => shows y (lexeme_at x c r)) cs l) rs cells).
  Lemma lgrid_texts cs rs cells : grid cs rs cells -> map (map usl_str) cells = map (fun r => map (fun c => lexeme_str (lexeme_at x c r)) cs) rs.
  Proof. intros Fg. eapply F2_map; [exact Fg|]. intros r l _ Fl. eapply F2_map; [exact Fl|]. intros c y _ (p & -> & _ & _ & E). exact E. Qed.
  Lemma lheader_texts rs hs : Forall2 (fun r y => shows y (lexeme_at x F r)) rs hs -> map usl_str hs = map (fun r => lexeme_str (lexeme_at x F r)) rs.
  Proof. intros Fg. eapply F2_map; [exact Fg|]. intros r y _ (p & -> & _ & _ & E). exact E. Qed.
  Lemma at_ok c r : pok c -> flatpm r -> lok (lexeme_at x c r). Proof. intros Pc Fr. split; [exact Pc|now apply rowc_ok]. Qed.
  Lemma at_inj c c' r r' : pok c -> pok c' -> flatpm r -> flatpm r' -> lexeme_str (lexeme_at x c r) = lexeme_str (lexeme_at x c' r') <-> pm_str c = pm_str c' /\ pm_str r = pm_str r'.
  Proof. intros Pc Pc' Fr Fr'. rewrite lexeme_str_key by auto using at_ok. cbn [lexeme_at pm_flexion pm_content]. rewrite (rowc_inj r r') by auto. reflexivity. Qed.
  Lemma lgrid_distinct cs rs cells : Forall pok cs -> Forall flatpm rs -> NoDup (map pm_str cs) -> NoDup (map pm_str rs) -> grid cs rs cells -> NoDup (List.concat (map (map usl_str) cells)).
  Proof.
    intros FC FR NC NRw Fg. rewrite (lgrid_texts cs rs cells Fg). rewrite Forall_forall in FC, FR. apply (nodup_grid (fun r c => lexeme_str (lexeme_at x c r)) rs cs).
    - now apply nodup_of_map in NRw.
    - now apply nodup_of_map in NC.
    - intros r r' c c' Hr Hr' Hc Hc' E. apply at_inj in E; auto. destruct E as [E1 E2]. split; [now apply (nodup_map_eq pm_str rs)|now apply (nodup_map_eq pm_str cs)].
  Qed.
  Lemma lgrid_rows cs rs cells : Forall pok cs -> Forall flatpm rs -> StronglySorted (fun s t => pm_lt s t = true) cs -> grid cs rs cells -> Forall (StronglySorted (fun a b => usl_lt wl a b = true)) cells.
  Proof.
    intros FC FR S Fg. revert FR. induction Fg as [|r l rs cells Fl Fg IH]; intros FR; [constructor|]. apply Forall_cons_iff in FR. destruct FR as [Hr FR]. constructor; [|auto].
    refine (F2_sorted _ _ _ _ _ _ Fl FC S _). intros c y c' y' Hc Hc' L (p & -> & Lp & La & E) (p' & -> & Lp' & La' & E'). cbn [usl_lt]. rewrite (o_compat order_lexeme p p' _ _ Lp Lp' La La' E E'). unfold lexeme_at. rewrite lexeme_lt_flexion by (now apply rowc_ok). exact L.
  Qed.
  Lemma lgrid_columns cs rs cells : Forall pok cs -> Forall flatpm rs -> StronglySorted (fun s t => pm_lt (rowc s) (rowc t) = true) rs -> grid cs rs cells -> StronglySorted (Forall2 (fun a b => usl_lt wl a b = true)) cells.
  Proof.
    intros FC FR S Fg. refine (F2_sorted _ _ _ _ _ _ Fg FR S _). intros r l r' l' Hr Hr' L Fl Fl'. clear Fg. revert l' Fl'. induction Fl as [|c y cs l (p & -> & Lp & La & E) Fl IH]; intros l' Fl'; inversion Fl' as [|? ? ? m (p' & -> & Lp' & La' & E') Fm]; subst; [constructor|].
    apply Forall_cons_iff in FC. destruct FC as [Hc FC]. constructor; [|now apply IH]. cbn [usl_lt]. rewrite (o_compat order_lexeme p p' _ _ Lp Lp' La La' E E'). unfold lexeme_at. rewrite lexeme_lt_content by exact Hc. exact L.
  Qed.
  Lemma lheader_rows rs hs : Forall flatpm rs -> StronglySorted (fun s t => pm_lt (rowc s) (rowc t) = true) rs -> Forall2 (fun r y => shows y (lexeme_at x F r)) rs hs -> StronglySorted (fun a b => usl_lt wl a b = true) hs.
  Proof.
    intros FR S Fh. refine (F2_sorted _ _ _ _ _ _ Fh FR S _). intros r y r' y' Hr Hr' L (p & -> & Lp & La & E) (p' & -> & Lp' & La' & E'). cbn [usl_lt]. rewrite (o_compat order_lexeme p p' _ _ Lp Lp' La La' E E'). unfold lexeme_at. rewrite lexeme_lt_content by apply clean_ok, GF. exact L.
  Qed.
  Lemma lgrid_equal cs cs' rs rs' : Forall pok cs -> Forall pok cs' -> Forall flatpm rs -> Forall flatpm rs' -> map pm_str cs = map pm_str cs' -> map pm_str rs = map pm_str rs' ->
    map (fun r => map (fun c => lexeme_str (lexeme_at x c r)) cs) rs = map (fun r => map (fun c => lexeme_str (lexeme_at x c r)) cs') rs'.
  Proof.
    intros FC FC' FR FR' EC ER. apply map_eq_F2 in EC, ER. revert FR FR'. induction ER as [|r r' rs rs' E _ IH]; intros FR FR'; [reflexivity|]. apply Forall_cons_iff in FR, FR'. destruct FR as [Hr FR], FR' as [Hr' FR']. cbn [map]. rewrite IH by auto. f_equal.
    clear IH FR FR'. revert FC FC'. induction EC as [|c c' cs cs' E' _ IH]; intros FC FC'; [reflexivity|]. apply Forall_cons_iff in FC, FC'. destruct FC as [Hc FC], FC' as [Hc' FC']. cbn [map]. rewrite IH by auto. f_equal. now apply at_inj.
  Qed.
  Lemma rows_unique rs rs' : Forall flatpm rs -> Forall flatpm rs' -> StronglySorted (fun s t => pm_lt (rowc s) (rowc t) = true) rs -> StronglySorted (fun s t => pm_lt (rowc s) (rowc t) = true) rs' ->
    Permutation (map pm_str rs) (map pm_str rs') -> map pm_str rs = map pm_str rs'.
  Proof.
    intros FR FR' S S' P.
    assert (W : forall l, Forall flatpm l -> StronglySorted (fun s t => pm_lt (rowc s) (rowc t) = true) l -> weak_sorted pm_lt (map rowc l)).
    { intros l Fl Sl. apply (proj2 (sorted_map _ _ _)). refine (sorted_weaken _ _ _ _ Fl _ Sl). intros a b Fa Fb L. apply (o_asym order_pm); auto using rowc_ok. }
    assert (T : map pm_str (map rowc rs) = map pm_str (map rowc rs')).
    { apply (o_unique order_pm); auto.
      - apply Forall_forall. intros p Hp. apply in_map_iff in Hp. destruct Hp as (r & <- & Hr). rewrite Forall_forall in FR. auto using rowc_ok.
      - apply Forall_forall. intros p Hp. apply in_map_iff in Hp. destruct Hp as (r & <- & Hr). rewrite Forall_forall in FR'. auto using rowc_ok.
      - assert (X : exists l, map pm_str rs' = map pm_str l /\ Permutation rs l). { apply Permutation_sym, Permutation_map_inv in P. destruct P as (l & E & Q). exists l. auto. }
        destruct X as (l & E & Q). assert (Fl : Forall flatpm l) by (apply (Permutation_Forall Q); exact FR). assert (Y : map pm_str (map rowc rs') = map pm_str (map rowc l)).
        { apply map_eq_F2 in E. clear - E FR' Fl G. induction E as [|a b rs' l E _ IH]; [reflexivity|]. apply Forall_cons_iff in FR', Fl. destruct FR' as [Ha FR'], Fl as [Hb Fl]. cbn [map]. rewrite IH by auto. f_equal. now apply rowc_inj. }
        rewrite Y. now apply Permutation_map, Permutation_map. }
    rewrite !map_map in T. apply map_eq_F2 in T. clear - T FR FR' G. induction T as [|a b rs rs' E _ IH]; [reflexivity|]. apply Forall_cons_iff in FR, FR'. destruct FR as [Ha FR], FR' as [Hb FR']. cbn [map]. rewrite IH by auto. f_equal. now apply rowc_inj.
  Qed.

  (** ** Singular sequences *)
  Lemma content_exact t : single_groups (groups u) -> List.length (constant u) + List.length (groups u) <= 5 ->
    (In t (map pm_str (pm_ss so u)) <-> exists t', In t' (map pm_str (pm_ss so (content_choices x))) /\ forall r, flatpm r -> pm_str r = t' -> t = pm_str (rowc r)).
  Proof.
    intros SG L. rewrite (ss_pick_u so SO u G NR SG t L). unfold content_choices. rewrite <- sel_all.
    assert (Nf : forall p, picked u (fun _ => true) p -> Forall nf (taken_by p)) by (intros p Pp; apply (picked_choice u G NR (fun _ => true) p Pp)).
    split.
    - intros (p & Pp & ->). eexists. split; [apply (ss_pick_flat so SO u G NR SG (fun _ => true)); exists p; split; [exact Pp|reflexivity]|]. intros r Fr E. unfold rowc. apply text_same; [apply (nf_u u G)|now apply Nf|now apply flatpm_nf|constructor|].
      assert (Fp : flatpm (mk_pm (taken_by p) [])) by (exists (taken_by p); split; [now apply Nf|reflexivity]). symmetry in E. apply (flatpm_text _ _ Fp Fr) in E. rewrite <- E. apply Permutation_sym, same_constant.
    - intros (t' & Ht & H). apply (ss_pick_flat so SO u G NR SG (fun _ => true)) in Ht. destruct Ht as (p & Pp & ->). exists p. split; [exact Pp|].
      assert (Fp : flatpm (mk_pm (taken_by p) [])) by (exists (taken_by p); split; [now apply Nf|reflexivity]). rewrite (H _ Fp eq_refl). unfold rowc. apply text_same; [apply (nf_u u G)|now apply flatpm_nf|now apply Nf|constructor|apply same_constant].
  Qed.
  Lemma content_not_singular : single_groups (groups u) -> List.length (constant u) + List.length (groups u) <= 5 -> groups u <> [] -> List.length (pm_ss so u) <> 1.
  Proof.
    intros SG L NE L1. destruct (pm_ss so u) as [|s [|]] eqn:Es; try discriminate. assert (H : forall t, (exists p, picked u (fun _ => true) p /\ t = pm_str (mk_pm (constant u ++ taken_by p) [])) -> t = pm_str s).
    { intros t Ht. apply (ss_pick_u so SO u G NR SG t L) in Ht. rewrite Es in Ht. destruct Ht as [<-|[]]. reflexivity. }
    destruct (groups u) as [|g gs] eqn:Gs; [congruence|]. assert (E0 : groups_at u Group0 = Some g) by (cbn [groups_at]; now rewrite Gs). rewrite <- Gs in *.
    pose proof (group_nonempty u G Group0 g E0) as Ne. destruct (ms u Group0) as [|m l] eqn:Em; [congruence|]. assert (Hm : In m (ms u Group0)) by (rewrite Em; now left).
    pose (p0 := fun _ : gidx => @None script). pose (p1 := fun g : gidx => if gidx_eqb g Group0 then Some m else None).
    assert (P1 : picked u (fun _ => true) p1). { intros h y E. unfold p1 in E. destruct h; try discriminate. cbn in E. injection E as <-. repeat split; [discriminate|exact Hm]. }
    assert (E1 := H _ (ex_intro _ p0 (conj (fun g m (E : p0 g = Some m) => ltac:(discriminate E)) eq_refl))). assert (E2 := H _ (ex_intro _ p1 (conj P1 eq_refl))). rewrite <- E2 in E1. cbn [p0 p1 flat_map app gidx_eqb] in E1.
    pose proof (ms_nf u G Group0) as Fm. rewrite Forall_forall in Fm. apply text_same in E1; [|apply (nf_u u G)|constructor|constructor; [now apply Fm|constructor]|constructor]. cbn [filter_empty filter] in E1. rewrite (ms_full u G Group0 m) in E1; [|discriminate|exact Hm]. apply Permutation_length in E1. discriminate.
  Qed.
  Lemma lexeme_ss_eq : (groups F = [] \/ List.length (constant F) <= 4) -> single_groups (groups u) -> List.length (constant u) + List.length (groups u) <= 5 ->
    lexeme_ss so x = flat_map (fun f => map (fun c => {| pm_flexion := f; pm_content := c |}) (pm_ss so u)) (pm_ss so F).
  Proof.
    intros Cv SG L. unfold lexeme_ss, pm_singular. destruct (Nat.eqb (List.length (pm_ss so F)) 1) eqn:A; [|reflexivity]. destruct (Nat.eqb (List.length (pm_ss so u)) 1) eqn:B; [|reflexivity]. apply Nat.eqb_eq in A, B. cbn [andb].
    assert (gF : groups F = []) by (destruct (groups F) eqn:E; [reflexivity|]; exfalso; rewrite <- E in Cv; apply (flex_not_singular so F SO GF Cv); [rewrite E; discriminate|exact A]).
    assert (gu : groups u = []) by (destruct (groups u) eqn:E; [reflexivity|]; exfalso; apply content_not_singular; [rewrite E; exact SG|rewrite E; exact L|rewrite E; discriminate|exact B]).
    unfold pm_ss. rewrite gF, gu. cbn. destruct x; reflexivity.
  Qed.
  Lemma lex_exact cs rs t : Permutation (map pm_str cs) (map pm_str (pm_ss so F)) -> Permutation (map pm_str rs) (map pm_str (pm_ss so (content_choices x))) -> Forall pok cs -> Forall flatpm rs ->
    (groups F = [] \/ List.length (constant F) <= 4) -> single_groups (groups u) -> List.length (constant u) + List.length (groups u) <= 5 ->
    (In t (map lexeme_str (lexeme_ss so x)) <-> exists c r, In c cs /\ In r rs /\ t = lexeme_str (lexeme_at x c r)).
  Proof.
    intros PC PR FC FR Cv SG L. rewrite lexeme_ss_eq by auto. rewrite Forall_forall in FC, FR.
    assert (Fs : forall f, In f (pm_ss so F) -> pok f) by (intros f Hf; now apply (column_good so SO x GF f Hf)).
    assert (Us : forall c, In c (pm_ss so u) -> pok c) by (intros c Hc; apply (ss_ok so u c SO); [destruct G as ((M & Rd) & _); now apply clean_ok|exact Hc]).
    split.
    - intros H. apply in_map_iff in H. destruct H as (y & <- & H). apply in_flat_map in H. destruct H as (f & Hf & H). apply in_map_iff in H. destruct H as (d & <- & Hd).
      assert (H1 : In (pm_str f) (map pm_str cs)) by (eapply Permutation_in; [apply Permutation_sym, PC|now apply in_map]). apply in_map_iff in H1. destruct H1 as (c & Ec & Hc).
      destruct (proj1 (content_exact (pm_str d) SG L) (in_map pm_str _ _ Hd)) as (t' & Ht' & H2). apply (Permutation_in _ (Permutation_sym PR)) in Ht'. apply in_map_iff in Ht'. destruct Ht' as (r & Er & Hr).
      exists c, r. split; [exact Hc|]. split; [exact Hr|]. apply lexeme_str_key; [split; [now apply Fs|now apply Us]|apply at_ok; auto|]. cbn [pm_flexion pm_content lexeme_at]. split; [congruence|]. apply H2; auto.
    - intros (c & r & Hc & Hr & ->). assert (H1 : In (pm_str c) (map pm_str (pm_ss so F))) by (eapply Permutation_in; [exact PC|now apply in_map]). apply in_map_iff in H1. destruct H1 as (f & Ef & Hf).
      assert (H2 : In (pm_str (rowc r)) (map pm_str (pm_ss so u))). { apply (content_exact _ SG L). exists (pm_str r). split; [eapply Permutation_in; [exact PR|now apply in_map]|]. intros r' Fr' E. apply rowc_inj; auto. }
      apply in_map_iff in H2. destruct H2 as (d & Ed & Hd). apply in_map_iff. exists {| pm_flexion := f; pm_content := d |}. split; [|apply in_flat_map; exists f; split; [exact Hf|apply in_map_iff; eauto]].
      apply lexeme_str_key; [split; [now apply Fs|now apply Us]|apply at_ok; auto|]. cbn [pm_flexion pm_content lexeme_at]. split; [exact Ef|exact Ed].
  Qed.
  Lemma header_ss cs r p : Permutation (map pm_str cs) (map pm_str (pm_ss so F)) -> Forall pok cs -> flatpm r -> (groups F = [] \/ List.length (constant F) <= 4) ->
    lok p -> lexeme_str p = lexeme_str (lexeme_at x F r) -> Permutation (map lexeme_str (lexeme_ss so p)) (map (fun c => lexeme_str (lexeme_at x c r)) cs).
  Proof.
    intros PC FC Fr Cv [Pf Pp] E. apply lexeme_str_key in E; [|split; auto|apply at_ok; [apply clean_ok, GF|exact Fr]]. cbn [lexeme_at pm_flexion pm_content] in E. destruct E as [Ef Ep]. fold (rowc r) in Ep.
    assert (PF := ss_text so (pm_flexion p) F SO Pf (clean_ok F (proj1 GF)) Ef).
    assert (Gp : groups (pm_content p) = []). { apply pm_str_key in Ep; [|exact Pp|now apply rowc_ok]. unfold pkey in Ep. assert (X : map gkey (groups (pm_content p)) = []) by (injection Ep as _ Ep; exact Ep). now apply map_eq_nil in X. }
    assert (S1 : pm_ss so (pm_content p) = [pm_content p]) by (unfold pm_ss; now rewrite Gp).
    assert (T : Permutation (map lexeme_str (flat_map (fun f => map (fun c => {| pm_flexion := f; pm_content := c |}) (pm_ss so (pm_content p))) (pm_ss so (pm_flexion p)))) (map (fun c => lexeme_str (lexeme_at x c r)) cs)).
    { rewrite S1. assert (Q : Permutation (map pm_str (pm_ss so (pm_flexion p))) (map pm_str cs)) by (rewrite PF; now apply Permutation_sym).
      assert (Fs : Forall pok (pm_ss so (pm_flexion p))) by (apply Forall_forall; intros f Hf; now apply (ss_ok so (pm_flexion p))).
      apply Permutation_sym, Permutation_map_inv in Q. destruct Q as (l & El & Pl). assert (Fl := Permutation_Forall Pl Fs). transitivity (map lexeme_str (flat_map (fun f => map (fun c => {| pm_flexion := f; pm_content := c |}) [pm_content p]) l)).
      - apply Permutation_map. apply Permutation_flat_map. exact Pl.
      - apply map_eq_F2 in El. clear - El Fl FC Ep Pp Fr G. assert (X : map lexeme_str (flat_map (fun f => map (fun c => {| pm_flexion := f; pm_content := c |}) [pm_content p]) l) = map (fun c => lexeme_str (lexeme_at x c r)) cs); [|now rewrite X].
        induction El as [|c f cs l E _ IH]; [reflexivity|]. apply Forall_cons_iff in FC, Fl. destruct FC as [Hc FC], Fl as [Hf Fl]. specialize (IH FC Fl). cbn [flat_map map app] in *. rewrite IH. f_equal. apply lexeme_str_key; [split; auto|now apply at_ok|]. cbn [lexeme_at pm_flexion pm_content]. auto. }
    unfold lexeme_ss, pm_singular. rewrite S1. cbn [List.length Nat.eqb]. rewrite andb_true_r. destruct (Nat.eqb (List.length (pm_ss so (pm_flexion p))) 1) eqn:A; [|rewrite S1 in T; exact T].
    assert (Gf : groups (pm_flexion p) = []).
    { apply Nat.eqb_eq in A. assert (B : List.length (pm_ss so F) = 1) by (rewrite <- (map_length pm_str), <- (Permutation_length PF), map_length; exact A). assert (gF : groups F = []) by (destruct (groups F) eqn:Eg; [reflexivity|]; exfalso; rewrite <- Eg in Cv; apply (flex_not_singular so F SO GF Cv); [rewrite Eg; discriminate|exact B]).
      apply pm_str_key in Ef; [|exact Pf|apply clean_ok, GF]. unfold pkey in Ef. injection Ef as _ Ef. rewrite gF in Ef. now apply map_eq_nil in Ef. }
    assert (S2 : pm_ss so (pm_flexion p) = [pm_flexion p]) by (unfold pm_ss; now rewrite Gf). rewrite S1, S2 in T. cbn [flat_map map app] in T. destruct p. exact T.
  Qed.
End Spec.
