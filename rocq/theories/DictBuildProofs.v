(** The dictionary is built. *)
From Coq Require Import List String Ascii Bool NArith Arith Lia Permutation Sorted.
From Verif Require Import Base Script ScriptParser SortProofs ScriptWf ScriptStrProofs ScriptOrderProofs ScriptSpec ScriptCtorProofs ScriptParseProofs ScriptSeqProofs ScriptMoreProofs ScriptAlgProofs ScriptEqProofs Tables TablesSpec TablesProofs TablesGridProofs TablesAllProofs Dictionary DictionarySpec DictTableProofs DictLoadProofs DictRelProofs DictSibProofs DictTopProofs DictAcceptProofs DictParentProofs DictDetProofs.
Import ListNotations.

(** * A table which is alone is that of the script *)
Lemma remake a b c : wf (Mul a b c) -> mk_mul_l [a; b; c] = Ok (Mul a b c).
Proof.
  intros (Wa & Wb & Wc & [Na Aa] & [Nb Ab] & [Nc Ac] & Lb & Lc & L & C).
  assert (X : forall x, child_ok x -> nullify (unwrap x) = x).
  { intros x [Nx Ax]. assert (U : unwrap x = x) by (destruct x as [| | |[|y [|z cs]]]; try reflexivity; exfalso; exact (Ax y eq_refl)). rewrite U. unfold nullify. destruct (is_empty x) eqn:E; [|reflexivity]. symmetry. auto. }
  unfold mk_mul_l. cbn [map hd]. rewrite (X a), (X b), (X c) by (split; assumption). cbn [nth]. rewrite Lb, Lc, Nat.eqb_refl. cbn [andb negb].
  destruct (N.ltb_spec MAX_SINGULAR_SEQUENCES (cardinal (Mul a b c))); [lia|]. destruct (Nat.ltb_spec MAX_LAYER (layer (Mul a b c))) as [H1|H1]; [cbn [layer] in H1; lia|reflexivity].
Qed.
Lemma scripts_some s t : wf s -> cardinal s <> 1%N -> tables s = Ok t -> t_scripts t <> [].
Proof.
  intros W N E. destruct (tables_shape s t W N E) as [[F L] Ne]. intros X. rewrite X in L. destruct (t_cells t) as [|a l]; [congruence|]. apply Forall_cons_iff in F as [(n & m & q & Sh & Hn & Hm & Hq & _) F].
  cbn [map list_sum fold_right List.length] in L. rewrite (shape_tabs _ _ _ _ Sh) in L by lia. lia.
Qed.
Lemma all_some l : (forall x, In x l -> wf x /\ cardinal x <> 1%N) -> forall t, TablesGridProofs.all_tables l = Ok t -> List.length l <= List.length (t_scripts t).
Proof.
  induction l as [|x l IH]; intros H t E; [simpl; lia|]. cbn [TablesGridProofs.all_tables] in E. destruct (tables x) as [u|] eqn:Eu; cbn [bind] in E; [|discriminate]. destruct (TablesGridProofs.all_tables l) as [v|] eqn:Ev; cbn [bind] in E; [|discriminate].
  apply Ok_inj in E. subst t. cbn [t_scripts]. rewrite app_length. destruct (H x (or_introl eq_refl)) as [Wx Nx]. pose proof (scripts_some x u Wx Nx Eu). specialize (IH (fun y Hy => H y (or_intror Hy)) v eq_refl). destruct (t_scripts u); [congruence|]. simpl in *. lia.
Qed.
Lemma alone s t u : wf s -> cardinal s <> 1%N -> (forall x, s <> Add [x]) -> tables s = Ok t -> t_scripts t = [u] -> u = s.
Proof.
  revert t u. induction s as [l|p|a b c IHa IHb IHc|cs IH] using script_ind'; intros t u W N A E Eu; try (simpl in N; congruence).
  - pose proof W as (Wa & Wb & Wc & [_ Aa] & [_ Ab] & [_ Ac] & _). rewrite tables_mul in E by exact N.
    assert (G : grid a b c = Ok t -> u = Mul a b c).
    { unfold grid. destruct (existsb _ _); [discriminate|]. step axs Eax. step own Eo. step ps Ep. destruct axs as [|a1 [|a2 [|a3 [|a4 ax]]]];
        try (step h Eh; intros X; apply Ok_inj in X; subst t; cbn [t_scripts] in Eu; congruence).
      step la Ela. step lb Elb. destruct (ss_total c Wc) as (lc & Ec & _ & _ & Lc). rewrite Ec. cbn [bind]. step ts Et. step hs Eh. intros X. apply Ok_inj in X. subst t. cbn [t_scripts] in Eu. subst ts.
      pose proof (F2_length _ _ _ (mapM_F2 _ _ _ Et)) as Ll. cbn [List.length] in Ll. rewrite Ll in Lc. cbn in Lc.
      assert (Pl : plurals a b c = filter (fun e => several (snd e)) [(0, a); (1, b); (2, c)]) by reflexivity. cbn [filter snd] in Pl. pose proof (F2_length _ _ _ (mapM_F2 _ _ _ Eax)) as La. rewrite Pl in La.
      exfalso. destruct (several c) eqn:Sc; [apply several_yes in Sc; congruence|]. destruct (several a), (several b); simpl in La; lia. }
    assert (Fc : forall n v, from_child a b c n v = Ok t -> (forall z, t_scripts v = [z] -> with_nth a b c n z = mk_mul_l [a; b; c]) -> u = Mul a b c).
    { intros n v X Hz. unfold from_child in X. revert X. step own Eo. step cs Ec. step ts Et. step hs Eh. intros X. apply Ok_inj in X. subst t. cbn [t_scripts] in Eu. subst ts.
      destruct (t_scripts v) as [|z [|z' zs]]; cbn [mapM] in Et; [discriminate| |].
      - rewrite (Hz z eq_refl), (remake a b c W) in Et. cbn [bind] in Et. congruence.
      - destruct (with_nth a b c n z); cbn [bind] in Et; [|discriminate]. destruct (with_nth a b c n z'); cbn [bind] in Et; [|discriminate]. destruct (mapM _ zs); cbn [bind] in Et; discriminate. }
    assert (Pl : plurals a b c = filter (fun e => several (snd e)) [(0, a); (1, b); (2, c)]) by reflexivity. cbn [filter snd] in Pl.
    destruct (several a) eqn:Sa, (several b) eqn:Sb, (several c) eqn:Sc; rewrite Pl in E; try (apply G; exact E); rewrite ?several_yes in *.
    + destruct (tables a) as [v|] eqn:Ev; cbn [bind] in E; [|discriminate]. apply (Fc 0 v E). intros z Hz. rewrite (IHa v z Wa Sa Aa eq_refl Hz). reflexivity.
    + destruct (tables b) as [v|] eqn:Ev; cbn [bind] in E; [|discriminate]. apply (Fc 1 v E). intros z Hz. rewrite (IHb v z Wb Sb Ab eq_refl Hz). reflexivity.
    + destruct (tables c) as [v|] eqn:Ev; cbn [bind] in E; [|discriminate]. apply (Fc 2 v E). intros z Hz. rewrite (IHc v z Wc Sc Ac eq_refl Hz). reflexivity.
  - rewrite tables_add in E by exact N. destruct (existsb (fun c => negb (paradigm c)) cs) eqn:Ex.
    + destruct (ss (Add cs)) as [l|]; cbn [bind] in E; [|discriminate]. apply Ok_inj in E. subst t. cbn [t_scripts] in Eu. congruence.
    + exfalso. assert (Hall : forall y, In y cs -> wf y /\ cardinal y <> 1%N).
      { intros y Hy. pose proof (proj1 (wf_add_in cs y W Hy)) as Wy. split; [exact Wy|]. intros C. apply cardinal_paradigm in C; [|exact Wy]. assert (existsb (fun c => negb (paradigm c)) cs = true) by (apply existsb_exists; exists y; rewrite C; auto). congruence. }
      pose proof (all_some cs Hall t E) as L. rewrite Eu in L. destruct cs as [|x [|y cs]]; [destruct W; congruence|exact (A x eq_refl)|simpl in L; lia].
Qed.

(** * Tables are made *)
(** What is asked of the script of a table *)
Definition sound (s : script) : Prop := nf s /\ cardinal s <> 1%N /\ sums_disjoint s /\ ~ too_wide s.
Lemma sound_tables s : sound s -> exists x, tables s = Ok x.
Proof. intros ((W & _) & C & D & T). destruct (tables_w s W D C) as [(t & E & _)|[_ X]]; [eauto|contradiction]. Qed.
Lemma mk_table_total s p r : sound s -> exists k, table_class s = Ok k /\ k <> KCell /\ mk_table s p r = Ok (Tab k s p r).
Proof.
  intros So. pose proof So as ((W & A) & C & D & T). destruct (sound_tables s So) as (x & Ex). pose proof (class_total s x W C Ex) as K. eexists. split; [exact K|].
  destruct (tables_shape s x W C Ex) as [R Ne]. unfold mk_table. rewrite K. cbn [bind].
  destruct (t_scripts x) as [|u [|u' us]] eqn:Es.
  - destruct (t_cells x) as [|? [|? ?]]; split; try discriminate; reflexivity.
  - destruct (Nat.eqb_spec (cols_of (first_cells x)) 1) as [E1|E1]; split; try discriminate; [reflexivity|]. rewrite Ex. cbn [bind]. rewrite Es.
    rewrite (alone s x u W C A Ex Es). rewrite (proj2 (script_eqb_str s s) eq_refl). destruct (one_script x R Ne ltac:(rewrite Es; reflexivity)) as (_ & n & m & Sh & Hn & Hm). rewrite (shape_tabs _ _ _ _ Sh) by lia. cbn [negb orb Nat.eqb]. destruct (Nat.eqb_spec (cols_of (first_cells x)) 1); [congruence|reflexivity].
  - destruct (t_cells x) as [|? [|? ?]]; split; try discriminate; reflexivity.
Qed.
Lemma accept_total t s : sound (tscript t) -> table_class (tscript t) = Ok (tkind t) -> wf s -> sums_disjoint s -> exists a, accept_script t s = Ok a.
Proof.
  intros So K Ws Ds. pose proof So as ((W & A) & C & D & T). destruct (sound_tables _ So) as (x & Ex).
  destruct (script_in_spec s (tscript t) Ws W) as (b & Eb & Sb). destruct b.
  - assert (I : inside s (tscript t)) by (apply inside_in; auto). pose proof (once_disjoint _ _ W C D Ex) as On. destruct (tkind t) eqn:Kt.
    + exfalso. apply C. apply (proj1 (class_cell _ _ K)). reflexivity.
    + destruct (accept_line t s x Kt K W Ws Ex On Ds I) as (a & E & _). eauto.
    + destruct (Nat.eqb (rank t) 0) eqn:R0; [|destruct (Nat.even (rank t)) eqn:Re].
      * apply Nat.eqb_eq in R0. destruct (accept_grid t s x Kt K W Ws Ex On Ds I (or_introl R0)) as (a & r & E & _). eauto.
      * unfold accept_script. rewrite Kt, Eb. cbn [bind negb]. rewrite R0, Re. cbn [negb andb]. eauto.
      * destruct (accept_grid t s x Kt K W Ws Ex On Ds I) as (a & r & E & _); [right; apply Nat.odd_spec; unfold Nat.odd; now rewrite Re|eauto].
    + destruct (accept_set t s x (or_intror Kt) W Ws Ex) as (a & E & _). eauto.
    + destruct (accept_set t s x (or_introl Kt) W Ws Ex) as (a & E & _). eauto.
  - destruct (accept_outside t s (conj W A) K Ws) as (b & E); [|eauto]. intros I. apply (inside_in s (tscript t) Ws W) in I. congruence.
Qed.
Definition settled (t : table) : Prop := sound (tscript t) /\ table_class (tscript t) = Ok (tkind t).
Lemma define_total l : Forall sound l -> forall defined, Forall settled defined -> exists ts, define_tables defined l = Ok ts.
Proof.
  induction l as [|s l IH]; intros Fl defined Fd; [cbn; eauto|]. apply Forall_cons_iff in Fl as [So Fl]. cbn [define_tables].
  assert (Hc : candidates defined s = Ok (map (fun t => (t, regularly t s)) (filter (fun t => accepts t s) defined))).
  { apply candidates_form. split; [|reflexivity]. intros t Ht. rewrite Forall_forall in Fd. destruct (Fd t Ht) as [St Kt]. apply accept_total; auto; apply So. }
  rewrite Hc. cbn [bind]. destruct (smallest _) as [[p r]|]; [|apply IH; auto]. destruct (mk_table_total s (Some p) r So) as (k & K & _ & E). rewrite E. cbn [bind]. apply IH; [exact Fl|]. apply Forall_app. split; [exact Fd|]. constructor; [split; [exact So|exact K]|constructor].
Qed.
Section Root.
  Variable so : list script -> list script.
  Hypothesis SO : set_order so.
  Lemma root_total r ps : sound r -> Forall sound ps -> exists ts, define_root so r ps = Ok ts.
  Proof.
    intros Sr Fp. unfold define_root. destruct (mk_table_total r None false Sr) as (k & K & _ & E). rewrite E. cbn [bind]. destruct (ss_total r) as (cells & Ec & _); [apply Sr|]. rewrite Ec. cbn [bind].
    destruct (define_total (by_length (so (filter (fun s => negb (script_eqb s r)) (dedup script_eqb ps)))) ) with (defined := [Tab k r None false]) as (ts & Et).
    - apply Forall_forall. intros s Hs. unfold by_length in Hs. apply (Permutation_in _ (sort_perm _ _)) in Hs. apply (Permutation_in _ (SO _)) in Hs. apply filter_In in Hs as [Hs _]. apply dedup_in in Hs. rewrite Forall_forall in Fp. auto.
    - constructor; [split; [exact Sr|exact K]|constructor].
    - rewrite Et. cbn [bind]. eauto.
  Qed.
  Lemma assign_total roots l : (forall s, In s l -> cardinal s <> 1%N -> exists x xs r, ss s = Ok (x :: xs) /\ owner roots x = Some r) -> exists m, assign roots l = Ok m.
  Proof.
    induction l as [|s l IH]; intros H; [cbn; eauto|]. cbn [assign]. destruct (IH (fun y Hy => H y (or_intror Hy))) as (m & Em). destruct (N.eqb_spec (cardinal s) 1) as [C|C]; [eauto|].
    destruct (H s (or_introl eq_refl) C) as (x & xs & r & Ex & Eo). rewrite Ex. cbn [bind]. rewrite Eo, Em. cbn [bind]. eauto.
  Qed.
  (** Every plural script has all its words in the roots. *)
  Lemma build_total roots l : Forall sound roots -> Forall wf l -> (forall s, In s l -> cardinal s <> 1%N -> sound s) -> (forall s w, In s l -> means s w -> exists r, In r roots /\ layer r = layer s /\ means r w) ->
    exists forest, build_tables so roots l = Ok forest.
  Proof.
    intros Fr Wl Sl Cv. unfold build_tables. assert (Wr : forall r, In r roots -> wf r) by (intros r Hr; rewrite Forall_forall in Fr; apply (Fr r Hr)).
    destruct (mapM_total (fun r => do l <- ss r; Ok (r, l)) roots) as (ls & Els); [intros r Hr; destruct (ss_total r (Wr r Hr)) as (x & Ex & _); rewrite Ex; cbn [bind]; eauto|]. rewrite Els. cbn [bind].
    destruct (assign_total ls l) as (m & Em).
    { intros s Hs C. rewrite Forall_forall in Wl. destruct (ss_total s (Wl s Hs)) as (x & Ex & Fx & Px & Lx). destruct x as [|x xs].
      - exfalso. destruct (some_word s (Wl s Hs)) as (w & Hw). destruct (ss_find s [] w (Wl s Hs) Ex Hw) as (x & [] & _).
      - exists x, xs. assert (Hx : In x (x :: xs)) by (simpl; auto). destruct (ss_sing s _ x (Wl s Hs) Ex Hx) as (Wx & Cx & Lyx). destruct (some_word x Wx) as (w & Hw). pose proof (ss_word s _ x w (Wl s Hs) Ex Hx Hw) as Hsw. destruct (Cv s w Hs Hsw) as (r & Hr & Ly & Hrw).
        destruct (combine_all _ _ _ _ Els Hr) as ([r' lr] & Er & Hin). destruct (ss_total r (Wr r Hr)) as (l' & El' & _). rewrite El' in Er. cbn [bind] in Er. injection Er as <- <-. apply in_combine_r in Hin.
        destruct (ss_find r l' w (Wr r Hr) El' Hrw) as (y & Hy & Hyw & Sy).
        assert (Txy : str x = str y). { apply (sing1_text (layer r)); [split; [exact Wx|split; [exact Cx|congruence]]|exact Sy|]. destruct Sy as (Wy & Cy & _). apply words_means in Hw, Hyw. rewrite (words_single x Wx Cx) in Hw. rewrite (words_single y Wy Cy) in Hyw. destruct Hw as [<-|[]], Hyw as [Hyw|[]]. congruence. }
        unfold owner. destruct (find (fun e => memb script_eqb x (snd e)) (rev ls)) as [e|] eqn:Ef; [cbn [option_map]; eauto|]. exfalso. apply find_none with (x := (r, l')) in Ef; [|now apply -> in_rev]. cbn [snd] in Ef. assert (Mb : memb script_eqb x l' = true) by (apply memb_text; eauto). congruence. }
    rewrite Em. cbn [bind]. apply mapM_total. intros r Hr. destruct (root_total r (map snd (filter (fun e => script_eqb (fst e) r) m))) as (ts & Et).
    - rewrite Forall_forall in Fr. auto.
    - apply Forall_forall. intros s Hs. apply in_map_iff in Hs as ([r' s'] & <- & Hs). apply filter_In in Hs as [Hs _]. destruct (assign_in _ _ _ Em _ _ Hs) as [Hs' Cs]. auto.
    - rewrite Et. cbn [bind]. eauto.
  Qed.
End Root.

(** * Ranks *)
Fixpoint depth (t : table) : nat := match t with Tab _ _ None _ => 0 | Tab _ _ (Some p) _ => S (depth p) end.
Lemma rank_depth t : tkind t <> KCell -> (forall p, tparent t = Some p -> tkind p <> KCell /\ rank p <= 1 + 2 * depth p) -> rank t <= 1 + 2 * depth t.
Proof.
  destruct t as [k s [p|] r]; cbn [tkind tparent]; intros K H; [|cbn; destruct k; try congruence; lia]. destruct (H p eq_refl) as [_ Rp]. cbn [rank depth]. destruct k; try congruence; destruct (is_set p), r; lia.
Qed.
Lemma tree_ranks r ps ts t0 more cells : wf r -> tree r ps ts t0 more cells -> cardinal r <> 1%N ->
  (forall s t u, inside u r -> cardinal s <> 1%N -> cardinal t <> 1%N -> cardinal u <> 1%N -> In s ps -> In t ps -> In u ps -> str s <> str t -> str t <> str u -> str s <> str u -> str s <> str r -> str t <> str r -> str u <> str r -> inside s t -> inside t u -> False) ->
  forall t, In t (t0 :: more) -> rank t <= 5.
Proof.
  intros Wr T Cr Sh. pose proof (tree_inside r ps ts t0 more cells Wr T) as Ti. pose proof (tree_in r ps ts t0 more cells T) as Tn. destruct T as (_ & E0 & _ & Fm & Nd). destruct (mk_table_spec _ _ _ _ E0) as (k0 & K0 & ->). set (t0 := Tab k0 r None false) in *.
  assert (Kc : forall t, In t (t0 :: more) -> tkind t <> KCell).
  { intros t [<-|Ht]; [cbn [tkind t0]; intros ->; apply Cr; apply (proj1 (class_cell _ _ K0)); reflexivity|]. rewrite Forall_forall in Fm. apply (Fm t Ht). }
  assert (Up : forall t, In t more -> exists p, tparent t = Some p /\ In p (t0 :: more) /\ inside (tscript t) (tscript p) /\ In (tscript t) ps /\ cardinal (tscript t) <> 1%N /\ inside (tscript t) r).
  { intros t Ht. rewrite Forall_forall in Fm. destruct (Fm t Ht) as (H1 & _ & p & H2 & H3 & H4 & _ & H5). exists p. repeat (split; [assumption|]). apply Ti, Tn. auto. }
  assert (Rk : forall n t, depth t <= n -> In t (t0 :: more) -> rank t <= 1 + 2 * depth t).
  { induction n as [|n IH]; intros t Dt Ht; (apply rank_depth; [auto|]; intros p Hp; destruct t as [k s [q|] rg]; cbn [tparent] in Hp; [injection Hp as ->|discriminate]; cbn [depth] in Dt; try lia).
    destruct Ht as [X|Ht]; [discriminate|]. destruct (Up _ Ht) as (p' & Hp' & Hin & _). cbn [tparent] in Hp'. injection Hp' as <-. split; [auto|]. apply IH; [lia|exact Hin]. }
  assert (Dp : forall t p, tparent t = Some p -> depth t = S (depth p)) by (intros [k s [q|] rg] p H; cbn [tparent] in H; [injection H as ->; reflexivity|discriminate]).
  assert (Tx : forall a b, In a (t0 :: more) -> In b (t0 :: more) -> depth a <> depth b -> str (tscript a) <> str (tscript b)) by (intros a b Ha Hb D X; apply D; f_equal; exact (nodup_inj (fun t => str (tscript t)) _ a b Nd Ha Hb X)).
  assert (D0 : depth t0 = 0) by reflexivity. assert (S0 : tscript t0 = r) by reflexivity. clearbody t0.
  intros t Ht. pose proof (Rk _ t (le_n _) Ht) as R. destruct (le_lt_dec (depth t) 2) as [L|L]; [lia|]. exfalso.
  assert (In_more : forall a, In a (t0 :: more) -> 0 < depth a -> In a more) by (intros a [<-|H] D; [lia|exact H]).
  pose proof (In_more t Ht ltac:(lia)) as Mt. destruct (Up t Mt) as (p & Hp & Ip & Ins & Ps & C1 & _). pose proof (Dp _ _ Hp) as D1. pose proof (In_more p Ip ltac:(lia)) as Mp. destruct (Up p Mp) as (q & Hq & Iq & Ins' & Ps' & C2 & _). pose proof (Dp _ _ Hq) as D2. pose proof (In_more q Iq ltac:(lia)) as Mq. destruct (Up q Mq) as (o & Ho & Io & _ & Ps'' & C3 & Iqr).
  assert (Z : In t0 (t0 :: more)) by (simpl; auto). subst r.
  apply (Sh (tscript t) (tscript p) (tscript q) Iqr C1 C2 C3 Ps Ps' Ps''); try (apply Tx; auto; lia); auto.
Qed.

(** * Relations *)
Lemma mapM_fine {A B} (f : A -> res B) l : (forall x, In x l -> exists y, f x = Ok y) -> exists l', mapM f l = Ok l' /\ forall y, In y l' -> exists x, In x l /\ f x = Ok y.
Proof. intros H. destruct (mapM_total f l H) as (l' & E). exists l'. split; [exact E|]. intros y Hy. destruct (mapM_in _ _ _ _ E Hy) as (x & Hx & Ex). eauto. Qed.
Lemma nodup_both {A} (a b : list A) : NoDup a -> NoDup b -> (forall x, In x a -> ~ In x b) -> NoDup (a ++ b).
Proof.
  intros Na Nb D. induction Na as [|x a H Na IH]; [exact Nb|]. cbn [app]. constructor; [|apply IH; intros y Hy; apply D; simpl; auto]. intros X. apply in_app_or in X as [X|X]; [contradiction|]. exact (D x (or_introl eq_refl) X).
Qed.
Section Rel.
  Variable sc : list script.
  Variable fo : list (script * list table).
  Variable inh : list (string * list string).
  Hypothesis Hfo : forall r ts, In (r, ts) fo -> nf r /\ cardinal r <> 1%N /\ sums_disjoint r /\
    exists ps t0 more cells, tree r ps ts t0 more cells /\ Forall nf ps /\ forall t, In t (t0 :: more) -> rank t <= 5.
  Hypothesis Hsc : forall r ts t, In (r, ts) fo -> In t ts -> exists x, In x sc /\ str x = str (tscript t).
  Hypothesis Htb : forall s, In s sc -> wf s /\ exists t, table_of fo s = Some t.

  Lemma idx_total s : (exists x, In x sc /\ str x = str s) -> exists i, idx sc s = Ok i.
  Proof. apply index_total. Qed.
  Lemma fo_table r ts t : In (r, ts) fo -> In t ts -> nf (tscript t) /\ inside (tscript t) r /\ (cardinal (tscript t) <> 1%N -> rank t <= 5) /\ (cardinal (tscript t) = 1%N -> rank t = 6).
  Proof.
    intros He Ht. destruct (Hfo r ts He) as (Nr & Cr & Dr & ps & t0 & more & cells & T & Np & Rk). pose proof Nr as [Wr _]. assert (Wp : Forall wf ps) by (eapply Forall_impl; [|exact Np]; intros s [W _]; exact W).
    split; [|split; [eapply tree_inside; eauto|]].
    - pose proof (tree_wf _ _ _ _ _ _ Wr Wp T t Ht) as Wt. apply (proj1 (tree_in _ _ _ _ _ _ T t)) in Ht as [->|[Ht|(x & Hx & ->)]]; destruct T as (_ & E0 & Es & Fm & _).
      + apply mk_table_spec in E0 as (k & _ & ->). exact Nr.
      + rewrite Forall_forall in Fm, Np. apply Np, (Fm t Ht).
      + cbn [tscript cell_of]. destruct (ss_elements r cells Wr Es) as [F|(y & -> & _)]; [rewrite Forall_forall in F; auto|]. destruct Nr as [_ Nn]. exfalso. exact (Nn y eq_refl).
    - apply (proj1 (tree_in _ _ _ _ _ _ T t)) in Ht as [->|[Ht|(x & Hx & ->)]].
      + split; [intros _; apply Rk; simpl; auto|]. destruct T as (_ & E0 & _). apply mk_table_spec in E0 as (k & _ & ->). intros C. contradiction.
      + split; [intros _; apply Rk; simpl; auto|]. destruct T as (_ & _ & _ & Fm & _). rewrite Forall_forall in Fm. destruct (Fm t Ht) as (_ & _ & p & _ & _ & _ & _ & C). intros X. contradiction.
      + split; [|reflexivity]. destruct T as (_ & _ & Es & _). destruct (ss_sing r cells x Wr Es Hx) as (_ & C & _). intros X. contradiction.
  Qed.
  Lemma idx_table r ts t : In (r, ts) fo -> In t ts -> exists i, idx sc (tscript t) = Ok i.
  Proof. intros He Ht. apply idx_total. eauto. Qed.
  (** A singular sequence of a root is indexed. *)
  Lemma idx_word r ts x : In (r, ts) fo -> wf x -> cardinal x = 1%N -> inside x r -> exists i, idx sc x = Ok i.
  Proof.
    intros He Wx Cx [Lx Ix]. destruct (Hfo r ts He) as (Nr & Cr & Dr & ps & t0 & more & cells & T & _). pose proof Nr as [Wr _]. destruct (some_word x Wx) as (w & Hw). pose proof T as (_ & _ & Es & _).
    destruct (ss_find r cells w Wr Es (Ix w Hw)) as (y & Hy & Hyw & Sy).
    assert (Txy : str y = str x). { apply (sing1_text (layer r)); [exact Sy|split; [exact Wx|split; [exact Cx|exact Lx]]|]. destruct Sy as (Wy & Cy & _). apply words_means in Hw, Hyw. rewrite (words_single x Wx Cx) in Hw. rewrite (words_single y Wy Cy) in Hyw. destruct Hw as [<-|[]], Hyw as [Hyw|[]]. congruence. }
    destruct (Hsc r ts (cell_of t0 y) He) as (z & Hz & Ez); [apply (proj2 (tree_in _ _ _ _ _ _ T _)); eauto|]. apply idx_total. exists z. cbn [tscript cell_of] in Ez. split; [exact Hz|congruence].
  Qed.
  Lemma contains_in_total r ts : In (r, ts) fo -> exists m, contains_in sc ts = Ok m.
  Proof.
    intros He. unfold contains_in. set (ps := map tscript (filter (fun t => paradigm (tscript t)) ts)).
    assert (Hp : forall p, In p ps -> exists t, In t ts /\ tscript t = p) by (intros p H; apply in_map_iff in H as (t & <- & H); apply filter_In in H as [H _]; eauto). clearbody ps.
    destruct (mapM_total (fun p => do i <- idx sc p; do x <- ss p; do a <- idxs sc x; do keep <- mapM (fun k => script_in k p) ps; do b <- idxs sc (map fst (filter snd (combine ps keep))); Ok (pairs i (a ++ b))%list) ps) as (l & El); [|rewrite El; cbn [bind]; eauto].
    intros p H. destruct (Hp p H) as (t & Ht & <-). destruct (fo_table r ts t He Ht) as ([Wt _] & It & _). destruct (idx_table r ts t He Ht) as (i & Ei). rewrite Ei. cbn [bind].
    destruct (ss_total (tscript t) Wt) as (x & Ex & Fx & _). rewrite Ex. cbn [bind]. destruct (mapM_total (idx sc) x) as (a & Ea).
    { intros y Hy. destruct (ss_sing _ _ _ Wt Ex Hy) as (Wy & Cy & Ly). apply (idx_word r ts y He Wy Cy). apply (inside_trans y (tscript t)); [|exact It]. split; [exact Ly|]. intros w Hw. eapply ss_word; eauto. }
    unfold idxs. rewrite Ea. cbn [bind]. destruct (mapM_total (fun k => script_in k (tscript t)) ps) as (keep & Ek).
    { intros k Hk. destruct (Hp k Hk) as (u & Hu & <-). destruct (fo_table r ts u He Hu) as ([Wu _] & _). destruct (script_in_spec (tscript u) (tscript t) Wu Wt) as (b & Eb & _). eauto. }
    rewrite Ek. cbn [bind]. destruct (mapM_total (idx sc) (map fst (filter snd (combine ps keep)))) as (b & Eb); [|rewrite Eb; cbn [bind]; eauto].
    intros k Hk. apply in_map_iff in Hk as ([k' b] & <- & Hk). apply filter_In in Hk as [Hk _]. apply in_combine_l in Hk. destruct (Hp k' Hk) as (u & Hu & <-). exact (idx_table r ts u He Hu).
  Qed.
  Lemma contains_total : exists m, compute_contains sc fo = Ok m.
  Proof. unfold compute_contains. destruct (mapM_total (fun e => contains_in sc (snd e)) fo) as (l & El); [intros [r ts] He; exact (contains_in_total r ts He)|]. rewrite El. cbn [bind]. eauto. Qed.

  Lemma known_idx x : known sc x = true -> exists i, idx sc x = Ok i.
  Proof. intros K. apply idx_total. now apply memb_text. Qed.
  Lemma recurse_total s : exists l, recurse_script sc s = Ok l.
  Proof.
    induction s as [n|p|a b c IHa IHb IHc|cs IH] using script_ind'.
    - cbn. eauto.
    - cbn [recurse_script]. destruct (known sc (Prim p)) eqn:K; [|eauto]. destruct (known_idx _ K) as (i & Ei). rewrite Ei. cbn [bind]. eauto.
    - cbn [recurse_script]. destruct (known sc (Mul a b c)) eqn:K; [destruct (known_idx _ K) as (i & Ei); rewrite Ei; cbn [bind]; eauto|]. destruct IHa as (x & ->), IHb as (y & ->), IHc as (z & ->). cbn [bind]. eauto.
    - cbn [recurse_script]. induction cs as [|x cs IHcs]; [eauto|]. apply Forall_cons_iff in IH as [Hx IH]. destruct (IHcs IH) as (l & El). destruct x as [n|p|a b c|ds].
      + exact (ex_intro _ l El).
      + destruct (known sc (Prim p)) eqn:K; cbn [bind].
        * destruct (known_idx _ K) as (i & Ei). rewrite Ei. cbn [bind]. rewrite El. cbn [bind]. eauto.
        * rewrite El. cbn [bind]. eauto.
      + destruct Hx as (v & Hx). cbn [recurse_script] in Hx. rewrite Hx. cbn [bind]. rewrite El. cbn [bind]. eauto.
      + destruct (known sc (Add ds)) eqn:K; cbn [bind].
        * destruct (known_idx _ K) as (i & Ei). rewrite Ei. cbn [bind]. rewrite El. cbn [bind]. eauto.
        * rewrite El. cbn [bind]. eauto.
  Qed.
  Lemma father_total n : exists m, compute_father sc n = Ok m.
  Proof.
    unfold compute_father. destruct (mapM_total (fathers sc n) sc) as (l & El); [|rewrite El; cbn [bind]; eauto]. intros s Hs. unfold fathers. destruct (idx_total s) as (i & Ei); [eauto|]. rewrite Ei. cbn [bind].
    destruct (mapM_total (fun x => match x with Mul a b c => recurse_script sc (nth n [a; b; c] (Null 0)) | _ => Ok [] end) (terms s)) as (l & El); [|rewrite El; cbn [bind]; eauto]. intros [n'|p|a b c|cs] _; eauto. apply recurse_total.
  Qed.

  Lemma siblings_total rel f : (forall r ts, In (r, ts) fo -> layer r <> 0 -> exists m, f ts = Ok m) -> exists m, siblings fo inh rel f = Ok m.
  Proof.
    intros H. unfold siblings. destruct (mapM_total (fun e => if inhibited inh (fst e) rel || Nat.eqb (layer (fst e)) 0 then Ok [] else f (snd e)) fo) as (l & El); [|rewrite El; cbn [bind]; eauto].
    intros [r ts] He. cbn [fst snd]. destruct (inhibited inh r rel); cbn [orb]; [eauto|]. destruct (Nat.eqb_spec (layer r) 0); [eauto|]. exact (H r ts He n).
  Qed.
  Lemma siblings_in_total rel r ts : In (r, ts) fo -> (forall s t, nf s -> nf t -> layer s = layer r -> layer t = layer r -> is_mul s = true -> is_mul t = true -> exists b, rel s t = Ok b) -> exists m, siblings_in sc rel ts = Ok m.
  Proof.
    intros He H. unfold siblings_in. destruct (mapM_total (fun e => do i <- idx sc (fst e); do j <- idx sc (snd e); do b <- rel (fst e) (snd e); Ok (if b then both i j else [])) (couples (filter is_mul (map tscript ts)))) as (l & El); [|rewrite El; cbn [bind]; eauto].
    intros [a b] Hab. apply couples_filter_map in Hab as (x & y & Hxy & <- & <- & Mx & My). destruct (two_in x y ts (proj2 (couples_two ts x y) (or_introl Hxy))) as [Hx Hy]. cbn [fst snd].
    destruct (idx_table r ts x He Hx) as (i & Ei), (idx_table r ts y He Hy) as (j & Ej). rewrite Ei, Ej. cbn [bind]. destruct (fo_table r ts x He Hx) as (Nx & [Lx _] & _), (fo_table r ts y He Hy) as (Ny & [Ly _] & _). destruct (H _ _ Nx Ny Lx Ly Mx My) as (b & ->). cbn [bind]. eauto.
  Qed.
  Lemma twins_in_total r ts : In (r, ts) fo -> layer r <> 0 -> exists m, twins_in sc ts = Ok m.
  Proof.
    intros He Lr. unfold twins_in. set (ms := filter is_mul (map tscript ts)).
    assert (Hm : forall s, In s ms -> is_mul s = true /\ exists t, In t ts /\ tscript t = s) by (intros s H; apply filter_In in H as [H M]; apply in_map_iff in H as (t & <- & H); eauto). clearbody ms.
    destruct (mapM_total (fun s => same (child 0 s) (child 1 s)) ms) as (tw & Ew).
    { intros s Hs. destruct (Hm s Hs) as (M & t & Ht & <-). destruct (fo_table r ts t He Ht) as (_ & [Lt _] & _). destruct (mul_inv _ M) as (a & b & c & ->); [congruence|]. cbn. eauto. }
    rewrite Ew. cbn [bind]. match goal with |- context[mapM ?g ?q] => destruct (mapM_total g q) as (l & El); [|rewrite El; cbn [bind]; eauto] end.
    intros [a b] Hab. cbn [fst snd]. unfold permutations2 in Hab. apply in_flat_map in Hab as ([a' b'] & Hab & Q). set (zs := map fst (filter snd (combine ms tw))) in *.
    assert (Hz : forall z, In z zs -> exists i, idx sc z = Ok i) by (intros z Hz; apply in_map_iff in Hz as ([z' q] & <- & Hz); apply filter_In in Hz as [Hz _]; apply in_combine_l in Hz; destruct (Hm z' Hz) as (_ & t & Ht & <-); exact (idx_table r ts t He Ht)).
    destruct (two_in a' b' zs (proj2 (couples_two zs a' b') (or_introl Hab))) as [Ha Hb]. destruct (Hz _ Ha) as (i & Ei), (Hz _ Hb) as (j & Ej).
    destruct (N.eqb (cardinal a) (cardinal b)); [|eauto]. destruct Q as [Q|[Q|[]]]; injection Q as <- <-; rewrite Ei, Ej; cbn [bind]; eauto.
  Qed.
  Lemma associated_total s t : is_mul s = true -> is_mul t = true -> layer s <> 0 -> layer t <> 0 -> exists b, associated_sibling s t = Ok b.
  Proof.
    intros Ms Mt Ls Lt. destruct (mul_inv _ Ms Ls) as (a & b & c & ->), (mul_inv _ Mt Lt) as (a' & b' & c' & ->). unfold associated_sibling, and_then, same. cbn [child nth bind].
    repeat match goal with |- context[if ?x then _ else _] => destruct x; cbn [bind]; eauto end.
  Qed.
  Lemma crossed_total s t : nf s -> nf t -> is_mul s = true -> is_mul t = true -> layer s = layer t -> layer s <> 0 -> exists b, crossed_sibling s t = Ok b.
  Proof.
    intros [Ws _] [Wt _] Ms Mt Ll Ls. destruct (mul_inv _ Ms Ls) as (a & b & c & ->), (mul_inv t Mt) as (a' & b' & c' & ->); [congruence|]. unfold crossed_sibling.
    destruct (Nat.leb_spec 2 (layer (Mul a b c))) as [L2|L2]; cbn [andb and_then]; [|eauto]. destruct (N.eqb _ _); cbn [and_then]; [|eauto]. cbn [child nth bind].
    destruct (child_nf _ _ _ Ws) as [Na Nb], (child_nf _ _ _ Wt) as [Na' Nb']. cbn [layer] in *. pose proof Ws as (_ & _ & _ & _ & _ & _ & L1 & _). pose proof Wt as (_ & _ & _ & _ & _ & _ & L1' & _).
    destruct (opposed_total a a') as (x & Ex); auto; try lia. rewrite Ex. cbn [bind]. unfold and_then. destruct x; [|eauto]. apply opposed_total; auto; lia.
  Qed.

  (** The tables of a root have different texts. *)
  Lemma cells_texts r cells : wf r -> sums_disjoint r -> ss r = Ok cells -> NoDup (map str cells).
  Proof.
    intros Wr Dr Es. destruct (ss_total r Wr) as (l & El & Fl & Pl & _). rewrite Es in El. apply Ok_inj in El. subst l. apply (words_nodup r Wr) in Dr. apply (Permutation_NoDup (Permutation_sym Pl)) in Dr.
    clear - Dr Fl. induction cells as [|x l IH]; [constructor|]. cbn [map] in *. apply NoDup_cons_iff in Dr as [D1 D2]. apply Forall_cons_iff in Fl as [F1 F2]. constructor; [|auto].
    intros X. apply D1. apply in_map_iff in X as (y & Ey & Hy). apply in_map_iff. exists y. split; [|exact Hy]. rewrite Forall_forall in F2. destruct (F2 y Hy) as (Wy & Cy & _). destruct F1 as (Wx & Cx & _).
    destruct (same_text y x Wy Wx Ey) as [_ I]. assert (M : means y (wordof y)) by (apply words_means; rewrite (words_single y Wy Cy); simpl; auto). apply I, words_means in M. rewrite (words_single x Wx Cx) in M. destruct M as [M|[]]. congruence.
  Qed.
  Lemma distinct_texts r ts : In (r, ts) fo -> NoDup (map (fun t => str (tscript t)) ts).
  Proof.
    intros He. destruct (Hfo r ts He) as (Nr & Cr & Dr & ps & t0 & more & cells & T & Np & _). pose proof Nr as [Wr _]. pose proof T as (Et & E0 & Es & Fm & Nm). rewrite Et. change (t0 :: more ++ map (cell_of t0) cells)%list with ((t0 :: more) ++ map (cell_of t0) cells)%list. rewrite map_app.
    assert (Nc : NoDup (map (fun t => str (tscript t)) (map (cell_of t0) cells))) by (rewrite map_map; exact (cells_texts r cells Wr Dr Es)).
    apply nodup_both; auto. intros k Hk Hk'. apply in_map_iff in Hk as (t & <- & Ht). rewrite map_map in Hk'. apply in_map_iff in Hk' as (x & Ex & Hx). cbn [tscript cell_of] in Ex.
    destruct (ss_sing r cells x Wr Es Hx) as (Wx & Cx & _). assert (Hts : In t ts) by (rewrite Et; destruct Ht as [<-|Ht]; [simpl; auto|right; apply in_or_app; auto]).
    destruct (fo_table r ts t He Hts) as ([Wt _] & _). destruct (eq_attributes x _ Wx Wt Ex) as [(_ & _ & A & _) _].
    assert (Ct : cardinal (tscript t) <> 1%N). { destruct Ht as [<-|Ht]; [apply mk_table_spec in E0 as (k & _ & ->); exact Cr|]. rewrite Forall_forall in Fm. destruct (Fm t Ht) as (_ & _ & p & _ & _ & _ & _ & C). exact C. } congruence.
  Qed.
  Lemma rank_at_total i : i < List.length sc -> exists k s, rank_at sc fo i = Ok k /\ nth_error sc i = Some s /\ (k = 6 \/ k <= 5) /\ (cardinal s <> 1%N -> k <= 5).
  Proof.
    intros L. unfold rank_at. destruct (nth_error sc i) as [s|] eqn:E; [|apply nth_error_None in E; lia]. destruct (Htb s (nth_error_In _ _ E)) as (Ws & t & Et). rewrite Et. exists (rank t), s. split; [reflexivity|]. split; [reflexivity|].
    destruct (table_of_some _ _ _ Et) as ([r ts] & He & Ht & Tx). cbn [snd] in Ht. destruct (fo_table r ts t He Ht) as ([Wt _] & _ & R5 & R6). destruct (eq_attributes _ _ Wt Ws Tx) as [(_ & _ & A & _) _].
    destruct (N.eq_dec (cardinal (tscript t)) 1) as [C|C]; [|auto]. split; [auto|]. intros X. congruence.
  Qed.
  Lemma row_in m i k : In k (row_of sc m i) -> k < List.length sc /\ In (i, k) m.
  Proof. unfold row_of. intros H. apply filter_In in H as [H1 H2]. apply in_seq in H1. apply existsb_exists in H2 as ([a b] & Hm & H2). cbn [fst snd] in H2. apply andb_true_iff in H2 as [H2 H3]. apply Nat.eqb_eq in H2, H3. subst. split; [lia|exact Hm]. Qed.
  (** What has something else in it is a table with several singular sequences. *)
  Lemma container m k i : compute_contains sc fo = Ok m -> In (k, i) m -> k = i \/ exists s, nth_error sc k = Some s /\ cardinal s <> 1%N.
  Proof.
    intros E H. apply (compute_contains_spec _ _ _ _ _ E) in H as [[H _]|([r ts] & m' & He & Em & H)]; [auto|]. cbn [snd] in Em. apply (contains_in_spec _ _ _ _ _ Em) in H as (p & x & (t & Ht & Etp) & Pp & Ei & _).
    right. destruct (index_some _ _ _ Ei) as (s & Es & Ts). exists s. split; [exact Es|]. destruct (Htb s (nth_error_In _ _ Es)) as (Ws & _). destruct (fo_table r ts t He Ht) as ([Wt _] & _). rewrite Etp in Wt. destruct (eq_attributes _ _ Ws Wt Ts) as [(_ & _ & A & _) _]. rewrite A. intros C. apply cardinal_paradigm in C; [congruence|exact Wt].
  Qed.
  Lemma between_total m r ts : compute_contains sc fo = Ok m -> In (r, ts) fo -> exists l, ranks_between sc fo (transposed m) ts = Ok l.
  Proof.
    intros Em He. unfold ranks_between. match goal with |- context[mapM ?g (couples ts)] => destruct (mapM_total g (couples ts)) as (l & El); [|rewrite El; cbn [bind]; eauto] end.
    intros [x y] Hxy. cbn [fst snd]. destruct (two_in x y ts (proj2 (couples_two ts x y) (or_introl Hxy))) as [Hx Hy]. destruct (idx_table r ts x He Hx) as (i & Ei), (idx_table r ts y He Hy) as (j & Ej). rewrite Ei, Ej. cbn [bind].
    assert (Dij : i <> j).
    { intros <-. pose proof (index_eq _ _ _ _ Ei Ej) as Tx. pose proof (distinct_texts r ts He) as Nd. apply couples_split in Hxy as (l1 & l2 & l3 & ->). rewrite map_app in Nd. cbn [map] in Nd. apply NoDup_remove_2 in Nd. apply Nd. apply in_or_app. right. rewrite Tx. apply in_map_iff. exists y. split; [reflexivity|apply in_or_app; simpl; auto]. }
    destruct (mapM_fine (rank_at sc fo) (filter (fun k => memb Nat.eqb k (row_of sc (transposed m) j)) (row_of sc (transposed m) i))) as (rs & Ers & Hrs).
    { intros k Hk. apply filter_In in Hk as [Hk _]. apply row_in in Hk as [Hk _]. destruct (rank_at_total k Hk) as (q & s & Eq & _). eauto. }
    rewrite Ers. cbn [bind]. destruct (existsb (fun q => Nat.leb 6 q) rs) eqn:X; [|eauto]. exfalso. apply existsb_exists in X as (q & Hq & L6). apply Nat.leb_le in L6. destruct (Hrs q Hq) as (k & Hk & Ek). apply filter_In in Hk as [Hk Hkj]. apply existsb_exists in Hkj as (k0 & Hkj & Ek0). apply Nat.eqb_eq in Ek0. subst k0.
    apply row_in in Hk as [Lk Hki]. apply row_in in Hkj as [_ Hkj]. apply (proj1 (transposed_in _ _ _)) in Hki, Hkj. destruct (rank_at_total k Lk) as (q' & s & Eq & Es & _ & R5). rewrite Ek in Eq. apply Ok_inj in Eq. subst q'.
    assert (Cs : cardinal s <> 1%N). { destruct (container m k i Em Hki) as [->|(s' & Es' & C)]; [destruct (container m i j Em Hkj) as [Q|(s' & Es' & C)]; [contradiction|]|]; congruence. } specialize (R5 Cs). lia.
  Qed.
  Lemma ranks_total m : forall l st, incl l sc -> exists q, ranks_of sc fo m st l = Ok q.
  Proof.
    induction l as [|t l IH]; intros st I; [cbn; eauto|]. cbn [ranks_of]. destruct (idx_total t) as (i & Ei); [exists t; split; [apply I; simpl; auto|reflexivity]|]. rewrite Ei. cbn [bind].
    destruct (mapM_fine (rank_at sc fo) (row_of sc m i)) as (rs & Ers & Hrs); [intros k Hk; apply row_in in Hk as [Hk _]; destruct (rank_at_total k Hk) as (q & s & Eq & _); eauto|]. rewrite Ers. cbn [bind].
    destruct (existsb _ _) eqn:X.
    - exfalso. apply existsb_exists in X as (q & Hq & L6). apply Nat.leb_le in L6. apply filter_In in Hq as [Hq N6]. unfold nset in Hq. apply (Permutation_in _ (sort_perm _ _)), dedup_in in Hq. destruct (Hrs q Hq) as (k & Hk & Ek). apply row_in in Hk as [Lk _]. destruct (rank_at_total k Lk) as (q' & s & Eq & _ & D & _). rewrite Ek in Eq. apply Ok_inj in Eq. subst q'. destruct D as [->|D]; [discriminate|lia].
    - destruct (IH (Some (filter (fun r => negb (Nat.eqb r 6)) (nset rs))) (fun y Hy => I y (or_intror Hy))) as (q & ->). cbn [bind]. eauto.
  Qed.
  Lemma relations_total : exists rel, compute_relations sc fo inh = Ok rel.
  Proof.
    unfold compute_relations. destruct contains_total as (m & Em). rewrite Em. cbn [bind]. destruct (father_total 0) as (f0 & ->), (father_total 1) as (f1 & ->), (father_total 2) as (f2 & ->). cbn [bind].
    destruct (siblings_total "opposed" (siblings_in sc opposed_sibling)) as (s1 & ->); [intros r ts He L; apply (siblings_in_total _ r ts He); intros s t Ns Nt Ls Lt _ _; apply opposed_total; auto; congruence|]. cbn [bind].
    destruct (siblings_total "associated" (siblings_in sc associated_sibling)) as (s2 & ->); [intros r ts He L; apply (siblings_in_total _ r ts He); intros s t Ns Nt Ls Lt Ms Mt; apply associated_total; auto; congruence|]. cbn [bind].
    destruct (siblings_total "crossed" (siblings_in sc crossed_sibling)) as (s3 & ->); [intros r ts He L; apply (siblings_in_total _ r ts He); intros s t Ns Nt Ls Lt Ms Mt; apply crossed_total; auto; congruence|]. cbn [bind].
    destruct (siblings_total "twin" (twins_in sc)) as (s4 & ->); [intros r ts He L; exact (twins_in_total r ts He L)|]. cbn [bind]. unfold compute_table_rank.
    destruct (mapM_total (fun e => ranks_between sc fo (transposed m) (snd e)) fo) as (l & ->); [intros [r ts] He; exact (between_total m r ts Em He)|]. cbn [bind].
    destruct (ranks_total (transposed m) sc None (incl_refl sc)) as (q & ->). cbn [bind]. eauto.
  Qed.
End Rel.

(** * Loading *)
Section Front.
  Variable so : list script -> list script.
  Hypothesis SO : set_order so.
  Variable paradigms : list string.
  Variable rows : list (string * string * string).
  Hypothesis WS : well_stated so paradigms rows.

  Lemma sings_have l : forall d x, In x l -> In (str x) (map fst (fold_left (fun d (x : script) => set_key (str x) x d) l d)).
  Proof. induction l as [|y l IH]; intros d x H; [destruct H|]. cbn [fold_left]. destruct H as [->|H]; [apply sings_keys, set_key_fst; auto|auto]. Qed.
  Definition ready (st : loading) : Prop :=
    entries so True (l_scripts st) /\ (forall p, In p paradigms -> In p (map fst (l_scripts st))) /\
    (forall e, In e (l_scripts st) -> cardinal (snd e) = 1%N \/ In (fst e) paradigms /\ parse so (fst e) = Ok (snd e)) /\
    (forall r, In r (l_roots st) -> parse so (str r) = Ok r /\ forall l x, ss r = Ok l -> In x l -> In (str x) (map fst (l_scripts st))) /\
    (forall s, In s (l_ignored st) -> parse so (str s) = Ok s).
  Lemma truthy_yes v : v <> EmptyString -> truthy v = Ok (yes v).
  Proof. destruct v; [congruence|reflexivity]. Qed.
  Lemma read_total todo : incl todo rows -> forall st, ready st -> exists st', read_rows st todo = Ok st' /\ ready st' /\
    map str (l_roots st') = (map str (l_roots st) ++ flagged todo "is_root")%list /\ map str (l_ignored st') = (map str (l_ignored st) ++ flagged todo "is_ignored")%list.
  Proof.
    induction todo as [|[[p key] value] todo IH]; intros I st R.
    { exists st. split; [reflexivity|]. split; [exact R|]. cbn. now rewrite !app_nil_r. }
    assert (Hin : In (p, key, value) rows) by (apply I; simpl; auto). assert (I' : incl todo rows) by (intros y Hy; apply I; simpl; auto). assert (Nv : value <> EmptyString) by (intros ->; exact (ws_values _ _ _ WS p key Hin)).
    cbn [read_rows]. pose proof R as ((Nd & En) & Ke & Pl & Ro & Ig).
    assert (Fk : forall k, key = k -> yes value = true -> In p (flagged rows k)) by (intros k <- Y; unfold flagged; apply in_map_iff; exists (p, key, value); split; [reflexivity|]; apply filter_In; split; [exact Hin|]; cbn [fst snd]; now rewrite String.eqb_refl, Y).
    assert (Fl : forall k, flagged ((p, key, value) :: todo) k = ((if String.eqb key k && yes value then [p] else []) ++ flagged todo k)%list) by (intros k; unfold flagged; cbn [filter fst snd]; destruct (String.eqb key k && yes value); reflexivity).
    unfold read_row. destruct (get_key p (l_scripts st)) as [s|] eqn:G.
    2:{ apply get_key_none in G. destruct (IH I' st R) as (st' & E' & R' & H1 & H2). exists st'. cbn [bind]. split; [exact E'|]. split; [exact R'|]. rewrite !Fl, H1, H2.
        assert (Z : forall k, k = "is_root"%string \/ k = "is_ignored"%string -> (if String.eqb key k && yes value then [p] else []) = []).
        { intros k Hk. destruct (String.eqb_spec key k) as [Ek|_]; [|reflexivity]. destruct (yes value) eqn:Y; [|reflexivity]. exfalso. apply G, Ke. specialize (Fk k Ek eq_refl). destruct Hk as [-> | ->]; [apply (ws_root _ _ _ WS p Fk)|apply (ws_ignore _ _ _ WS p Fk)]. }
        rewrite !Z by auto. auto. }
    pose proof (get_key_in _ _ _ G) as Gin. pose proof (En _ Gin) as (Ws & (v & Ev & Tv) & Ts). cbn [fst snd] in *. destruct (Ts Logic.I) as [Ns Tp]. destruct (ss_total s Ws) as (l & El & _). rewrite El. cbn [bind]. set (scripts := fold_left _ l (l_scripts st)).
    assert (En' : entries so True scripts) by (apply (entries_sings so SO True s l); auto; [apply incl_refl|split; auto]).
    assert (Ky : forall k, In k (map fst (l_scripts st)) -> In k (map fst scripts)) by (intros k; apply sings_keys).
    assert (Kl : forall x, In x l -> In (str x) (map fst scripts)) by (intros x Hx; now apply sings_have).
    assert (Pl' : forall e, In e scripts -> cardinal (snd e) = 1%N \/ In (fst e) paradigms /\ parse so (fst e) = Ok (snd e)) by (intros e He; apply sings_in in He as [He|He]; [auto|left; apply (ss_sing _ _ _ Ws El He)]). clearbody scripts.
    assert (Ro' : forall r, In r (l_roots st) -> parse so (str r) = Ok r /\ forall l x, ss r = Ok l -> In x l -> In (str x) (map fst scripts)) by (intros r Hr; destruct (Ro r Hr) as [P S']; eauto).
    assert (Ps : forall k, k = "is_root"%string \/ k = "is_ignored"%string -> key = k -> yes value = true -> parse so (str s) = Ok s).
    { intros k Hk Ek Y. specialize (Fk k Ek Y). assert (Cs : In p paradigms /\ cardinal v <> 1%N). { destruct Hk as [-> | ->]; [destruct (ws_root _ _ _ WS p Fk) as [H1 H2]; auto|]. destruct (ws_ignore _ _ _ WS p Fk) as (H1 & _ & H2). split; [exact H1|]. apply (H2 v Ev). }
      destruct Cs as [Hp Cv]. destruct (Pl _ Gin) as [C|[_ P]]; cbn [fst snd] in *; [|now rewrite Tp]. exfalso. apply Cv. pose proof (constructible_wf _ (parse_constructible so SO _ _ Ev)) as Wv. destruct (eq_attributes v s Wv Ws Tv) as [(_ & _ & A & _) _]. congruence. }
    assert (Fin : forall st1, ready st1 -> l_scripts st1 = scripts -> map str (l_roots st1) = (map str (l_roots st) ++ (if String.eqb key "is_root" && yes value then [p] else []))%list -> map str (l_ignored st1) = (map str (l_ignored st) ++ (if String.eqb key "is_ignored" && yes value then [p] else []))%list ->
      exists st', read_rows st1 todo = Ok st' /\ ready st' /\ map str (l_roots st') = (map str (l_roots st) ++ flagged ((p, key, value) :: todo) "is_root")%list /\ map str (l_ignored st') = (map str (l_ignored st) ++ flagged ((p, key, value) :: todo) "is_ignored")%list).
    { intros st1 R1 _ H1 H2. destruct (IH I' st1 R1) as (st' & E' & R' & H3 & H4). exists st'. split; [exact E'|]. split; [exact R'|]. rewrite H3, H4, H1, H2, !Fl, !app_assoc. auto. }
    destruct (String.eqb_spec key "inhibition") as [->|N1].
    { cbn [bind]. apply Fin; [|reflexivity|cbn; now rewrite app_nil_r|cbn; now rewrite app_nil_r]. split; [exact En'|]. cbn [l_scripts l_roots l_ignored]. split; [auto|]. split; [exact Pl'|]. split; [exact Ro'|exact Ig]. }
    destruct (String.eqb_spec key "is_root") as [->|N2].
    { rewrite (truthy_yes value Nv). cbn [bind]. apply Fin; [|reflexivity| |cbn; now rewrite app_nil_r].
      - split; [exact En'|]. cbn [l_scripts l_roots l_ignored]. split; [auto|]. split; [exact Pl'|]. split; [|exact Ig]. intros r Hr. destruct (yes value) eqn:Y; [|auto]. apply in_app_or in Hr as [Hr|[<-|[]]]; [auto|]. split; [apply (Ps "is_root"%string); auto|]. intros l0 x E0 Hx. rewrite El in E0. apply Ok_inj in E0. subst l0. auto.
      - cbn [l_roots]. destruct (yes value); cbn; [rewrite map_app; cbn; now rewrite Tp|now rewrite app_nil_r]. }
    destruct (String.eqb_spec key "is_ignored") as [->|N3].
    { rewrite (truthy_yes value Nv). cbn [bind]. apply Fin; [|reflexivity|cbn; now rewrite app_nil_r|].
      - split; [exact En'|]. cbn [l_scripts l_roots l_ignored]. split; [auto|]. split; [exact Pl'|]. split; [exact Ro'|]. intros r Hr. destruct (yes value) eqn:Y; [|auto]. apply in_app_or in Hr as [Hr|[<-|[]]]; [auto|]. apply (Ps "is_ignored"%string); auto.
      - cbn [l_ignored]. destruct (yes value); cbn; [rewrite map_app; cbn; now rewrite Tp|now rewrite app_nil_r]. }
    cbn [bind]. apply Fin; [|reflexivity|cbn; now rewrite app_nil_r|cbn; now rewrite app_nil_r]. split; [exact En'|]. cbn [l_scripts l_roots l_ignored]. split; [auto|]. split; [exact Pl'|]. split; [exact Ro'|exact Ig].
  Qed.
  Lemma load_total : exists st, load so paradigms rows = Ok st /\ ready st /\ map str (l_roots st) = flagged rows "is_root" /\ map str (l_ignored st) = flagged rows "is_ignored".
  Proof.
    unfold load. destruct (mapM_total (fun p => do s <- parse so p; Ok (p, s)) paradigms) as (l & El); [intros p Hp; destruct (ws_texts _ _ _ WS p Hp) as (s & Es & _); rewrite Es; cbn [bind]; eauto|]. rewrite El. cbn [bind].
    assert (Hl : forall e, In e l -> entry so True e /\ In (fst e) paradigms /\ parse so (fst e) = Ok (snd e)).
    { intros e He. destruct (mapM_in _ _ _ _ El He) as (p & Hp & Ep). destruct (parse so p) as [s|] eqn:Es; cbn [bind] in Ep; [|discriminate]. apply Ok_inj in Ep. subst e. cbn [fst snd]. split; [|auto].
      destruct (ws_texts _ _ _ WS p Hp) as (s' & Es' & X). rewrite Es in Es'. apply Ok_inj in Es'. subst s'. pose proof (constructible_wf _ (parse_constructible so SO p s Es)) as Ws. split; [exact Ws|]. split; [cbn [fst snd]; eauto|]. intros _. cbn [fst snd]. split; [|exact X]. apply (printed_nf so SO); [exact Ws|]. now rewrite X. }
    assert (Hp : forall p, In p paradigms -> In p (map fst l)).
    { intros p Hp. destruct (combine_all _ _ _ _ El Hp) as (e & Ee & He). cbn beta in Ee. destruct (parse so p) as [s|]; cbn [bind] in Ee; [|discriminate]. apply Ok_inj in Ee. subst e. apply in_combine_r in He. change p with (fst (p, s)). now apply in_map. }
    assert (F : forall l' d, incl l' l -> entries so True d ->
      entries so True (fold_left (fun d e => set_key (fst e) (snd e) d) l' d) /\ (forall k, In k (map fst d) \/ In k (map fst l') -> In k (map fst (fold_left (fun d e => set_key (fst e) (snd e) d) l' d))) /\
      forall e, In e (fold_left (fun d e => set_key (fst e) (snd e) d) l' d) -> In e d \/ In e l').
    { clear -Hl. induction l' as [|e l' IH]; intros d I H; cbn [fold_left]; [split; [exact H|split; [intros k [X|[]]; exact X|auto]]|].
      destruct (IH (set_key (fst e) (snd e) d)) as (E1 & E2 & E3); [intros y Hy; apply I; simpl; auto| |].
      - apply entries_set; [exact H|]. destruct e. apply Hl, I. simpl. auto.
      - split; [exact E1|]. split; [intros k [X|[X|X]]; apply E2; rewrite set_key_fst; auto|]. intros e' He. apply E3 in He as [He|He]; [|simpl; auto]. apply set_key_in in He as [->|He]; [destruct e; simpl; auto|auto]. }
    destruct (F l [] (incl_refl l)) as (F1 & F2 & F3); [split; [constructor|intros e []]|].
    match goal with |- context[read_rows ?st rows] => destruct (read_total rows (incl_refl rows) st) as (st' & E' & R' & H1 & H2) end.
    - split; [exact F1|]. cbn [l_scripts l_roots l_ignored]. split; [intros p H; apply F2; auto|]. split; [intros e He; apply F3 in He as [[]|He]; right; apply (Hl e He)|]. split; intros r [].
    - exists st'. auto.
  Qed.
  Lemma cover_total roots : Forall wf roots -> ForallOrdPairs disjoint roots -> forall acc, (forall r l x y, In r roots -> ss r = Ok l -> In x l -> In y acc -> str x <> str y) -> exists c, cover acc roots = Ok c.
  Proof.
    induction roots as [|r roots IH]; intros W D acc H; [cbn; eauto|]. apply Forall_cons_iff in W as [Wr W]. inversion D as [|? ? Dr D']; subst. cbn [cover]. destruct (ss_total r Wr) as (l & El & _). rewrite El. cbn [bind].
    destruct (existsb _ l) eqn:X.
    - exfalso. apply existsb_exists in X as (x & Hx & M). apply memb_text in M as (y & Hy & E). apply (H r l x y (or_introl eq_refl) El Hx Hy). auto.
    - apply IH; auto. intros r' l' x y Hr' El' Hx Hy E. apply in_app_or in Hy as [Hy|Hy]; [exact (H r' l' x y (or_intror Hr') El' Hx Hy E)|].
      rewrite Forall_forall in W, Dr. destruct (ss_sing _ _ _ Wr El Hy) as (Wy & _). destruct (ss_sing _ _ _ (W r' Hr') El' Hx) as (Wx & _). destruct (some_word x Wx) as (w & Hw). apply (Dr r' Hr' w).
      + eapply ss_word; eauto. destruct (same_text x y Wx Wy E) as [_ J]. auto.
      + eapply ss_word; eauto.
  Qed.
  Lemma outside_total covered l : Forall wf l -> exists o, outside covered l = Ok o.
  Proof.
    induction 1 as [|s l W F (o & IH)]; [cbn; eauto|]. cbn [outside]. destruct (ss_total s W) as (x & -> & _). cbn [bind]. rewrite IH. cbn [bind]. destruct (forallb _ x); eauto.
  Qed.
  Lemma ignore_total l : forall st, NoDup (map str l) -> (forall s, In s l -> In (str s) (map fst (l_scripts st))) -> exists st', ignore st l = Ok st'.
  Proof.
    induction l as [|s l IH]; intros st N H; [cbn; eauto|]. cbn [map] in N. apply NoDup_cons_iff in N as [N1 N2]. cbn [ignore]. destruct (get_key (str s) (l_scripts st)) as [v|] eqn:G.
    - apply IH; [exact N2|]. intros y Hy. cbn [l_scripts]. pose proof (H y (or_intror Hy)) as K. apply in_map_iff in K as (e & Ee & He). apply in_map_iff. exists e. split; [exact Ee|]. apply del_key_in. split; [exact He|]. intros X. apply N1. rewrite <- X, Ee. now apply in_map.
    - exfalso. apply get_key_none in G. apply G, H. simpl. auto.
  Qed.

  Lemma parse_wf p s : parse so p = Ok s -> wf s.
  Proof. intros E. exact (constructible_wf _ (parse_constructible so SO p s E)). Qed.
  Lemma pairwise roots : NoDup (map str roots) -> (forall r, In r roots -> parse so (str r) = Ok r) -> incl (map str roots) (flagged rows "is_root") -> ForallOrdPairs disjoint roots.
  Proof.
    induction roots as [|r roots IH]; intros N P I; [constructor|]. cbn [map] in *. apply NoDup_cons_iff in N as [N1 N2]. constructor; [|apply IH; [exact N2|intros x Hx; apply P; simpl; auto|intros x Hx; apply I; simpl; auto]].
    apply Forall_forall. intros t Ht. apply (ws_disjoint _ _ _ WS (str r) (str t)); [apply I; simpl; auto|apply I; simpl; right; now apply in_map| |apply P; simpl; auto|apply P; simpl; auto]. intros X. apply N1. rewrite X. now apply in_map.
  Qed.
  Lemma front_total : exists roots inh all, front so paradigms rows = Ok (roots, inh, all) /\ map str roots = flagged rows "is_root" /\ (forall r, In r roots -> nf r /\ parse so (str r) = Ok r) /\
    Forall nf all /\ NoDup (map str all) /\ (forall s, In s all -> cardinal s = 1%N \/ In (str s) paradigms /\ parse so (str s) = Ok s) /\
    (forall s w, In s all -> means s w -> exists r, In r roots /\ means r w) /\
    (forall r, In r roots -> exists x, In x all /\ str x = str r) /\
    (forall r l x, In r roots -> ss r = Ok l -> In x l -> exists y, In y all /\ str y = str x).
  Proof.
    destruct load_total as (st & El & R & Er & Ei). pose proof R as ((Nd & En) & Ke & Pl & Ro & Ig). unfold front. rewrite El. cbn [bind].
    assert (Pr : forall r, In r (l_roots st) -> parse so (str r) = Ok r) by (intros r Hr; apply (Ro r Hr)).
    assert (Wr : Forall wf (l_roots st)) by (apply Forall_forall; intros r Hr; eapply parse_wf; eauto).
    assert (Nr : NoDup (map str (l_roots st))) by (rewrite Er; apply (ws_roots _ _ _ WS)).
    assert (Dr : ForallOrdPairs disjoint (l_roots st)) by (apply pairwise; auto; rewrite Er; apply incl_refl).
    destruct (cover_total (l_roots st) Wr Dr []) as (covered & Ec); [intros r l x y _ _ _ []|]. rewrite Ec. cbn [bind].
    destruct (outside_total covered (map snd (l_scripts st))) as (out & Eo); [apply Forall_forall; intros s Hs; apply in_map_iff in Hs as (e & <- & He); exact (proj1 (En e He))|]. rewrite Eo. cbn [bind]. pose proof (outside_spec _ _ _ Eo) as Out.
    assert (Ent : forall e, In e (l_scripts st) -> nf (snd e) /\ str (snd e) = fst e) by (intros e He; apply (En e He); exact Logic.I).
    assert (Hout : forall s, In s out -> exists k, In (k, s) (l_scripts st) /\ k = str s /\ is_outside covered s = true).
    { intros s Hs. rewrite Out in Hs. apply filter_In in Hs as [Hs O]. apply in_map_iff in Hs as ([k s'] & <- & Hk). exists k. split; [exact Hk|]. split; [symmetry; apply (Ent _ Hk)|exact O]. }
    assert (Root_in : forall r, In r (l_roots st) -> In (str r) (map fst (l_scripts st))) by (intros r Hr; apply Ke; apply (ws_root _ _ _ WS); rewrite <- Er; now apply in_map).
    assert (Ign_in : forall s, In s (l_ignored st) -> In (str s) (flagged rows "is_ignored")) by (intros s Hs; rewrite <- Ei; now apply in_map).
    assert (Root_out : forall r s, In r (l_roots st) -> In s out -> str r <> str s).
    { intros r s Hr Hs X. destruct (Hout s Hs) as (k & Hk & _ & O). pose proof (root_not_outside _ _ r Wr Ec Hr) as Q. rewrite Forall_forall in Wr. rewrite (is_outside_text covered r s (Wr r Hr) (proj1 (En _ Hk)) X) in Q. congruence. }
    assert (Ign_out : forall r s, In r (l_ignored st) -> In s out -> str r <> str s).
    { intros r s Hr Hs X. destruct (Hout s Hs) as (k & Hk & _ & O). pose proof (Ig r Hr) as P. pose proof (parse_wf _ _ P) as W. destruct (ws_ignore _ _ _ WS _ (Ign_in r Hr)) as (_ & _ & Q). destruct (Q r P) as [_ Cv].
      assert (O' : is_outside covered r = false). { apply (words_covered (l_roots st) covered r Wr Ec W). intros w Hw. destruct (Cv w Hw) as (q & r' & Hq & Eq & Hw'). rewrite <- Er in Hq. apply in_map_iff in Hq as (r'' & <- & Hr''). rewrite (Pr r'' Hr'') in Eq. apply Ok_inj in Eq. subst r'. eauto. }
      rewrite (is_outside_text covered r s W (proj1 (En _ Hk)) X) in O'. congruence. }
    assert (Nout : NoDup (map str out)).
    { rewrite Out. apply NoDup_filter_map. rewrite map_map. replace (map (fun e => str (snd e)) (l_scripts st)) with (map fst (l_scripts st)); [exact Nd|]. apply map_ext_in. intros e He. symmetry. apply (Ent e He). }
    destruct (ignore_total (l_ignored st ++ out) st) as (st' & Es').
    { rewrite map_app. apply nodup_both; [rewrite Ei; apply (ws_ignored _ _ _ WS)|exact Nout|]. intros k Hk Hk'. apply in_map_iff in Hk as (a & <- & Ha). apply in_map_iff in Hk' as (b & Eb & Hb). exact (Ign_out a b Ha Hb (eq_sym Eb)). }
    { intros s Hs. apply in_app_or in Hs as [Hs|Hs]; [apply Ke, (ws_ignore _ _ _ WS), Ign_in, Hs|]. destruct (Hout s Hs) as (k & Hk & -> & _). change (str s) with (fst (str s, s)). now apply in_map. }
    rewrite Es'. cbn [bind]. destruct (ignore_spec _ _ _ Es') as (_ & _ & Si & _ & _ & _ & _ & Eqi & _).
    assert (Rr : l_roots st' = l_roots st).
    { apply Eqi. intros r s Hr Hs X. apply in_app_or in Hs as [Hs|Hs]; [|exact (Root_out r s Hr Hs X)]. apply (proj1 (proj2 (ws_ignore _ _ _ WS _ (Ign_in s Hs)))). rewrite <- Er, <- X. now apply in_map. }
    assert (Ha : forall s, In s (isort (map snd (l_scripts st'))) <-> exists k, In (k, s) (l_scripts st') ).
    { intros s. split.
      - intros H. apply (Permutation_in _ (isort_perm _)) in H. apply in_map_iff in H as ([k s'] & <- & H). eauto.
      - intros (k & H). apply (Permutation_in _ (Permutation_sym (isort_perm _))). change s with (snd (k, s)). now apply in_map. }
    assert (Keep : forall k, In k (map fst (l_scripts st)) -> ~ In k (map str (l_ignored st ++ out)) -> exists y, In y (isort (map snd (l_scripts st'))) /\ str y = k).
    { intros k Hk N. apply in_map_iff in Hk as ([k' s] & <- & Hk). exists s. split; [|apply (Ent _ Hk)]. apply Ha. exists k'. apply Si. auto. }
    exists (l_roots st'), (l_inhibitions st'), (isort (map snd (l_scripts st'))). split; [reflexivity|]. rewrite Rr. split; [exact Er|]. split; [|split; [|split; [|split; [|split; [|split]]]]].
    - intros r Hr. split; [|auto]. pose proof (Root_in r Hr) as H. apply (printed_nf so SO); [eapply parse_wf; eauto|]. apply Pr, Hr.
    - apply (Permutation_Forall (Permutation_sym (isort_perm _))). apply Forall_forall. intros s Hs. apply in_map_iff in Hs as (e & <- & He). apply Si in He as [He _]. apply (Ent e He).
    - eapply Permutation_NoDup; [apply Permutation_map, Permutation_sym, isort_perm|]. rewrite map_map. replace (map (fun e => str (snd e)) (l_scripts st')) with (map fst (l_scripts st')); [|apply map_ext_in; intros e He; apply Si in He as [He _]; symmetry; apply (Ent e He)].
      destruct (ignore_spec _ _ _ Es') as (_ & _ & _ & _ & _ & _ & _ & _ & p & ->). apply NoDup_filter_map, Nd.
    - intros s Hs. apply Ha in Hs as (k & Hk). apply Si in Hk as [Hk _]. destruct (Ent _ Hk) as [_ X]. cbn [fst snd] in X. subst k. apply (Pl _ Hk).
    - intros s w Hs Hw. apply Ha in Hs as (k & Hk). apply Si in Hk as [Hk N]. destruct (Ent _ Hk) as [[Ws _] X]. cbn [fst snd] in *. subst k. apply (covered_words (l_roots st) covered s w Wr Ec Ws); [|exact Hw]. destruct (is_outside covered s) eqn:O; [|reflexivity]. exfalso. apply N. rewrite map_app. apply in_or_app. right. apply in_map. rewrite Out. apply filter_In. split; [|exact O]. change s with (snd (str s, s)). now apply in_map.
    - intros r Hr. apply Keep; [apply Root_in, Hr|]. rewrite map_app, in_app_iff. intros [H|H]; apply in_map_iff in H as (s & Es & Hs).
      + apply (proj1 (proj2 (ws_ignore _ _ _ WS _ (Ign_in s Hs)))). rewrite Es, <- Er. now apply in_map.
      + exact (Root_out r s Hr Hs (eq_sym Es)).
    - intros r l x Hr El' Hx. assert (Wr' : wf r) by (rewrite Forall_forall in Wr; auto). destruct (ss_sing r l x Wr' El' Hx) as (Wx & Cx & _). apply Keep; [exact (proj2 (Ro r Hr) l x El' Hx)|]. rewrite map_app, in_app_iff. intros [H|H]; apply in_map_iff in H as (s & Es & Hs).
      + pose proof (Ig s Hs) as P. destruct (ws_ignore _ _ _ WS _ (Ign_in s Hs)) as (_ & _ & Q). destruct (Q s P) as [C _]. destruct (eq_attributes s x (parse_wf _ _ P) Wx Es) as [(_ & _ & A & _) _]. congruence.
      + destruct (Hout s Hs) as (k & Hk & _ & O). assert (O' : is_outside covered x = false). { apply (words_covered (l_roots st) covered x Wr Ec Wx). intros w Hw. exists r. split; [exact Hr|]. eapply ss_word; eauto. }
        rewrite (is_outside_text covered x s Wx (proj1 (En _ Hk)) (eq_sym Es)) in O'. congruence.
  Qed.
End Front.

Lemma means_layer a b w : wf a -> wf b -> means a w -> means b w -> layer a = layer b.
Proof. intros Wa Wb Ha Hb. pose proof (means_length a w Wa Ha) as La. pose proof (means_length b w Wb Hb) as Lb. rewrite La in Lb. apply (Nat.pow_inj_r 3) in Lb; [exact Lb|lia]. Qed.
(** * The dictionary *)
Section Make.
  Variable so : list script -> list script.
  Hypothesis SO : set_order so.
  Variable paradigms : list string.
  Variable rows : list (string * string * string).
  Hypothesis WS : well_stated so paradigms rows.

  Theorem make_total : exists d, make_dictionary so paradigms rows = Ok d /\ map str (d_root_scripts d) = flagged rows "is_root".
  Proof.
    destruct (front_total so SO paradigms rows WS) as (roots & inh & all & Fr & Er & Pr & Na & Nd & Pl & Cv & Rin & Rss). rewrite make_back, Fr. cbn [bind fst snd].
    assert (Wall : forall s, In s all -> wf s) by (intros s Hs; rewrite Forall_forall in Na; apply (Na s Hs)).
    assert (Sall : forall s, In s all -> cardinal s <> 1%N -> sound s).
    { intros s Hs C. destruct (Pl s Hs) as [C1|[Hp P]]; [contradiction|]. destruct (ws_tables _ _ _ WS _ _ Hp P C) as [D T]. rewrite Forall_forall in Na. split; [auto|]. auto. }
    assert (Flag : forall r, In r roots -> In (str r) (flagged rows "is_root")) by (intros r Hr; rewrite <- Er; now apply in_map).
    assert (Sr : Forall sound roots).
    { apply Forall_forall. intros r Hr. destruct (Pr r Hr) as [Nr P]. destruct (ws_root _ _ _ WS _ (Flag r Hr)) as [Hp C]. destruct (ws_tables _ _ _ WS _ _ Hp P (C r P)) as [D T]. split; [exact Nr|]. auto. }
    assert (Wr : Forall wf roots) by (eapply Forall_impl; [|exact Sr]; intros r [[W _] _]; exact W).
    assert (Dr : ForallOrdPairs disjoint roots) by (apply (pairwise so paradigms rows WS); [rewrite Er; apply (ws_roots _ _ _ WS)|intros r Hr; apply (Pr r Hr)|rewrite Er; apply incl_refl]).
    assert (Cl : forall s w, In s all -> means s w -> exists r, In r roots /\ layer r = layer s /\ means r w).
    { intros s w Hs Hw. destruct (Cv s w Hs Hw) as (r & Hr & Hrw). exists r. split; [exact Hr|]. split; [|exact Hrw]. rewrite Forall_forall in Wr. apply (means_layer _ _ w); auto. }
    destruct (build_total so SO roots all Sr ltac:(apply Forall_forall; exact Wall) Sall Cl) as (forest & Eb). rewrite Eb. cbn [bind].
    destruct (build_tables_spec so SO roots all forest Wr ltac:(apply Forall_forall; exact Wall) Eb) as [Fs Fb]. set (sc := filter _ all).
    assert (Isc : forall s, In s sc <-> In s all /\ (cardinal s = 1%N \/ exists t, table_of forest s = Some t)).
    { intros s. unfold sc. rewrite filter_In. split; intros [H X]; (split; [exact H|]).
      - apply orb_true_iff in X as [X|X]; [left; now apply N.eqb_eq|right]. destruct (table_of forest s); [eauto|discriminate].
      - destruct X as [X|(t & X)]; [rewrite X; reflexivity|rewrite X; now rewrite orb_true_r]. }
    clearbody sc.
    assert (Hroot : forall r ts, In (r, ts) forest -> In r roots) by (intros r ts He; rewrite <- Fs; change r with (fst (r, ts)); now apply in_map).
    assert (Hsc : forall r ts t, In (r, ts) forest -> In t ts -> exists x, In x sc /\ str x = str (tscript t)).
    { intros r ts t He Ht. pose proof (Hroot r ts He) as Hr. rewrite Forall_forall in Fb. destruct (Fb _ He) as (ps & t0 & more & cells & T & Ip). cbn [fst snd] in T.
      assert (Tof : forall x, str (tscript t) = str x -> exists t', table_of forest x = Some t') by (intros x X; exact (table_of_total forest x (r, ts) t He Ht X)).
      apply (proj1 (tree_in _ _ _ _ _ _ T t)) in Ht as [->|[Hm|(x & Hx & ->)]]; destruct T as (_ & E0 & Es & Fm & _).
      - apply mk_table_spec in E0 as (k & _ & ->). cbn [tscript] in *. destruct (Rin r Hr) as (x & Hx & Ex). exists x. split; [|exact Ex]. apply Isc. split; [exact Hx|]. right. apply Tof. auto.
      - rewrite Forall_forall in Fm. destruct (Fm t Hm) as (Hps & _). exists (tscript t). split; [|reflexivity]. apply Isc. split; [apply Ip, Hps|]. right. apply Tof. reflexivity.
      - cbn [tscript cell_of] in *. destruct (Rss r cells x Hr Es Hx) as (y & Hy & Ey). exists y. split; [|exact Ey]. apply Isc. split; [exact Hy|]. right. apply Tof. auto. }
    assert (Ex : exists q, mapM (idx sc) roots = Ok q).
    { apply mapM_total. intros r Hr. rewrite <- Fs in Hr. apply in_map_iff in Hr as ([r' ts] & <- & He). cbn [fst]. rewrite Forall_forall in Fb. destruct (Fb _ He) as (ps & t0 & more & cells & T & Ip). cbn [fst snd] in T. apply index_total.
      destruct (Hsc r' ts t0 He) as (x & Hx & Tx); [apply (proj2 (tree_in _ _ _ _ _ _ T t0)); auto|]. exists x. split; [exact Hx|]. destruct T as (_ & E0 & _). apply mk_table_spec in E0 as (k & _ & ->). exact Tx. }
    destruct Ex as (q & ->). cbn [bind]. destruct (relations_total sc forest inh) as (rel & ->); [|exact Hsc| |cbn [bind]; eexists; split; [reflexivity|exact Er]].
    - intros r ts He. pose proof (Hroot r ts He) as Hr. pose proof Sr as Sr'. rewrite Forall_forall in Sr'. destruct (Sr' r Hr) as (Nr & Cr & Drr & _). split; [exact Nr|]. split; [exact Cr|]. split; [exact Drr|].
      rewrite Forall_forall in Fb. destruct (Fb _ He) as (ps & t0 & more & cells & T & Ip). cbn [fst snd] in T. exists ps, t0, more, cells. split; [exact T|]. split; [apply Forall_forall; intros s Hs; rewrite Forall_forall in Na; apply Na, Ip, Hs|].
      apply (tree_ranks r ps ts t0 more cells); [apply Nr|exact T|exact Cr|]. intros s t u Iu Cs Ct Cu Hs Ht Hu Nst Ntu Nsu Nsr Ntr Nur Ist Itu.
      assert (G : forall x, In x ps -> cardinal x <> 1%N -> inside x r -> str x <> str r -> (In (str x) paradigms /\ ~ In (str x) (flagged rows "is_root")) /\ parse so (str x) = Ok x).
      { intros x Hx Cx Ix Nx. pose proof (Ip x Hx) as Hxa. destruct (Pl x Hxa) as [C|[Hp P]]; [contradiction|]. split; [split; [exact Hp|]|exact P]. intros F. rewrite <- Er in F. apply in_map_iff in F as (r' & Tr & Hr').
        destruct (some_word x (Wall x Hxa)) as (w & Hw). assert (Hw' : means r' w) by (apply (same_text x r'); auto; rewrite Forall_forall in Wr; auto).
        apply (ws_disjoint _ _ _ WS (str r) (str r') r r' (Flag r Hr) (Flag r' Hr')) with w; [congruence|apply (Pr r Hr)|apply (Pr r' Hr')|apply Ix, Hw|exact Hw']. }
      assert (It : inside t r) by (eapply inside_trans; eauto). assert (Is : inside s r) by (eapply inside_trans; eauto).
      destruct (G s Hs Cs Is Nsr) as [Gs Ps], (G t Ht Ct It Ntr) as [Gt Pt], (G u Hu Cu Iu Nur) as [Gu Pu].
      apply (ws_nested _ _ _ WS (str s) (str t) (str u) s t u); auto.
      + repeat constructor; simpl; intuition congruence.
      + intros x [<-|[<-|[<-|[]]]]; assumption.
    - intros s Hs. apply Isc in Hs as [Hs X]. split; [auto|]. destruct X as [C|X]; [|exact X]. destruct (some_word s (Wall s Hs)) as (w & Hw). destruct (Cl s w Hs Hw) as (r & Hr & Ly & Hrw). pose proof Hr as Hr'. rewrite <- Fs in Hr. apply in_map_iff in Hr as ([r' ts] & E & He). cbn [fst] in E. subst r'.
      rewrite Forall_forall in Fb. destruct (Fb _ He) as (ps & t0 & more & cells & T & Ip). cbn [fst snd] in T. pose proof T as (_ & _ & Es & _). assert (Wrr : wf r) by (rewrite Forall_forall in Wr; auto). destruct (ss_find r cells w Wrr Es Hrw) as (y & Hy & Hyw & Sy).
      assert (Txy : str y = str s). { pose proof (Wall s Hs) as Wx. apply (sing1_text (layer r)); [exact Sy|split; [exact Wx|split; [exact C|congruence]]|]. destruct Sy as (Wy & Cy & _). apply words_means in Hw, Hyw. rewrite (words_single s Wx C) in Hw. rewrite (words_single y Wy Cy) in Hyw. destruct Hw as [<-|[]], Hyw as [Hyw|[]]. congruence. }
      apply (table_of_total forest s (r, ts) (cell_of t0 y) He); [apply (proj2 (tree_in _ _ _ _ _ _ T _)); eauto|exact Txy].
  Qed.
End Make.
