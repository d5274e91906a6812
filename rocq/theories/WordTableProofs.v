(** Proofs about the table of a word with the flexion of an actor in the columns and the content of an
    actor in the rows. *)
From Coq Require Import List String Ascii Bool Arith Lia Permutation Sorted.
From Verif Require Import Base Script ScriptParser SortProofs ScriptWf ScriptStrProofs ScriptOrderProofs ScriptSpec ScriptCtorProofs ScriptParseProofs ScriptAlgProofs ScriptMoreProofs OrderTheory Commons Usl UslProofs UslSpec UslSsProofs
  Sfun SfunProofs SfunListProofs SfunWordProofs SfunSpec UslParser UslParserProofs UslRoundProofs Path PathLexProofs PathSpec PathProofs PathAlgProofs PathTextProofs PathDerefProofs PathBuildProofs Instance UslTable UslTableProofs UslTableSpec UslTableOrderProofs UslTableSsProofs LexBuildProofs LexTableProofs WordBuildProofs LexPartProofs.
Import ListNotations.
Local Open Scope string_scope.

(** ** Sorting by keys *)
Lemma sort_by_any {A} wl (f : A -> res usl) l : (forall x, In x l -> exists k, f x = Ok k) -> exists l', sort_by wl f l = Ok l' /\ Permutation l' l.
Proof.
  intros H. destruct (mapM_total f l) as (ks & E); [exact H|]. unfold sort_by. rewrite E. cbn [bind]. eexists. split; [reflexivity|]. assert (L : List.length ks = List.length l) by (now apply mapM_len in E).
  eapply perm_trans; [apply Permutation_map, sort_perm|]. clear - L. revert ks L. induction l as [|x l IH]; intros [|k ks] L; try discriminate; [constructor|]. cbn [combine map snd]. constructor. apply IH. now injection L.
Qed.

Section Words.
  Variable so : list script -> list script.
  Hypothesis SO : set_order so.
  Variable c : context.
  Variable f : sfun lexeme.
  Variable focus : role.
  Hypothesis V : cvalid lexeme c f.
  Variable es : list (role * lexeme).
  Hypothesis Ees : map (fun e => (fst e, Some (snd e))) es = as_list c f.
  Hypothesis Fe : Forall entry_good es.
  Hypothesis Hf : In focus (map fst es).
  Notation rup := (up role (rhead focus)).
  Notation rsub := (sub role rdec).
  Lemma roles_es : map fst (as_list c f) = map fst es.
  Proof. rewrite <- Ees, map_map. reflexivity. Qed.
  Lemma es_nodup : NoDup (map fst es).
  Proof. rewrite <- roles_es. now apply as_list_nodup. Qed.
  Lemma Hr : In focus (map fst (as_list c f)). Proof. now rewrite roles_es. Qed.

  (** *** Words built from lists for every role *)
  Definition li_ok (e : path * script) : Prop := lexeme_place nf (fst e) /\ one_digit (fst e) /\ nf (snd e) /\ old_class (str (snd e)) = None.
  Lemma FI_li l : Forall named l -> Forall li_ok (FI l).
  Proof. intros F. unfold FI. rewrite Forall_map. eapply Forall_impl; [|exact F]. intros m [N O]. split; [constructor|]. split; [exact Logic.I|]. split; assumption. Qed.
  Lemma CI_li K l : Forall (place_ok K) l -> Forall li_ok (CI K l).
  Proof.
    intros F. unfold CI. rewrite !Forall_map. eapply Forall_impl; [|exact F]. intros e He. pose proof (itm_ok nobare K e He) as (H1 & H2 & H3 & H4). destruct He as (N & _). split; [constructor; constructor; exact N|]. split; [exact H2|]. split; assumption.
  Qed.
  Lemma leaves_li z : lex_good z -> Forall li_ok (lex_leaves z).
  Proof. intros G. apply Forall_forall. intros e He. destruct (lex_leaf_ok z e G He) as ((_ & H2 & H3 & H4) & Pl & _). split; [exact Pl|]. split; [exact H2|]. split; assumption. Qed.
  Lemma li_item l : Forall li_ok l -> Forall item_ok l.
  Proof. apply Forall_impl. intros e (H1 & H2 & H3 & H4). split; [now apply proper_lexeme|]. split; [exact H2|]. split; assumption. Qed.
  Definition X_of (L : list (role * (path * script))) (i : role) : lexeme :=
    match group_all (path_to_value (map (CP so) (rsub i L))) new_bin with
    | Ok b => match build_nodes b with Ok (NLexeme z) => z | _ => {| pm_flexion := mk_pm [] []; pm_content := mk_pm [] [] |} end
    | Err _ => {| pm_flexion := mk_pm [] []; pm_content := mk_pm [] [] |}
    end.
  Lemma X_of_eq L i z : mlex so (rsub i L) z -> X_of L i = z.
  Proof. intros (b & E & B). unfold X_of. now rewrite E, B. Qed.
  Definition shows_word (y : usl) (l : list (role * option lexeme)) : Prop := exists p q, y = UWord p /\ word_of l focus = Ok q /\ w_str p = w_str q /\
    as_list (w_context q) (w_fun q) = l /\ w_role q = focus /\ w_context q = c /\ cvalid lexeme c (w_fun q) /\ mk_word (w_fun q) focus c = Ok q.
  Lemma build_with (L : list (role * (path * script))) (T : role -> lexeme -> lexeme) : Forall (fun e => In (fst e) (map fst es) /\ li_ok (snd e)) L ->
    (forall i z, In (i, z) es -> rsub i L <> [] /\ exists z', mlex so (rsub i L) z' /\ lexeme_str z' = lexeme_str (T i z)) ->
    exists y, usl_of_list so (map rup L) = Ok y /\ shows_word y (map (fun e => (fst e, Some (T (fst e) (snd e)))) es).
  Proof.
    intros F H. destruct (word_build so SO c f focus V Hr (X_of L) L) as (p & Ep & Wr & Wc & Vp & Pp & Mp).
    - eapply Forall_impl; [|exact F]. intros e (H1 & H2). split; [now rewrite roles_es|exact H2].
    - intros i Hi. rewrite roles_es in Hi. apply in_map_iff in Hi. destruct Hi as ([j z] & <- & Hi). destruct (H j z Hi) as [N _]. destruct (in_dec rdec j (map fst L)) as [D|D]; [exact D|]. elim N. now apply sub_none.
    - intros i Hi. rewrite roles_es in Hi. apply in_map_iff in Hi. destruct Hi as ([j z] & <- & Hi). destruct (H j z Hi) as (_ & z' & M & _). cbn [fst]. rewrite (X_of_eq L j z' M). exact M.
    - exists (UWord p). split; [exact Ep|]. set (l := map (fun e => (fst e, Some (T (fst e) (snd e)))) es). assert (Kl : map fst l = map fst (as_list c f)) by (rewrite roles_es; unfold l; rewrite map_map; reflexivity).
      destruct (refill_c lexeme c f V l Kl) as (f2 & V2 & E2 & _). assert (H2 : In focus (map fst (as_list c f2))) by (rewrite E2, Kl; exact Hr). destruct (mk_word_list c f2 focus V2 H2) as (q & Eq). exists p, q. split; [reflexivity|]. split.
      + pose proof (from_list_exact lexeme c f2 V2) as E3. rewrite E2 in E3. assert (Nf : focus <> [] /\ vrole focus) by (pose proof Hf as Hf'; apply in_map_iff in Hf'; destruct Hf' as (e & <- & He); rewrite Forall_forall in Fe; destruct (Fe e He) as (A & B & _); auto). destruct Nf as [Nf Vf].
        unfold word_of. destruct focus as [|s r] eqn:Ef; [congruence|]. rewrite <- Ef in *. rewrite E3. cbn [bind fst snd]. unfold mk_role. replace (forallb _ focus) with true; [|symmetry; apply forallb_forall; intros t Ht; apply ins_In; unfold vrole in Vf; rewrite Forall_forall in Vf; auto]. exact Eq.
      + destruct (mk_word_fields _ _ _ _ Eq) as (Qf & Qr & Qc). rewrite Qf, Qc. split; [|auto 10].
        apply (word_texts c f2 (w_fun p) focus q p V2 Vp); [|exact H2|exact Eq|exact Mp]. rewrite E2. eapply perm_trans; [apply Permutation_map, Pp|]. unfold l. rewrite roles_es, !map_map. apply Permutation_refl'. apply map_ext_in. intros [j z] Hj. unfold kstr. cbn [fst snd actor_str]. f_equal.
        destruct (H j z Hj) as (_ & z' & M & E). now rewrite (X_of_eq L j z' M).
  Qed.

  (** *** The table *)
  Variable po : list path -> list path.
  Variable wl : word -> word -> bool.
  Hypothesis PO : forall l, Permutation (po l) l.
  Variable w : word.
  Hypothesis W : mk_word f focus c = Ok w.
  Variables (a b : role) (x y : lexeme).
  Hypothesis Ha : In (a, x) es.
  Hypothesis Hb : In (b, y) es.
  Notation F := (pm_flexion x).
  Notation u := (pm_content y).
  Hypothesis NR : no_repetition u.
  Notation KK := (Ku u).
  Notation parts := (row_parts u Constant None).
  Definition colp : path := PRole a (role_eqb a focus) (Some LF).
  Definition rowp : path := PRole b (role_eqb b focus) (Some LC).
  Lemma good i z : In (i, z) es -> lex_good z.
  Proof. intros H. rewrite Forall_forall in Fe. now apply (Fe _ H). Qed.
  Lemma GF : flex_good F. Proof. apply (good a x Ha). Qed.
  Lemma G : pm_good u. Proof. apply (good b y Hb). Qed.
  Lemma role_eq i j : In i (map fst es) -> In j (map fst es) -> role_eqb i j = if rdec i j then true else false.
  Proof.
    intros Hi Hj. assert (Vr : forall k, In k (map fst es) -> vrole k) by (intros k Hk; apply in_map_iff in Hk; destruct Hk as (e & <- & He); rewrite Forall_forall in Fe; now apply (Fe e He)).
    destruct (rdec i j) as [D|D]; [now apply role_eqb_eq; auto|]. destruct (role_eqb i j) eqn:E; [|reflexivity]. apply role_eqb_eq in E; auto. contradiction.
  Qed.
  Lemma elem_role i z p : In (i, z) es -> element (PRole i (role_eqb i focus) (Some p)) (UWord w) = element p (ULexeme z).
  Proof.
    intros H. unfold element. cbn [deref deref_step]. destruct (mk_word_fields _ _ _ _ W) as (Wf & _ & _). rewrite Wf, (sfun_get_ok c f i (Some z) V) by (rewrite <- Ees; apply in_map_iff; exists (i, z); auto). reflexivity.
  Qed.
  Lemma witems : items (UWord w) = Ok (word_leaves focus es).
  Proof.
    assert (It : iter_by_script (UWord w) = Ok (map U (word_leaves focus es))).
    { destruct (mk_word_fields _ _ _ _ W) as (Wf & Wr & Wc). unfold iter_by_script, iter_path, iter_word. rewrite Wf, Wr, Wc, <- Ees.
      assert (M : mapM (iter_entry focus) (map (fun e => (fst e, Some (snd e))) es) = Ok (map (fun e => (PRole (fst e) (role_eqb (fst e) focus) None, ULexeme (snd e)) ::
        map (fun x => (PRole (fst e) (role_eqb (fst e) focus) (Some (fst x)), snd x)) (iter_lexeme (snd e))) es)).
      { clear. induction es as [|e l IH]; [reflexivity|]. cbn [map]. rewrite mapM_step. cbn [iter_entry fst snd bind]. now rewrite IH. }
      rewrite M. cbn [bind filter fst names_morpheme tail]. now rewrite iter_entries. }
    unfold items. rewrite It. cbn [bind]. clear. induction (word_leaves focus es) as [|e l IH]; [reflexivity|]. cbn [map]. rewrite mapM_step. cbn [U snd fst bind]. rewrite IH. destruct e; reflexivity.
  Qed.
  Definition tags : list (role * (path * script)) := flat_map (fun e => map (pair (fst e)) (lex_leaves (snd e))) es.
  Lemma tags_up : map rup tags = word_leaves focus es.
  Proof. unfold tags, word_leaves. clear. induction es as [|e l IH]; [reflexivity|]. cbn [flat_map]. rewrite map_app, IH. f_equal. rewrite map_map. reflexivity. Qed.
  Definition isF (e : path * script) : bool := match fst e with PLex Flexion _ => true | _ => false end.
  Definition isC (e : path * script) : bool := match fst e with PLex Content _ => true | _ => false end.
  Definition keep (t : role * (path * script)) : bool := negb ((if rdec (fst t) b then isC (snd t) else false) || (if rdec (fst t) a then isF (snd t) else false)).
  Definition kt : list (role * (path * script)) := filter keep tags.
  Lemma tags_in t : In t tags -> exists z, In (fst t, z) es /\ In (snd t) (lex_leaves z).
  Proof. intros H. apply in_flat_map in H. destruct H as ([i z] & Hi & H). apply in_map_iff in H. destruct H as (e & <- & He). exists z. auto. Qed.
  Lemma consts_ok : constant_paths (UWord w) colp (Some rowp) = Ok (map rup kt).
  Proof.
    unfold constant_paths. rewrite witems, <- tags_up. cbn [bind].
    match goal with |- bind (mapM ?g ?l) _ = _ => destruct (keep_filter g (fun e => match fst e with PRole i _ (Some p) => keep (i, (p, snd e)) | _ => true end) l) as (ks & E & Fk) end.
    - intros e He. apply in_map_iff in He. destruct He as (t & <- & Ht). destruct (tags_in t Ht) as (z & Hz & Hl). destruct t as [i [p s]]. cbn [fst snd] in *. unfold up, rhead. cbn [fst snd set_child].
      assert (Hi : In i (map fst es)) by now apply (in_map fst) in Hz. assert (Hb' : In b (map fst es)) by now apply (in_map fst) in Hb. assert (Ha' : In a (map fst es)) by now apply (in_map fst) in Ha.
      destruct (lex_leaf_ok z (p, s) (good i z Hz) Hl) as (_ & Pl & _). cbn [fst] in Pl.
      assert (Pr : forall j k, In j (map fst es) -> has_prefix (PRole i (role_eqb i focus) (Some p)) (Some (PRole j (role_eqb j focus) (Some (PLex k None)))) = Ok (if rdec i j then match p with PLex k' _ => lidx_eqb k' k | _ => false end else false)).
      { intros j k Hj. cbn [has_prefix class_of pclass_eqb negb orb do_eq]. rewrite (role_eq i j Hi Hj). destruct (rdec i j) as [->|D]; [|reflexivity]. rewrite Bool.eqb_reflx. cbn [andb negb child_of]. destruct Pl as [l|p0 P0|m M]; cbn [has_prefix class_of pclass_eqb negb orb do_eq].
        - destruct l, k; reflexivity.
        - destruct k; destruct p0; reflexivity.
        - destruct k; reflexivity. }
      unfold rowp, colp, LC, LF. rewrite (Pr b Content Hb'), (Pr a Flexion Ha'). cbn [bind]. unfold keep. cbn [fst snd isC isF].
      unfold isC, isF. cbn [fst]. destruct (rdec i b), (rdec i a); destruct Pl as [[]| |]; reflexivity.
    - rewrite E. cbn [bind]. rewrite Fk, filter_map_comm. reflexivity.
  Qed.
  Lemma sub_filter {A} (g : role * A -> bool) i l : rsub i (filter g l) = filter (fun e => g (i, e)) (rsub i l).
  Proof.
    induction l as [|[j e] l IH]; [reflexivity|]. cbn [filter]. destruct (rdec j i) as [->|D].
    - rewrite sub_same. cbn [filter]. destruct (g (i, e)); [now rewrite sub_same, IH|exact IH].
    - rewrite (sub_other _ _ i j e l) by exact D. destruct (g (j, e)); [now rewrite sub_other|exact IH].
  Qed.
  Lemma tags_sub i z : In (i, z) es -> rsub i tags = lex_leaves z.
  Proof.
    unfold tags. pose proof es_nodup as N. revert N. clear. induction es as [|[j z'] l IH]; intros N H; [destruct H|]. cbn [flat_map map fst snd] in *. rewrite sub_app, sub_tag. apply NoDup_cons_iff in N. destruct N as [N1 N2]. destruct (rdec j i) as [->|D].
    - destruct H as [H|H]; [injection H as ->|elim N1; now apply (in_map fst) in H]. rewrite sub_none; [apply app_nil_r|]. intros Hi. apply N1. apply in_map_iff in Hi. destruct Hi as ([k e] & <- & Hi). apply in_flat_map in Hi. destruct Hi as ([k' z2] & Hk & Hi). apply in_map_iff in Hi. destruct Hi as (e' & Ei & _). injection Ei as <- _. cbn [fst]. now apply (in_map fst) in Hk.
    - destruct H as [H|H]; [congruence|]. now apply IH.
  Qed.
  Definition AllC (z : lexeme) : list (gidx * script) := places (pm_content z) (fun _ => true).
  Definition kept (i : role) (z : lexeme) : list (path * script) :=
    ((if rdec i a then [] else FLs (pm_flexion z)) ++ (if rdec i b then [] else CI (Ku (pm_content z)) (AllC z)))%list.
  Lemma kt_sub i z : In (i, z) es -> rsub i kt = kept i z.
  Proof.
    intros H. unfold kt. rewrite sub_filter, (tags_sub i z H), lex_leaves_eq, filter_app. unfold kept. f_equal.
    - unfold FLs, flex_leaves. rewrite map_map. unfold keep. cbn [fst snd raise]. destruct (rdec i a) as [D|D]; [apply filter_none|apply filter_true]; intros e He; apply in_map_iff in He; destruct He as (m & <- & _); destruct (rdec i b); reflexivity.
    - unfold CI, AllC. unfold keep. cbn [fst snd]. destruct (rdec i b) as [D|D]; [apply filter_none|apply filter_true]; intros e He; rewrite map_map in He; apply in_map_iff in He; destruct He as (m & <- & _); destruct (rdec i a); reflexivity.
  Qed.
  Lemma kt_ok : Forall (fun e => In (fst e) (map fst es) /\ li_ok (snd e)) kt.
  Proof.
    apply Forall_forall. intros t Ht. apply filter_In in Ht. destruct Ht as [Ht _]. destruct (tags_in t Ht) as (z & Hz & Hl). split; [now apply (in_map fst) in Hz|]. pose proof (leaves_li z (good _ _ Hz)) as L. rewrite Forall_forall in L. auto.
  Qed.

  (** *** Parts of lexemes *)
  Definition fpart (l : list (path * script)) (t : string) : Prop :=
    (l = [] /\ t = pm_str (mk_pm [] [])) \/ (exists p, flex_good p /\ l = FLs p /\ t = pm_str p) \/
    (exists d, d <> [] /\ Forall named d /\ l = FI d /\ pok (flexion_of (uniq (map (P so) d))) /\ t = pm_str (flexion_of (uniq (map (P so) d)))).
  Definition cpart (l : list (path * script)) (t : string) : Prop :=
    (l = [] /\ t = pm_str (mk_pm [] [])) \/
    (exists K m p, m <> [] /\ Forall (place_ok K) m /\ l = CI K m /\ usl_of_list so (map (itm nobare K) m) = Ok (UPm p) /\ pok p /\ t = pm_str p).
  Lemma fpart_li l t : fpart l t -> Forall li_ok l.
  Proof.
    intros [[-> _]|[(p & Gp & -> & _)|(d & _ & N & -> & _)]]; [constructor| |now apply FI_li].
    unfold FLs. rewrite Forall_map. apply Forall_forall. intros e He. destruct (flex_leaf_ok p e Gp He) as [(_ & H2 & H3 & H4) Hm]. apply in_map_iff in He. destruct He as (m & <- & He). cbn [raise fst snd] in *. split; [now constructor|]. split; [exact H2|]. split; assumption.
  Qed.
  Lemma cpart_li l t : cpart l t -> Forall li_ok l.
  Proof. intros [[-> _]|(K & m & p & _ & Fm & -> & _)]; [constructor|now apply CI_li]. Qed.
  Lemma pair_ok p q : pok p -> pok q -> lok {| pm_flexion := p; pm_content := q |}. Proof. split; assumption. Qed.
  Lemma join lf tf lc tc : fpart lf tf -> cpart lc tc -> (lf <> [] \/ lc <> []) ->
    exists z z', mlex so (lf ++ lc)%list z /\ mlex so (lc ++ lf)%list z' /\ lok z /\ lok z' /\ pm_str (pm_flexion z) = tf /\ pm_str (pm_content z) = tc /\ pm_str (pm_flexion z') = tf /\ pm_str (pm_content z') = tc.
  Proof.
    intros Hf0 Hc N. pose proof empty_ok as EO. destruct Hf0 as [[-> ->]|[(p & Gp & -> & ->)|(d & Nd & Fd & -> & Pd & ->)]]; destruct Hc as [[-> ->]|(K & m & q & Nm & Fm & -> & Eq & Pq & ->)].
    - destruct N; congruence.
    - cbn [app]. rewrite app_nil_r. pose proof (lex_build_content so SO K m q Nm Fm Eq) as B. assert (M : mlex so (CI K m) {| pm_flexion := mk_pm [] []; pm_content := q |}) by (apply lex_inv; [exact SO|unfold CI; intros X; apply map_eq_nil, map_eq_nil in X; contradiction|now apply CI_ok|exact B]).
      do 2 eexists. split; [exact M|]. split; [exact M|]. auto 12 using pair_ok.
    - cbn [app]. rewrite app_nil_r. destruct (flex_made so SO p Gp) as (p' & Mp & Pp & Ep). pose proof (flexion_alone so p p' Gp Mp) as M. do 2 eexists. split; [exact M|]. split; [exact M|]. auto 12 using pair_ok.
    - destruct (flex_made so SO p Gp) as (p' & Mp & Pp & Ep). pose proof (pm_inv so SO K m q Nm Fm Eq) as Mq. assert (Nm' : map (itm nobare K) m <> []) by (intros X; apply map_eq_nil in X; contradiction).
      destruct (both so p p' q (map (itm nobare K) m) Gp Mp Nm' Mq) as [M1 M2]; [exact (CP_CI so K m)|]. do 2 eexists. split; [exact M1|]. split; [exact M2|]. auto 12 using pair_ok.
    - cbn [app]. rewrite app_nil_r. pose proof (lex_build_flexion so SO d Nd Fd) as B. assert (M : mlex so (FI d) {| pm_flexion := flexion_of (uniq (map (P so) d)); pm_content := mk_pm [] [] |}) by (apply lex_inv; [exact SO|unfold FI; intros X; apply map_eq_nil in X; contradiction|now apply FI_ok|exact B]).
      do 2 eexists. split; [exact M|]. split; [exact M|]. auto 12 using pair_ok.
    - assert (NE : CI K m <> []) by (unfold CI; intros X; apply map_eq_nil, map_eq_nil in X; contradiction). assert (Io : Forall item_ok (FI d ++ CI K m)%list) by (apply Forall_app; split; [now apply FI_ok|now apply CI_ok]). assert (Io' : Forall item_ok (CI K m ++ FI d)%list) by (apply Forall_app; split; [now apply CI_ok|now apply FI_ok]).
      pose proof (lex_build so SO K [] d m q Nd Nm Fd Fm Eq) as B1. cbn [CI map app] in B1.
      assert (B2 : usl_of_list so (CI K m ++ FI d)%list = Ok (ULexeme {| pm_flexion := flexion_of (uniq (map (P so) d)); pm_content := q |})).
      { assert (X : (m ++ [])%list = m) by apply app_nil_r. pose proof (lex_build so SO K m d [] q Nd) as B. rewrite X in B. specialize (B Nm Fd Fm Eq). cbn [CI map] in B. rewrite !app_nil_r in B. exact B. }
      do 2 eexists. split; [apply lex_inv; [exact SO| |exact Io|exact B1]; intros X; apply app_eq_nil in X; tauto|]. split; [apply lex_inv; [exact SO| |exact Io'|exact B2]; intros X; apply app_eq_nil in X; tauto|]. auto 12 using pair_ok.
  Qed.
  Lemma join_text lf lc z : fpart lf (pm_str (pm_flexion z)) -> cpart lc (pm_str (pm_content z)) -> lok z -> (lf <> [] \/ lc <> []) ->
    (exists z', mlex so (lf ++ lc)%list z' /\ lexeme_str z' = lexeme_str z) /\ (exists z', mlex so (lc ++ lf)%list z' /\ lexeme_str z' = lexeme_str z).
  Proof.
    intros H1 H2 Hz N. destruct (join _ _ _ _ H1 H2 N) as (z1 & z2 & M1 & M2 & L1 & L2 & A1 & A2 & B1 & B2). split; [exists z1|exists z2]; (split; [assumption|]); apply lexeme_str_key; auto.
  Qed.

  (** *** The parts in the table *)
  Definition allc (i : role) (z : lexeme) : list (path * script) := if rdec i b then [] else CI (Ku (pm_content z)) (AllC z).
  Definition allf (i : role) (z : lexeme) : list (path * script) := if rdec i a then [] else FLs (pm_flexion z).
  Lemma allf_part i z : In (i, z) es -> fpart (FLs (pm_flexion z)) (pm_str (pm_flexion z)).
  Proof. intros H. right. left. exists (pm_flexion z). split; [apply (good i z H)|auto]. Qed.
  Lemma allc_part i z : In (i, z) es -> cpart (CI (Ku (pm_content z)) (AllC z)) (pm_str (pm_content z)).
  Proof.
    intros H. destruct (good i z H) as [_ Gz]. right. destruct (leaves_made so SO (pm_content z) Gz) as (p & Mp & Pp & Ep). unfold AllC.
    assert (Fp : Forall (place_ok (Ku (pm_content z))) (places (pm_content z) (fun _ => true))) by (apply Forall_forall; intros e He; destruct e; now apply (place_ok_u _ Gz (fun _ => true))).
    assert (Np : places (pm_content z) (fun _ => true) <> []).
    { destruct Gz as ((_ & ((_ & K) & _)) & _). destruct (constant (pm_content z)) as [|k ks] eqn:Ec; [destruct K as [K|[K _]]; congruence|]. intros X. assert (I : In (Constant, k) (places (pm_content z) (fun _ => true))) by (apply places_in; split; [reflexivity|]; cbn [ms]; rewrite Ec; now left). rewrite X in I. destruct I. }
    exists (Ku (pm_content z)), (places (pm_content z) (fun _ => true)), p. split; [exact Np|]. split; [exact Fp|]. split; [reflexivity|]. split; [|auto]. apply items_of_pm; [exact SO|exact Fp|exact Np|]. now rewrite <- leaves_places.
  Qed.
  Definition col (s : pm) : list (role * (path * script)) := map (pair a) (FI (constant s)).
  Definition row (s : pm) : list (role * (path * script)) := map (pair b) (lrow y true s).
  Lemma col_part s : In s (pm_ss so F) -> fpart (FI (constant s)) (pm_str s).
  Proof. intros Hs. destruct (column_good so SO x GF s Hs) as (_ & _ & _ & Ne & Nm & _ & Pf & Ef). right. right. exists (constant s). auto 10. Qed.
  Lemma row_part s : rgood y s -> cpart (lrow y true s) (pm_str (cellc y (parts s))).
  Proof.
    intros [C _]. destruct (content_build so SO y G NR (parts s) (lall y true s) C (lall_in y G true s)) as (p & Ep & Pp & Tp & Fp & Np). right. exists KK, (lall y true s), p. split; [exact Np|]. split; [exact Fp|]. split; [unfold lrow, lall; now rewrite app_nil_r|auto].
  Qed.
  Lemma sub_tagged i j (l : list (path * script)) : rsub i (map (pair j) l) = if rdec i j then l else [].
  Proof. rewrite sub_tag. destruct (rdec j i), (rdec i j); congruence. Qed.
  Lemma build_parts L (lf lc : role -> lexeme -> list (path * script)) T : Forall (fun e => In (fst e) (map fst es) /\ li_ok (snd e)) L ->
    (forall i z, In (i, z) es -> fpart (lf i z) (pm_str (pm_flexion (T i z))) /\ cpart (lc i z) (pm_str (pm_content (T i z))) /\ lok (T i z) /\ (lf i z <> [] \/ lc i z <> []) /\
      (rsub i L = (lf i z ++ lc i z)%list \/ rsub i L = (lc i z ++ lf i z)%list)) ->
    exists v, usl_of_list so (map rup L) = Ok v /\ shows_word v (map (fun e => (fst e, Some (T (fst e) (snd e)))) es).
  Proof.
    intros FL H. apply build_with; [exact FL|]. intros i z Hi. destruct (H i z Hi) as (H1 & H2 & H3 & H4 & H5). destruct (join_text _ _ (T i z) H1 H2 H3 H4) as [A B]. destruct H5 as [-> | ->].
    - split; [|exact A]. intros X. apply app_eq_nil in X. destruct X as [X1 X2]. destruct H4; auto.
    - split; [|exact B]. intros X. apply app_eq_nil in X. destruct X as [X1 X2]. destruct H4; auto.
  Qed.
  (** the lexeme of a role, with the flexion of [a] and the content of [b] replaced *)
  Definition put (fl ct : pm) (i : role) (z : lexeme) : lexeme :=
    {| pm_flexion := if rdec i a then fl else pm_flexion z; pm_content := if rdec i b then ct else pm_content z |}.
  Lemma good_ok i z : In (i, z) es -> pok (pm_flexion z) /\ pok (pm_content z).
  Proof. intros H. destruct (good i z H) as [[Cf _] [Cc _]]. split; now apply clean_ok. Qed.
  Lemma put_ok fl ct i z : In (i, z) es -> pok fl -> pok ct -> lok (put fl ct i z).
  Proof. intros H Pf Pc. destruct (good_ok i z H). apply pair_ok; [destruct (rdec i a)|destruct (rdec i b)]; assumption. Qed.
  Lemma FLs_some i z : In (i, z) es -> FLs (pm_flexion z) <> [].
  Proof. intros H X. unfold FLs in X. apply map_eq_nil in X. now apply (flex_leaves_some (pm_flexion z) (proj1 (good i z H))). Qed.
  Lemma AllC_some i z : In (i, z) es -> CI (Ku (pm_content z)) (AllC z) <> [].
  Proof.
    intros H X. pose proof (lex_leaves_eq z) as E. unfold CI, AllC in X. apply map_eq_nil, map_eq_nil in X.
    destruct (good i z H) as [_ ((_ & ((_ & K) & _)) & _)]. destruct (constant (pm_content z)) as [|k ks] eqn:Ec; [destruct K as [K|[K _]]; congruence|].
    assert (I : In (Constant, k) (places (pm_content z) (fun _ => true))) by (apply places_in; split; [reflexivity|]; cbn [ms]; rewrite Ec; now left). rewrite X in I. destruct I.
  Qed.
  Lemma row_nf s : rgood y s -> pok (cellc y (parts s)). Proof. intros [(Fd & _) _]. apply cellc_ok; [exact G|exact Fd]. Qed.
  Lemma tag_ok j l : In j (map fst es) -> Forall li_ok l -> Forall (fun e => In (fst e) (map fst es) /\ li_ok (snd e)) (map (pair j) l).
  Proof. intros Hj Fl. rewrite Forall_map. eapply Forall_impl; [|exact Fl]. cbn. auto. Qed.
  Lemma Ha' : In a (map fst es). Proof. now apply (in_map fst) in Ha. Qed.
  Lemma Hb' : In b (map fst es). Proof. now apply (in_map fst) in Hb. Qed.
  Lemma cell_build s r : In s (pm_ss so F) -> rgood y r ->
    exists v, usl_of_list so (map rup (kt ++ col s ++ row r)) = Ok v /\ shows_word v (map (fun e => (fst e, Some (put s (cellc y (parts r)) (fst e) (snd e)))) es).
  Proof.
    intros Hs Hg. pose proof (col_part s Hs) as Ps. pose proof (row_part r Hg) as Pr.
    apply (build_parts _ (fun i z => if rdec i a then FI (constant s) else FLs (pm_flexion z)) (fun i z => if rdec i b then lrow y true r else CI (Ku (pm_content z)) (AllC z))).
    - repeat (apply Forall_app; split); [apply kt_ok|apply tag_ok; [apply Ha'|now apply (fpart_li _ _ Ps)]|apply tag_ok; [apply Hb'|now apply (cpart_li _ _ Pr)]].
    - intros i z Hi. unfold put. cbn [pm_flexion pm_content]. split; [destruct (rdec i a); [exact Ps|now apply (allf_part i)]|]. split; [destruct (rdec i b); [exact Pr|now apply (allc_part i)]|].
      split; [apply put_ok; [exact Hi|now apply (column_good so SO x GF s)|now apply row_nf]|]. split.
      + left. destruct (rdec i a); [|now apply (FLs_some i)]. destruct (column_good so SO x GF s Hs) as (_ & _ & _ & Ne & _). intros X. apply map_eq_nil in X. contradiction.
      + rewrite !sub_app, (kt_sub i z Hi). unfold kept, col, row. rewrite !sub_tagged. destruct (rdec i a), (rdec i b); cbn [app]; rewrite ?app_nil_r; auto.
  Qed.
  Lemma col_key s : In s (pm_ss so F) -> exists v, usl_of_list so (map rup (col s ++ kt)) = Ok v.
  Proof.
    intros Hs. pose proof (col_part s Hs) as Ps.
    destruct (build_parts (col s ++ kt) (fun i z => if rdec i a then FI (constant s) else FLs (pm_flexion z)) (fun i z => if rdec i b then [] else CI (Ku (pm_content z)) (AllC z)) (put s (mk_pm [] []))) as (v & E & _); [| |eauto].
    - repeat (apply Forall_app; split); [apply tag_ok; [apply Ha'|now apply (fpart_li _ _ Ps)]|apply kt_ok].
    - intros i z Hi. unfold put. cbn [pm_flexion pm_content]. split; [destruct (rdec i a); [exact Ps|now apply (allf_part i)]|]. split; [destruct (rdec i b); [left; auto|now apply (allc_part i)]|].
      split; [apply put_ok; [exact Hi|now apply (column_good so SO x GF s)|apply empty_ok]|]. split.
      + left. destruct (rdec i a); [|now apply (FLs_some i)]. destruct (column_good so SO x GF s Hs) as (_ & _ & _ & Ne & _). intros X. apply map_eq_nil in X. contradiction.
      + rewrite !sub_app, (kt_sub i z Hi). unfold kept, col. rewrite !sub_tagged. destruct (rdec i a), (rdec i b); cbn [app]; rewrite ?app_nil_r; auto.
  Qed.
  Lemma lrow_some r : lrow y true r <> [].
  Proof.
    unfold lrow, pre, CI, consts. intros X. apply map_eq_nil, map_eq_nil, map_eq_nil in X. apply app_eq_nil in X. destruct X as [X _]. cbn [mk_pm constant] in X. destruct (isort (filter_empty (constant u))); discriminate.
  Qed.
  Lemma row_key r : rgood y r -> exists v, usl_of_list so (map rup (row r ++ kt)) = Ok v.
  Proof.
    intros Hg. pose proof (row_part r Hg) as Pr.
    destruct (build_parts (row r ++ kt) (fun i z => if rdec i a then [] else FLs (pm_flexion z)) (fun i z => if rdec i b then lrow y true r else CI (Ku (pm_content z)) (AllC z)) (put (mk_pm [] []) (cellc y (parts r)))) as (v & E & _); [| |eauto].
    - repeat (apply Forall_app; split); [apply tag_ok; [apply Hb'|now apply (cpart_li _ _ Pr)]|apply kt_ok].
    - intros i z Hi. unfold put. cbn [pm_flexion pm_content]. split; [destruct (rdec i a); [left; auto|now apply (allf_part i)]|]. split; [destruct (rdec i b); [exact Pr|now apply (allc_part i)]|].
      split; [apply put_ok; [exact Hi|apply empty_ok|now apply row_nf]|]. split.
      + right. destruct (rdec i b); [apply lrow_some|now apply (AllC_some i)].
      + rewrite !sub_app, (kt_sub i z Hi). unfold kept, row. rewrite !sub_tagged. destruct (rdec i a), (rdec i b); cbn [app]; rewrite ?app_nil_r; auto.
  Qed.

  (** *** The columns *)
  Notation fa := (role_eqb a focus).
  Notation fb := (role_eqb b focus).
  Lemma CO (l : list script) j : constants_of (map rup (map (pair j) (FI l))) = Ok (map rup (map (pair j) (FI l))).
  Proof. unfold constants_of, FI. induction l as [|m l IH]; [reflexivity|]. cbn [map]. rewrite mapM_step, IH. reflexivity. Qed.
  Lemma wcolumns_ok : exists S, Permutation S (pm_ss so F) /\ column_paths_variation so wl (UWord w) colp (Some rowp) = Ok (map (fun s => map rup (col s)) S).
  Proof.
    unfold column_paths_variation. assert (D : element colp (UWord w) = Ok (UPm F)) by (unfold colp; rewrite (elem_role a x LF Ha); reflexivity). rewrite D. cbn [bind]. rewrite items_leaves. cbn [bind].
    set (named_ := map (fun e => (snd e, match fst e with PPoly g _ k c => PPoly g None k c | p => p end)) (leaves F)).
    assert (E1 : mapM (fun e => do p <- without_morpheme (fst e); Ok (snd e, p)) (leaves F) = Ok named_).
    { unfold named_. assert (X : forall e, In e (leaves F) -> exists g m k, fst e = PPoly g m k None) by (intros e He; apply leaves_in in He; destruct He as (g & k & -> & _); eauto). clear - X.
      induction (leaves F) as [|e l IH]; [reflexivity|]. rewrite mapM_step, IH by (intros z Hz; apply X; now right). destruct (X e (or_introl eq_refl)) as (g & m & k & E). cbn [map]. rewrite E. reflexivity. }
    rewrite E1. cbn [bind sequences usl_ss].
    assert (E2 : mapM (fun s => do its <- items s; mapM (fun e => do q <- last_of (snd e) named_; do p <- concat colp q false; Ok (p, snd e)) its) (map UPm (pm_ss so F)) = Ok (map (fun s => map rup (col s)) (pm_ss so F))).
    { assert (X : forall l, incl l (pm_ss so F) -> mapM (fun s => do its <- items s; mapM (fun e => do q <- last_of (snd e) named_; do p <- concat colp q false; Ok (p, snd e)) its) (map UPm l) = Ok (map (fun s => map rup (col s)) l)); [|apply X, incl_refl].
      induction l as [|s l IH]; intros Hl; [reflexivity|]. cbn [map]. rewrite mapM_step, items_leaves. assert (Hs : In s (pm_ss so F)) by (apply Hl; now left). destruct (column_good so SO x GF s Hs) as (_ & Es & _ & _ & _ & I & _). rewrite flat_leaves by auto. cbn [bind].
      assert (Y : forall d, incl d (constant s) -> mapM (fun e => do q <- last_of (snd e) named_; do p <- concat colp q false; Ok (p, snd e)) (map (fun m => (PPoly Constant (Some m) None None, m)) d) = Ok (map rup (map (pair a) (FI d)))).
      { induction d as [|m d IHd]; intros Hd; [reflexivity|]. cbn [map]. rewrite mapM_step. cbn [snd].
        destruct (last_of_in m named_) as (e & He & Ee).
        { assert (Hm : In m (flex_ms F)) by (apply I, Hd; now left). unfold flex_ms in Hm. apply in_map_iff in Hm. destruct Hm as (e & <- & He). eexists. split; [apply in_map_iff; exists e; split; [reflexivity|exact He]|reflexivity]. }
        rewrite Ee. cbn [bind]. apply in_map_iff in He. destruct He as (e' & <- & He'). apply leaves_in in He'. destruct He' as (g & k & Eg & _). rewrite Eg. cbn [snd].
        assert (Cn : concat colp (PPoly g None k None) false = Ok colp) by reflexivity. rewrite Cn. cbn [bind]. rewrite IHd by (intros z Hz; apply Hd; now right). reflexivity. }
      rewrite Y by apply incl_refl. cbn [bind]. rewrite IH by (intros z Hz; apply Hl; now right). reflexivity. }
    rewrite E2. cbn [bind].
    match goal with |- context [sort_by wl ?f ?l] => destruct (sort_by_any wl (fun s => f (map rup (col s))) (pm_ss so F)) as (l' & E3 & P) end.
    - intros s Hs. unfold col. rewrite CO. cbn [bind]. rewrite consts_ok. cbn [bind]. rewrite <- map_app. now apply col_key.
    - exists l'. split; [exact P|]. exact (sort_by_map wl (fun s => map rup (col s)) _ _ _ E3).
  Qed.
  Lemma wcols_constant S : column_paths_variation so wl (UWord w) colp (Some rowp) = Ok (map (fun s => map rup (col s)) S) -> column_paths_constant so wl (UWord w) colp (Some rowp) = Ok (map (fun s => map rup (col s)) S).
  Proof. intros E. unfold column_paths_constant. rewrite E. cbn [bind]. clear E. induction S as [|s S IH]; [reflexivity|]. cbn [map]. rewrite mapM_step, IH. unfold col. rewrite CO. reflexivity. Qed.

  (** *** The dimensions of the rows *)
  Notation Js := (J u Constant None).
  Definition wpath (g : gidx) : path := PRole b fb (Some (lpath y g)).
  Definition wdims (e : gidx * script) : path * bool := (wpath (fst e), negb (gidx_eqb Constant (fst e))).
  Lemma wdimensions_ok : dimensions so (UWord w) colp (Some rowp) = Ok (map wdims (places u (fun _ => true))).
  Proof.
    unfold dimensions. assert (D : element rowp (UWord w) = Ok (UPm u)) by (unfold rowp; rewrite (elem_role b y LC Hb); reflexivity). rewrite D. cbn [bind]. rewrite items_leaves. cbn [bind]. rewrite leaves_places.
    pose proof (lpath_size so SO y G) as LS. revert LS. generalize (places u (fun _ => true)) as l. induction l as [|[g m] l IH]; intros LS; [reflexivity|]. cbn [map]. rewrite mapM_step, IH by (intros g' m' H; apply (LS g' m'); now right). clear IH.
    destruct (LS g m (or_introl eq_refl)) as (v & n & E1 & E2 & E3). assert (E0 : (do p <- without_morpheme (fst (itm nobare KK (g, m))); concat rowp p false) = Ok (wpath g)) by (destruct g; reflexivity). destruct (without_morpheme (fst (itm nobare KK (g, m)))) as [p|]; [|discriminate]. cbn [bind] in *. rewrite E0. cbn [bind]. unfold wpath. rewrite (elem_role b y (lpath y g) Hb), E1. cbn [bind]. rewrite E2. cbn [bind]. rewrite E3. reflexivity.
  Qed.
  Lemma wpath_inj g h : g <> Constant -> h <> Constant -> path_str (wpath g) = path_str (wpath h) -> g = h.
  Proof.
    intros Hg Hh E. assert (R : forall p, path_str (PRole b fb (Some p)) = rpre focus b ++ path_str p) by (intros p; exact (rhead_str focus b p)). unfold wpath in E. rewrite !R in E. apply append_inv in E. apply (f_equal (fun t => q_path (erase (plex 0 t)))) in E.
    rewrite !raw0_ok in E; [destruct g, h; try congruence; try reflexivity; discriminate E|destruct h; repeat constructor; congruence|destruct g; repeat constructor; congruence].
  Qed.
  Lemma wdims_spec : UslTable.dims_of po false (map wdims (places u (fun _ => true))) = [wpath Constant] /\ exists J', Permutation J' Js /\ UslTable.dims_of po true (map wdims (places u (fun _ => true))) = map wpath J'.
  Proof.
    split.
    - unfold UslTable.dims_of. assert (Ne : exists c, In (Constant, c) (places u (fun _ => true))).
      { destruct G as ((_ & ((_ & K) & _)) & _). destruct (constant u) as [|k ks] eqn:Ec; [destruct K as [K|[K _]]; congruence|]. exists k. apply places_in. split; [reflexivity|]. cbn [ms]. rewrite Ec. now left. }
      assert (X : forall p, In p (map fst (filter (fun e => Bool.eqb (snd e) false) (map wdims (places u (fun _ => true))))) <-> p = wpath Constant).
      { intros p. rewrite in_map_iff. split.
        - intros (e & <- & He). apply filter_In in He. destruct He as [He Se]. apply in_map_iff in He. destruct He as ([g m] & <- & _). unfold wdims in Se |- *. cbn [fst snd] in *. destruct (gidx_eqb Constant g) eqn:Eg; [apply gidx_eqb_eq in Eg; subst g; reflexivity|discriminate].
        - intros ->. destruct Ne as (k & Hk). exists (wpath Constant, false). split; [reflexivity|]. apply filter_In. split; [|reflexivity]. apply in_map_iff. exists (Constant, k). split; [reflexivity|exact Hk]. }
      revert X. generalize (map fst (filter (fun e => Bool.eqb (snd e) false) (map wdims (places u (fun _ => true))))) as l. intros l X.
      assert (D : dedup path_eqb l = [wpath Constant]).
      { assert (I : forall p, In p (dedup path_eqb l) -> p = wpath Constant) by (intros p Hp; apply dedup_in in Hp; now apply X). pose proof (SortProofs.dedup_distinct path_eqb path_sym l) as DD. destruct (SortProofs.dedup_complete path_eqb path_refl l (wpath Constant)) as (p & Hp & _); [now apply X|].
        destruct (dedup path_eqb l) as [|p0 [|p1 r]]; [destruct Hp|f_equal; apply I; now left|]. exfalso. inversion DD as [|? ? Hd]; subst. apply Forall_cons_iff in Hd. destruct Hd as [Hd _]. rewrite (I p0), (I p1), path_refl in Hd by (cbn; auto). discriminate. }
      rewrite D. apply Permutation_length_1_inv. apply Permutation_sym, PO.
    - apply dims_gen; [exact PO|apply J_nodup; exact Logic.I| | |].
      + intros g h Hg Hh E. apply J_ok in Hg; [|exact Logic.I]. apply J_ok in Hh; [|exact Logic.I]. destruct Hg as (Hc & _), Hh as (Hc' & _). now apply wpath_inj.
      + intros p Hp. apply in_map_iff in Hp. destruct Hp as (e & <- & He). apply filter_In in He. destruct He as [He Se]. apply in_map_iff in He. destruct He as ([g m] & <- & Hm). unfold wdims in Se |- *. cbn [fst snd] in *. destruct (gidx_eqb Constant g) eqn:Eg; [discriminate|].
        exists g. split; [|reflexivity]. apply (proj2 (J_in u Constant None Logic.I g)). assert (Hc : g <> Constant) by (intros ->; discriminate). split; [exact Hc|]. apply places_in in Hm. destruct Hm as [_ Hm]. destruct (ms_group u g) as (gr & E); [intros X; rewrite X in Hm; destruct Hm|exact Hc|]. unfold has_group. now rewrite E.
      + intros g Hg. apply J_ok in Hg; [|exact Logic.I]. destruct Hg as (Hc & _ & gr & Eg). apply in_map_iff. exists (wpath g, true). split; [reflexivity|]. apply filter_In. split; [|reflexivity]. apply in_map_iff. pose proof (group_nonempty u G g gr Eg) as Ne. destruct (ms u g) as [|m l] eqn:Em; [congruence|].
        exists (g, m). split; [|apply places_in; split; [reflexivity|rewrite Em; now left]]. unfold wdims. cbn [fst]. destruct (gidx_eqb Constant g) eqn:E; [apply gidx_eqb_eq in E; congruence|reflexivity].
  Qed.

  (** *** The rows *)
  Notation bare l := (map (itm barec KK) l).
  Lemma wby_pm_more ds v : (forall g, In g ds -> In g Js) -> by_pm (UWord w) [(rowp, v)] (map wpath ds) = Ok [(rowp, v ++ bare (flat_map (bv u) ds))%list].
  Proof.
    revert v. induction ds as [|g ds IH]; intros v H; [cbn; now rewrite app_nil_r|]. cbn [map by_pm]. destruct (J_ok u Constant None Logic.I g) as (Hc & _ & gr & Eg); [apply H; now left|].
    assert (S1 : split_tail (wpath g) = Ok (rowp, gpath u g)) by (destruct g; [congruence|reflexivity..]). rewrite S1. cbn [bind]. destruct (one_deref u g gr Eg) as [D _]. assert (D' : element (wpath g) (UWord w) = Ok (UPm (one u g))) by (unfold wpath; rewrite (elem_role b y _ Hb); rewrite <- D; destruct g; [congruence|reflexivity..]). unfold gpath at 1. rewrite D'. cbn [bind]. rewrite items_leaves. cbn [bind]. rewrite bv_leaves by auto. cbn [extend]. rewrite path_refl. cbn [flat_map]. rewrite IH by (intros z Hz; apply H; now right).
    rewrite map_app, app_assoc. reflexivity.
  Qed.
  Lemma wby_pm ds : (forall g, In g ds -> In g Js) -> by_pm (UWord w) [] (map wpath ds) = Ok (match ds with [] => [] | _ => [(rowp, bare (flat_map (bv u) ds))] end).
  Proof.
    destruct ds as [|g ds]; intros H; [reflexivity|]. cbn [map by_pm]. destruct (J_ok u Constant None Logic.I g) as (Hc & _ & gr & Eg); [apply H; now left|].
    assert (S1 : split_tail (wpath g) = Ok (rowp, gpath u g)) by (destruct g; [congruence|reflexivity..]). rewrite S1. cbn [bind]. destruct (one_deref u g gr Eg) as [D _]. assert (D' : element (wpath g) (UWord w) = Ok (UPm (one u g))) by (unfold wpath; rewrite (elem_role b y _ Hb); rewrite <- D; destruct g; [congruence|reflexivity..]). unfold gpath at 1. rewrite D'. cbn [bind]. rewrite items_leaves. cbn [bind]. rewrite bv_leaves by auto. cbn [extend flat_map]. rewrite wby_pm_more by (intros z Hz; apply H; now right).
    rewrite map_app. reflexivity.
  Qed.
  Definition lowW (e : path * usl) : path * usl := (PRole b fb (Some (PLex Content (Some (fst e)))), snd e).
  Lemma wvariations_under v vs : variations_of so (PUsl None, bare v) = Ok vs -> variations_of so (rowp, bare v) = Ok (map (map lowW) vs).
  Proof.
    unfold variations_of. destruct (usl_of_list so (bare v)) as [yy|]; [|discriminate]. cbn [bind]. destruct (sequences so yy) as [seqs|]; [|discriminate]. cbn [bind]. apply mapM_then. intros s r _. destruct (items s) as [its|]; [|discriminate]. cbn [bind]. apply mapM_then. intros e w0 _.
    destruct (last_of (snd e) (map (fun e => (snd e, fst e)) (bare v))) as [q|] eqn:E; [|discriminate]. cbn [bind]. apply last_of_some in E. destruct E as (z & Hz & ->). apply in_map_iff in Hz. destruct Hz as (z' & <- & Hz). apply in_map_iff in Hz. destruct Hz as ([g m] & <- & _). cbn [snd fst itm].
    intros H. match type of H with bind (concat _ ?q _) _ = _ => assert (X : concat (PUsl None) q false = Ok q /\ concat rowp q false = Ok (PRole b fb (Some (PLex Content (Some q))))) by (split; reflexivity); destruct X as [X1 X2]; rewrite X1 in H; rewrite X2 end. cbn [bind] in *. injection H as <-. reflexivity.
  Qed.
  Definition tagb (d : list script) : list (path * script) := map rup (map (pair b) (CI KK (consts d))).
  Lemma tagb_app d d' : tagb (d ++ d') = (tagb d ++ tagb d')%list. Proof. unfold tagb, CI, consts. now rewrite !map_app. Qed.
  Lemma wrow_items v d : map snd v = map UScript d -> Forall (fun e => exists h, fst e = gpath u h) v ->
    exists l, mapM (fun e : path * usl => do its <- items (snd e); mapM (fun i => do p <- concat (fst e) (fst i) false; do p <- as_constant p (Some (snd i)); Ok (p, snd i)) its) ([(wpath Constant, UPm (mk_pm (constant u) []))] ++ map lowW v) = Ok l /\ List.concat l = tagb (pre y true ++ d).
  Proof.
    intros E Fv. assert (X : exists l, mapM (fun e : path * usl => do its <- items (snd e); mapM (fun i => do p <- concat (fst e) (fst i) false; do p <- as_constant p (Some (snd i)); Ok (p, snd i)) its) (map lowW v) = Ok l /\ List.concat l = tagb d).
    { revert d E Fv. induction v as [|[q yy] v IH]; intros [|m d] E Fv; try discriminate; [exists []; split; reflexivity|]. cbn [map snd] in E. injection E as -> E. apply Forall_cons_iff in Fv. destruct Fv as [(h & Eh) Fv]. cbn [fst] in Eh. subst q. destruct (IH d E Fv) as (l & El & Ll).
      cbn [map]. rewrite mapM_step, El. eexists. split; [reflexivity|]. cbn [List.concat map app]. rewrite Ll. reflexivity. }
    destruct X as (l & El & Ll). cbn [app]. rewrite mapM_step, El. cbn [snd]. rewrite items_leaves, flat_leaves by reflexivity. cbn [bind fst].
    match goal with |- context [mapM ?f (map ?h ?c0)] => assert (Y : forall c1, mapM f (map h c1) = Ok (tagb c1)) by (clear; induction c1 as [|m c1 IH]; [reflexivity|]; cbn [map]; rewrite mapM_step, IH; reflexivity); rewrite Y end.
    cbn [bind]. eexists. split; [reflexivity|]. cbn [List.concat]. rewrite Ll, <- tagb_app. reflexivity.
  Qed.
  Lemma as_constant_wrow d : mapM (fun e => do p <- as_constant (fst e) None; Ok (p, snd e)) (tagb d) = Ok (tagb d).
  Proof. induction d as [|m d IH]; [reflexivity|]. unfold tagb, CI, consts in *. cbn [map]. rewrite mapM_step, IH. reflexivity. Qed.
  Lemma constants_wrow d : constants_of (tagb d) = Ok (tagb d).
  Proof. unfold constants_of. induction d as [|m d IH]; [reflexivity|]. unfold tagb, CI, consts in *. cbn [map]. rewrite mapM_step, IH. reflexivity. Qed.
  Lemma wrows_ok : exists S, Permutation (map pm_str S) (map pm_str (pm_ss so (rowpm u Constant None))) /\ Forall (rgood y) S /\
    row_paths_variation so po wl (UWord w) colp (Some rowp) = Ok (map (fun s => map rup (row s)) S).
  Proof.
    unfold row_paths_variation. rewrite wdimensions_ok. cbn [bind]. destruct wdims_spec as (F0 & J' & PJ & F1). rewrite F0, F1. rewrite wby_pm by (intros g Hg; eapply Permutation_in; [exact PJ|exact Hg]).
    assert (C0 : mapM (fun p => do y <- element p (UWord w); do l <- sequences so y; Ok (map (pair p) l)) [wpath Constant] = Ok [[(wpath Constant, UPm (mk_pm (constant u) []))]]) by (rewrite mapM_step; unfold wpath at 1; rewrite (elem_role b y _ Hb); reflexivity).
    rewrite C0. cbn [bind]. assert (C1 : List.concat [[(wpath Constant, UPm (mk_pm (constant u) []))]] = [(wpath Constant, UPm (mk_pm (constant u) []))]) by reflexivity. rewrite C1.
    assert (K : forall S0, Permutation (map pm_str S0) (map pm_str (pm_ss so (rowpm u Constant None))) -> Forall (rgood y) S0 ->
      exists S, Permutation (map pm_str S) (map pm_str (pm_ss so (rowpm u Constant None))) /\ Forall (rgood y) S /\
      sort_by wl (fun l => do l <- mapM (fun e => do p <- as_constant (fst e) None; Ok (p, snd e)) l; do c <- constant_paths (UWord w) colp (Some rowp); usl_of_list so (l ++ c)%list) (map (fun s => map rup (row s)) S0) = Ok (map (fun s => map rup (row s)) S)).
    { intros S0 PS FS.
      match goal with |- context [sort_by wl ?f (map _ S0)] => destruct (sort_by_any wl (fun s => f (map rup (row s))) S0) as (l' & E3 & P3) end.
      - intros s Hs. rewrite Forall_forall in FS. specialize (FS s Hs). change (map rup (row s)) with (tagb (pre y true ++ parts s)). rewrite as_constant_wrow. cbn [bind]. rewrite consts_ok. cbn [bind]. change (tagb (pre y true ++ parts s)) with (map rup (row s)). rewrite <- map_app. now apply row_key.
      - exists l'. split; [rewrite P3; exact PS|]. split; [apply Forall_forall; rewrite Forall_forall in FS; intros s Hs; apply FS; eapply Permutation_in; [exact P3|exact Hs]|]. exact (sort_by_map wl (fun s => map rup (row s)) _ _ _ E3). }
    destruct J' as [|g J'].
    - apply Permutation_nil in PJ. cbn [mapM bind product]. destruct (wrow_items [] []) as (l & El & Ll); [reflexivity|constructor|]. cbn [map] in El. cbn [List.concat]. rewrite El. cbn [bind mapM]. rewrite Ll.
      assert (Er : tagb (pre y true ++ []) = map rup (row (rowpm u Constant None))) by (unfold row, lrow, row_parts; rewrite PJ; reflexivity). rewrite Er. apply (K [rowpm u Constant None]).
      + unfold pm_ss. assert (X : groups (rowpm u Constant None) = []); [|rewrite X; reflexivity]. unfold rowpm, row_groups, inJ. rewrite PJ. cbn [existsb flat_map]. destruct (groups_at u Group0), (groups_at u Group1), (groups_at u Group2); reflexivity.
      + constructor; [|constructor]. split; [|exists []; split; [constructor|]; unfold rowpm; f_equal; unfold row_groups, inJ; rewrite PJ; cbn [existsb flat_map]; destruct (groups_at u Group0), (groups_at u Group1), (groups_at u Group2); reflexivity]. unfold row_parts. rewrite PJ. apply choice0.
    - destruct (variations_ok so SO u G NR Constant None Logic.I (g :: J') PJ) as (p & vs & Ev & Po & Ep & N & Fv); [discriminate|]. rewrite mapM_step, (wvariations_under _ vs Ev). cbn [mapM bind]. rewrite product_one.
      assert (NJ : Js <> []) by (intros X; rewrite X in PJ; apply Permutation_sym, Permutation_nil in PJ; discriminate).
      assert (RP : forall s, parts s = constant s) by (intros s; unfold row_parts; destruct Js; [congruence|reflexivity]).
      match goal with |- context [mapM ?f (map (fun z => [z]) (map (map lowW) vs))] => assert (X : forall ss vs, Forall2 (fun s v => map snd v = map UScript (constant s) /\ Forall (fun e => exists h, fst e = gpath u h) v) ss vs -> mapM f (map (fun z => [z]) (map (map lowW) vs)) = Ok (map (fun s => map rup (row s)) ss)) end.
      { clear Fv Ev. induction 1 as [|s v ss vs' (A & B) _ IH]; [reflexivity|]. cbn [map]. rewrite mapM_step, IH. cbn [List.concat app]. rewrite app_nil_r. destruct (wrow_items v (constant s) A B) as (l & El & Ll). cbn [app] in El. rewrite El. cbn [bind]. rewrite Ll. unfold row, lrow. rewrite RP. reflexivity. }
      rewrite (X _ _ Fv). cbn [bind]. apply (K (pm_ss so p)).
      + apply ss_text; auto. apply rowpm_ok. apply G.
      + apply Forall_forall. intros s Hs. split; [rewrite RP; now apply (row_choice so SO u G Constant None p s)|now apply (ss_flatpm so p s)].
  Qed.
  Lemma wrows_constant R : row_paths_variation so po wl (UWord w) colp (Some rowp) = Ok (map (fun s => map rup (row s)) R) -> row_paths_constant so po wl (UWord w) colp (Some rowp) = Ok (map (fun s => map rup (row s)) R).
  Proof. intros E. unfold row_paths_constant. rewrite E. cbn [bind]. clear E. induction R as [|s S IH]; [reflexivity|]. cbn [map]. rewrite mapM_step, IH. change (map rup (row s)) with (tagb (pre y true ++ parts s)). rewrite constants_wrow. reflexivity. Qed.

  (** *** The cells *)
  Definition cell_words (s r : pm) : list (role * option lexeme) := map (fun e => (fst e, Some (put s (cellc y (parts r)) (fst e) (snd e)))) es.
  Lemma wcells_ok : exists C R cells, Permutation C (pm_ss so F) /\ Permutation (map pm_str R) (map pm_str (pm_ss so (rowpm u Constant None))) /\ Forall (rgood y) R /\
    column_paths_constant so wl (UWord w) colp (Some rowp) = Ok (map (fun s => map rup (col s)) C) /\ row_paths_constant so po wl (UWord w) colp (Some rowp) = Ok (map (fun s => map rup (row s)) R) /\
    table_cells so po wl (UWord w) colp (Some rowp) = Ok cells /\ Forall2 (fun r vs => Forall2 (fun s v => shows_word v (cell_words s r)) C vs) R cells.
  Proof.
    destruct wcolumns_ok as (C & PC & EC). destruct wrows_ok as (R & PR & FR & ER). apply wcols_constant in EC. apply wrows_constant in ER.
    assert (X : forall r, rgood y r -> exists vs, mapM (fun l => do c <- constant_paths (UWord w) colp (Some rowp); usl_of_list so (c ++ l ++ map rup (row r))%list) (map (fun s => map rup (col s)) C) = Ok vs /\ Forall2 (fun s v => shows_word v (cell_words s r)) C vs).
    { intros r Hr0. assert (IC : incl C (pm_ss so F)) by (intros s Hs; eapply Permutation_in; [exact PC|exact Hs]). clear PC EC. induction C as [|s C IH]; [exists []; split; [reflexivity|constructor]|].
      destruct IH as (vs & Ev & Fv); [intros z Hz; apply IC; now right|]. destruct (cell_build s r) as (v & E & Sh); [apply IC; now left|exact Hr0|]. exists (v :: vs). split; [|constructor; assumption].
      cbn [map]. rewrite mapM_step, Ev, consts_ok. cbn [bind]. rewrite <- !map_app, E. reflexivity. }
    assert (Y : exists cells, mapM (fun r => mapM (fun l => do c <- constant_paths (UWord w) colp (Some rowp); usl_of_list so (c ++ l ++ r)%list) (map (fun s => map rup (col s)) C)) (map (fun s => map rup (row s)) R) = Ok cells /\ Forall2 (fun r vs => Forall2 (fun s v => shows_word v (cell_words s r)) C vs) R cells).
    { clear PR ER. induction FR as [|r R Hr0 FR IH]; [exists []; split; [reflexivity|constructor]|]. destruct IH as (cells & E & Fc). destruct (X r Hr0) as (vs & Ev & Fv). exists (vs :: cells). split; [|constructor; assumption]. cbn [map]. rewrite mapM_step, Ev, E. reflexivity. }
    destruct Y as (cells & E & Fc). exists C, R, cells. repeat (split; [assumption|]). split; [|exact Fc]. unfold table_cells. rewrite ER. cbn [bind]. rewrite <- E. clear - EC. induction (map (fun s => map rup (row s)) R) as [|r l IH]; [reflexivity|]. rewrite !mapM_step, IH, EC. reflexivity.
  Qed.

  (** *** The headers of the rows *)
  Lemma header_build C r : Permutation C (pm_ss so F) -> lcover x -> rgood y r ->
    exists v, usl_of_list so (map rup (kt ++ row r ++ map (pair a) (FI (flat_map constant C)))) = Ok v /\ shows_word v (cell_words F r).
  Proof.
    intros PC Cv Hg. pose proof (row_part r Hg) as Pr. set (fl := flat_map constant C).
    assert (Nf : Forall named fl). { apply Forall_forall. intros m Hm. apply in_flat_map in Hm. destruct Hm as (s & Hs & Hm). apply (Permutation_in _ PC) in Hs. destruct (column_good so SO x GF s Hs) as (_ & _ & _ & _ & Nm & _). rewrite Forall_forall in Nm. auto. }
    assert (Ef : fl <> []).
    { intros Ef. destruct C as [|s C'].
      - apply Permutation_nil in PC. exact (flex_some so F SO GF Cv PC).
      - destruct (column_good so SO x GF s) as (_ & _ & _ & Ne & _); [eapply Permutation_in; [exact PC|now left]|]. apply Ne. unfold fl in Ef. cbn [flat_map] in Ef. now apply app_eq_nil in Ef. }
    destruct (flexion_uniq so SO fl F GF (flex_nf fl Nf)) as (Pf & Ef').
    { intros t Ht. split.
      - intros H. apply in_map_iff in H. destruct H as (m & <- & Hm). apply in_flat_map in Hm. destruct Hm as (s & Hs & Hm). apply (Permutation_in _ PC) in Hs. destruct (column_good so SO x GF s Hs) as (_ & _ & _ & _ & _ & I & _). now apply in_map, I.
      - intros H. apply in_map_iff in H. destruct H as (m & <- & Hm). destruct (flex_covered so F m SO GF Cv Hm) as (s & m' & Hs & Hm' & E).
        + destruct (is_empty m) eqn:Em; [|reflexivity]. exfalso. apply Ht. apply (flex_empty F); [exact GF|exact Hm|exact Em].
        + rewrite <- E. apply in_map. apply in_flat_map. exists s. split; [|exact Hm']. eapply Permutation_in; [apply Permutation_sym, PC|exact Hs]. }
    assert (Ps : fpart (FI fl) (pm_str F)) by (right; right; exists fl; auto 10).
    apply (build_parts _ (fun i z => if rdec i a then FI fl else FLs (pm_flexion z)) (fun i z => if rdec i b then lrow y true r else CI (Ku (pm_content z)) (AllC z))).
    - repeat (apply Forall_app; split); [apply kt_ok|apply tag_ok; [apply Hb'|now apply (cpart_li _ _ Pr)]|apply tag_ok; [apply Ha'|now apply (fpart_li _ _ Ps)]].
    - intros i z Hi. unfold put. cbn [pm_flexion pm_content]. split; [destruct (rdec i a); [exact Ps|now apply (allf_part i)]|]. split; [destruct (rdec i b); [exact Pr|now apply (allc_part i)]|].
      split; [apply put_ok; [exact Hi|apply clean_ok, GF|now apply row_nf]|]. split.
      + right. destruct (rdec i b); [apply lrow_some|now apply (AllC_some i)].
      + rewrite !sub_app, (kt_sub i z Hi). unfold kept, row. rewrite !sub_tagged. destruct (rdec i a), (rdec i b); cbn [app]; rewrite ?app_nil_r; auto.
  Qed.
  Lemma wtable_ok : exists C R cells, Permutation C (pm_ss so F) /\ Permutation (map pm_str R) (map pm_str (pm_ss so (rowpm u Constant None))) /\ Forall (rgood y) R /\
    table_cells so po wl (UWord w) colp (Some rowp) = Ok cells /\ Forall2 (fun r vs => Forall2 (fun s v => shows_word v (cell_words s r)) C vs) R cells /\
    (lcover x -> exists hs, table_rows so po wl (UWord w) colp (Some rowp) = Ok hs /\ Forall2 (fun r v => shows_word v (cell_words F r)) R hs).
  Proof.
    destruct wcells_ok as (C & R & cells & PC & PR & FR & EC & ER & Ec & Fc). exists C, R, cells. repeat (split; [assumption|]). intros Cv.
    destruct wcolumns_ok as (C1 & PC1 & EC1). pose proof (wcols_constant C1 EC1) as EC2.
    assert (E1 : forall r, rgood y r -> exists v, usl_of_list so (map rup kt ++ map rup (row r) ++ List.concat (map (fun s => map rup (col s)) C1))%list = Ok v /\ shows_word v (cell_words F r)).
    { intros r Hg. destruct (header_build C1 r PC1 Cv Hg) as (v & E & Sh). exists v. split; [|exact Sh]. rewrite <- E, !map_app. do 3 f_equal. clear. induction C1 as [|s C1 IH]; [reflexivity|]. cbn [map List.concat flat_map]. rewrite IH. unfold FI. rewrite !map_app. reflexivity. }
    assert (X : exists hs, mapM (fun l => usl_of_list so (map rup kt ++ l ++ List.concat (map (fun s => map rup (col s)) C1))%list) (map (fun s => map rup (row s)) R) = Ok hs /\ Forall2 (fun r v => shows_word v (cell_words F r)) R hs).
    { clear PR ER Fc Ec. induction FR as [|r R Hg FR IH]; [exists []; split; [reflexivity|constructor]|]. destruct IH as (hs & E & Fh). destruct (E1 r Hg) as (v & Ev & Sh). exists (v :: hs). split; [|constructor; assumption]. cbn [map]. rewrite mapM_step, Ev, E. reflexivity. }
    destruct X as (hs & E & Fh). exists hs. split; [|exact Fh]. unfold table_rows. rewrite EC1. cbn [bind]. rewrite ER. cbn [bind]. rewrite consts_ok. cbn [bind]. exact E.
  Qed.

  (** *** Tables of which the rows are not named *)
  Section Unnamed.
  Hypothesis OF : forall i z, In (i, z) es -> i <> a -> groups (pm_flexion z) = [].
  Hypothesis OC : forall i z, In (i, z) es -> i <> b -> groups (pm_content z) = [].
  Lemma es_fun i z z' : In (i, z) es -> In (i, z') es -> z = z'.
  Proof.
    pose proof es_nodup as N. revert N. clear. induction es as [|[j t] l IH]; intros N H H'; [destruct H|]. cbn [map fst] in N. apply NoDup_cons_iff in N. destruct N as [N1 N2].
    destruct H as [H|H], H' as [H'|H']; [congruence|injection H as -> ->; elim N1; now apply (in_map fst) in H'|injection H' as -> ->; elim N1; now apply (in_map fst) in H|auto].
  Qed.
  Definition nkeep (t : role * (path * script)) : bool := (negb (if rdec (fst t) a then isF (snd t) else false) && is_constant_path (fst (snd t)))%bool.
  Definition nkt : list (role * (path * script)) := filter nkeep tags.
  Lemma nconsts_ok : constant_paths (UWord w) colp None = Ok (map rup nkt).
  Proof.
    unfold constant_paths. rewrite witems, <- tags_up. cbn [bind].
    match goal with |- bind (mapM ?g ?l) _ = _ => destruct (keep_filter g (fun e => match fst e with PRole i _ (Some p) => nkeep (i, (p, snd e)) | _ => true end) l) as (ks & E & Fk) end.
    - intros e He. apply in_map_iff in He. destruct He as (t & <- & Ht). destruct (tags_in t Ht) as (z & Hz & Hl). destruct t as [i [p s]]. cbn [fst snd] in *. unfold up, rhead. cbn [fst snd set_child].
      assert (Hi : In i (map fst es)) by now apply (in_map fst) in Hz.
      destruct (lex_leaf_ok z (p, s) (good i z Hz) Hl) as (_ & Pl & _). cbn [fst] in Pl.
      assert (Pr : has_prefix (PRole i (role_eqb i focus) (Some p)) (Some colp) = Ok (if rdec i a then match p with PLex k' _ => lidx_eqb k' Flexion | _ => false end else false)).
      { unfold colp, LF. cbn [has_prefix class_of pclass_eqb negb orb do_eq]. rewrite (role_eq i a Hi Ha'). destruct (rdec i a) as [->|D]; [|reflexivity]. rewrite Bool.eqb_reflx. cbn [andb negb child_of]. destruct Pl as [l|p0 P0|m M]; cbn [has_prefix class_of pclass_eqb negb orb do_eq].
        - destruct l; reflexivity.
        - destruct p0; reflexivity.
        - reflexivity. }
      rewrite Pr. cbn [bind]. unfold nkeep. cbn [fst snd]. unfold isF. cbn [fst]. destruct (rdec i a); destruct Pl as [[]| |]; reflexivity.
    - rewrite E. cbn [bind]. rewrite Fk, filter_map_comm. reflexivity.
  Qed.
  Definition NC (z : lexeme) : list (gidx * script) := consts (constant (pm_content z)).
  Definition nkept (i : role) (z : lexeme) : list (path * script) := ((if rdec i a then [] else FLs (pm_flexion z)) ++ CI (Ku (pm_content z)) (NC z))%list.
  Lemma nkt_sub i z : In (i, z) es -> rsub i nkt = nkept i z.
  Proof.
    intros H. unfold nkt. rewrite sub_filter, (tags_sub i z H), lex_leaves_eq, filter_app. unfold nkept. f_equal.
    - unfold FLs, flex_leaves. rewrite map_map. unfold nkeep. cbn [fst snd raise]. destruct (rdec i a) as [D|D]; [apply filter_none|apply filter_true]; intros e He; apply in_map_iff in He; destruct He as (m & <- & _); reflexivity.
    - unfold NC. rewrite <- places0. unfold CI. rewrite <- (places_filter (pm_content z) (gidx_eqb Constant)). unfold nkeep. cbn [fst snd]. clear. induction (places (pm_content z) (fun _ => true)) as [|[g m] l IH]; [reflexivity|]. cbn [map filter fst]. rewrite IH. unfold isF. destruct g, (rdec i a); reflexivity.
  Qed.
  Lemma nkt_ok : Forall (fun e => In (fst e) (map fst es) /\ li_ok (snd e)) nkt.
  Proof.
    apply Forall_forall. intros t Ht. apply filter_In in Ht. destruct Ht as [Ht _]. destruct (tags_in t Ht) as (z & Hz & Hl). split; [now apply (in_map fst) in Hz|]. pose proof (leaves_li z (good _ _ Hz)) as L. rewrite Forall_forall in L. auto.
  Qed.
  (** the content of a role, put around its flexion *)
  Lemma join3 lf tf K m1 m2 q : fpart lf tf -> (m1 ++ m2)%list <> [] -> Forall (place_ok K) (m1 ++ m2)%list -> usl_of_list so (map (itm nobare K) (m1 ++ m2)%list) = Ok (UPm q) -> pok q ->
    exists z, mlex so (CI K m1 ++ lf ++ CI K m2)%list z /\ lok z /\ pm_str (pm_flexion z) = tf /\ pm_str (pm_content z) = pm_str q.
  Proof.
    intros Hf0 Nm Fm Eq Pq. pose proof empty_ok as EO. destruct Hf0 as [[-> ->]|[(p & Gp & -> & ->)|(d & Nd & Fd & -> & Pd & ->)]].
    - cbn [app]. assert (X : (CI K m1 ++ CI K m2)%list = CI K (m1 ++ m2)) by (unfold CI; now rewrite !map_app). rewrite X. pose proof (lex_build_content so SO K _ q Nm Fm Eq) as B. eexists. split; [apply lex_inv; [exact SO|unfold CI; intros Y; apply map_eq_nil, map_eq_nil in Y; contradiction|now apply CI_ok|exact B]|]. auto using pair_ok.
    - destruct (flex_made so SO p Gp) as (p' & Mp & Pp & Ep). pose proof (pm_inv so SO K _ q Nm Fm Eq) as Mq. rewrite !map_app in Mq. eexists. split; [apply (around so p p' q (map (itm nobare K) m1) (map (itm nobare K) m2) Gp Mp)|].
      + intros X. apply Nm. apply app_eq_nil in X. destruct X as [X1 X2]. apply map_eq_nil in X1, X2. now subst.
      + unfold mpm. rewrite map_app. exact Mq.
      + exact (CP_CI so K m1).
      + exact (CP_CI so K m2).
      + auto using pair_ok.
    - pose proof (lex_build so SO K m1 d m2 q Nd Nm Fd Fm Eq) as B. eexists. split; [apply lex_inv; [exact SO| | |exact B]|auto using pair_ok].
      + intros X. apply app_eq_nil in X. destruct X as [_ X]. apply app_eq_nil in X. destruct X as [X _]. apply map_eq_nil in X. contradiction.
      + apply Forall_app in Fm. destruct Fm as [F1 F2]. repeat (apply Forall_app; split); [now apply CI_ok|now apply FI_ok|now apply CI_ok].
  Qed.
  (** the morphemes [l] at the places of the content of [z] make the content written [t] *)
  Definition makes (z : lexeme) (l : list (gidx * script)) (t : string) : Prop := exists q, l <> [] /\ Forall (place_ok (Ku (pm_content z))) l /\ usl_of_list so (map (itm nobare (Ku (pm_content z))) l) = Ok (UPm q) /\ pok q /\ pm_str q = t.
  Lemma makes_own i z : In (i, z) es -> i <> b -> makes z (NC z) (pm_str (pm_content z)).
  Proof.
    intros H D. destruct (good i z H) as [_ Gz]. destruct (leaves_made so SO (pm_content z) Gz) as (p & Mp & Pp & Ep).
    assert (X : NC z = places (pm_content z) (fun _ => true)).
    { unfold places, NC, consts. cbn [filter flat_map]. assert (Y : forall g, g <> Constant -> ms (pm_content z) g = []) by (intros g Hg; destruct g; [congruence|unfold ms, groups_at; rewrite (OC i z H D); reflexivity..]). rewrite (Y Group0), (Y Group1), (Y Group2) by discriminate. cbn [map ms app]. now rewrite !app_nil_r. }
    assert (Fp : Forall (place_ok (Ku (pm_content z))) (places (pm_content z) (fun _ => true))) by (apply Forall_forall; intros e He; destruct e; now apply (place_ok_u _ Gz (fun _ => true))).
    assert (Np : NC z <> []) by (destruct Gz as ((_ & ((_ & K) & _)) & _); unfold NC, consts; intros E; apply map_eq_nil in E; rewrite E in K; destruct K as [K|[K _]]; congruence).
    rewrite X in *. exists p. split; [exact Np|]. split; [exact Fp|]. split; [|auto]. apply items_of_pm; [exact SO|exact Fp|exact Np|]. now rewrite <- leaves_places.
  Qed.
  Lemma makes_row d l : choice u (inJ u Constant None) d -> (forall e, In e l <-> In e (consts (constant u)) \/ In e (consts d)) -> makes y l (pm_str (cellc y d)).
  Proof. intros C M. destruct (content_build so SO y G NR d l C M) as (p & Ep & Pp & Tp & Fp & Np). exists p. auto. Qed.
  Lemma build3 L T : Forall (fun e => In (fst e) (map fst es) /\ li_ok (snd e)) L ->
    (forall i z, In (i, z) es -> lok (T i z) /\ exists lf m1 m2, fpart lf (pm_str (pm_flexion (T i z))) /\ makes z (m1 ++ m2)%list (pm_str (pm_content (T i z))) /\ rsub i L = (CI (Ku (pm_content z)) m1 ++ lf ++ CI (Ku (pm_content z)) m2)%list) ->
    exists v, usl_of_list so (map rup L) = Ok v /\ shows_word v (map (fun e => (fst e, Some (T (fst e) (snd e)))) es).
  Proof.
    intros FL H. apply build_with; [exact FL|]. intros i z Hi. destruct (H i z Hi) as (Lt & lf & m1 & m2 & Hp & (q & Nm & Fm & Eq & Pq & Tq) & Es). rewrite Es. destruct (join3 _ _ _ _ _ _ Hp Nm Fm Eq Pq) as (z' & M & Lz & T1 & T2). split.
    - intros X. apply app_eq_nil in X. destruct X as [X1 X2]. apply app_eq_nil in X2. destruct X2 as [_ X2]. apply Nm. unfold CI in X1, X2. apply map_eq_nil, map_eq_nil in X1. apply map_eq_nil, map_eq_nil in X2. now subst.
    - exists z'. split; [exact M|]. apply lexeme_str_key; [exact Lz|exact Lt|]. split; [exact T1|]. now rewrite T2.
  Qed.
  Definition nrow (s : pm) : list (role * (path * script)) := map (pair b) (CI KK (consts (parts s))).
  (** the morphemes of the row that a role has *)
  Definition rowm (i : role) (r : pm) : list (gidx * script) := if rdec i b then consts (parts r) else [].
  Lemma makes_at i z r l : In (i, z) es -> rgood y r -> (if rdec i b then forall e, In e l <-> In e (consts (constant u)) \/ In e (consts (parts r)) else l = NC z) -> makes z l (pm_str (if rdec i b then cellc y (parts r) else pm_content z)).
  Proof.
    intros H [C _] M. destruct (rdec i b) as [->|D].
    - rewrite (es_fun b z y H Hb). now apply makes_row.
    - subst l. now apply (makes_own i).
  Qed.
  Lemma CI_app2 K l l' : CI K (l ++ l') = (CI K l ++ CI K l')%list. Proof. unfold CI. now rewrite !map_app. Qed.
  Lemma row_sub i z r : In (i, z) es -> rsub i (nrow r) = CI (Ku (pm_content z)) (rowm i r).
  Proof. intros H. unfold nrow, rowm. rewrite sub_tagged. destruct (rdec i b) as [->|D]; [now rewrite (es_fun b z y H Hb)|reflexivity]. Qed.
  Lemma nrow_ok r : rgood y r -> Forall (fun e => In (fst e) (map fst es) /\ li_ok (snd e)) (nrow r).
  Proof.
    intros [C _]. apply tag_ok; [apply Hb'|]. destruct (makes_row (parts r) (consts (parts r) ++ consts (constant u)) C) as (q & _ & Fm & _); [intros e; rewrite in_app_iff; tauto|]. apply Forall_app in Fm. now apply CI_li.
  Qed.
  Lemma NC_y : NC y = consts (constant u). Proof. reflexivity. Qed.
  Lemma rowm_in i z r : In (i, z) es -> if rdec i b then forall e, In e (NC z ++ rowm i r)%list <-> In e (consts (constant u)) \/ In e (consts (parts r)) else (NC z ++ rowm i r)%list = NC z.
  Proof. intros H. unfold rowm. destruct (rdec i b) as [->|D]; [|apply app_nil_r]. intros e. rewrite (es_fun b z y H Hb), in_app_iff. reflexivity. Qed.
  Lemma rowm_in' i z r : In (i, z) es -> if rdec i b then forall e, In e (rowm i r ++ NC z)%list <-> In e (consts (constant u)) \/ In e (consts (parts r)) else (rowm i r ++ NC z)%list = NC z.
  Proof. intros H. unfold rowm. destruct (rdec i b) as [->|D]; [|reflexivity]. intros e. rewrite (es_fun b z y H Hb), in_app_iff. unfold NC. tauto. Qed.
  Lemma ncell_build s r : In s (pm_ss so F) -> rgood y r ->
    exists v, usl_of_list so (map rup (nkt ++ col s ++ nrow r)) = Ok v /\ shows_word v (map (fun e => (fst e, Some (put s (cellc y (parts r)) (fst e) (snd e)))) es).
  Proof.
    intros Hs Hg. pose proof (col_part s Hs) as Ps. apply build3.
    - repeat (apply Forall_app; split); [apply nkt_ok|apply tag_ok; [apply Ha'|now apply (fpart_li _ _ Ps)]|now apply nrow_ok].
    - intros i z Hi. split; [apply put_ok; [exact Hi|now apply (column_good so SO x GF s)|now apply row_nf]|]. unfold put. cbn [pm_flexion pm_content].
      rewrite !sub_app, (nkt_sub i z Hi), (row_sub i z r Hi). unfold nkept, col. rewrite sub_tagged. pose proof (makes_at i z r _ Hi Hg (rowm_in i z r Hi)) as M. destruct (rdec i a) as [D|D].
      + exists (FI (constant s)), (NC z), (rowm i r). auto.
      + exists (FLs (pm_flexion z)), [], (NC z ++ rowm i r)%list. split; [now apply (allf_part i)|]. split; [exact M|]. rewrite CI_app2. cbn [CI map app]. now rewrite <- !app_assoc.
  Qed.
  Lemma ncol_key s : In s (pm_ss so F) -> exists v, usl_of_list so (map rup (col s ++ nkt)) = Ok v.
  Proof.
    intros Hs. pose proof (col_part s Hs) as Ps. destruct (build3 (col s ++ nkt) (put s (cellc y []))) as (v & E & _); [| |eauto].
    - repeat (apply Forall_app; split); [apply tag_ok; [apply Ha'|now apply (fpart_li _ _ Ps)]|apply nkt_ok].
    - intros i z Hi. split; [apply put_ok; [exact Hi|now apply (column_good so SO x GF s)|apply cellc_ok; [exact G|constructor]]|]. unfold put. cbn [pm_flexion pm_content].
      rewrite !sub_app, (nkt_sub i z Hi). unfold nkept, col. rewrite sub_tagged. exists (if rdec i a then FI (constant s) else FLs (pm_flexion z)), [], (NC z). split; [destruct (rdec i a); [exact Ps|now apply (allf_part i)]|]. split.
      + destruct (rdec i b) as [Db|Db]; [|now apply (makes_own i)]. rewrite Db in Hi. rewrite (es_fun b z y Hi Hb). apply makes_row; [apply choice0|]. intros e. unfold NC. cbn [consts map In]. tauto.
      + destruct (rdec i a); reflexivity.
  Qed.
  Lemma nrow_key r : rgood y r -> exists v, usl_of_list so (map rup (nrow r ++ nkt)) = Ok v.
  Proof.
    intros Hg. destruct (build3 (nrow r ++ nkt) (put (mk_pm [] []) (cellc y (parts r)))) as (v & E & _); [| |eauto].
    - apply Forall_app. split; [now apply nrow_ok|apply nkt_ok].
    - intros i z Hi. split; [apply put_ok; [exact Hi|apply empty_ok|now apply row_nf]|]. unfold put. cbn [pm_flexion pm_content].
      rewrite !sub_app, (nkt_sub i z Hi), (row_sub i z r Hi). unfold nkept. exists (if rdec i a then [] else FLs (pm_flexion z)), (rowm i r), (NC z). split; [destruct (rdec i a); [left; auto|now apply (allf_part i)]|]. split; [|reflexivity].
      exact (makes_at i z r _ Hi Hg (rowm_in' i z r Hi)).
  Qed.
  Lemma ncolumns_ok : exists S, Permutation S (pm_ss so F) /\ column_paths_variation so wl (UWord w) colp None = Ok (map (fun s => map rup (col s)) S).
  Proof.
    unfold column_paths_variation. assert (D : element colp (UWord w) = Ok (UPm F)) by (unfold colp; rewrite (elem_role a x LF Ha); reflexivity). rewrite D. cbn [bind]. rewrite items_leaves. cbn [bind].
    set (named_ := map (fun e => (snd e, match fst e with PPoly g _ k c => PPoly g None k c | p => p end)) (leaves F)).
    assert (E1 : mapM (fun e => do p <- without_morpheme (fst e); Ok (snd e, p)) (leaves F) = Ok named_).
    { unfold named_. assert (X : forall e, In e (leaves F) -> exists g m k, fst e = PPoly g m k None) by (intros e He; apply leaves_in in He; destruct He as (g & k & -> & _); eauto). clear - X.
      induction (leaves F) as [|e l IH]; [reflexivity|]. rewrite mapM_step, IH by (intros z Hz; apply X; now right). destruct (X e (or_introl eq_refl)) as (g & m & k & E). cbn [map]. rewrite E. reflexivity. }
    rewrite E1. cbn [bind sequences usl_ss].
    assert (E2 : mapM (fun s => do its <- items s; mapM (fun e => do q <- last_of (snd e) named_; do p <- concat colp q false; Ok (p, snd e)) its) (map UPm (pm_ss so F)) = Ok (map (fun s => map rup (col s)) (pm_ss so F))).
    { assert (X : forall l, incl l (pm_ss so F) -> mapM (fun s => do its <- items s; mapM (fun e => do q <- last_of (snd e) named_; do p <- concat colp q false; Ok (p, snd e)) its) (map UPm l) = Ok (map (fun s => map rup (col s)) l)); [|apply X, incl_refl].
      induction l as [|s l IH]; intros Hl; [reflexivity|]. cbn [map]. rewrite mapM_step, items_leaves. assert (Hs : In s (pm_ss so F)) by (apply Hl; now left). destruct (column_good so SO x GF s Hs) as (_ & Es & _ & _ & _ & I & _). rewrite flat_leaves by auto. cbn [bind].
      assert (Y : forall d, incl d (constant s) -> mapM (fun e => do q <- last_of (snd e) named_; do p <- concat colp q false; Ok (p, snd e)) (map (fun m => (PPoly Constant (Some m) None None, m)) d) = Ok (map rup (map (pair a) (FI d)))).
      { induction d as [|m d IHd]; intros Hd; [reflexivity|]. cbn [map]. rewrite mapM_step. cbn [snd].
        destruct (last_of_in m named_) as (e & He & Ee).
        { assert (Hm : In m (flex_ms F)) by (apply I, Hd; now left). unfold flex_ms in Hm. apply in_map_iff in Hm. destruct Hm as (e & <- & He). eexists. split; [apply in_map_iff; exists e; split; [reflexivity|exact He]|reflexivity]. }
        rewrite Ee. cbn [bind]. apply in_map_iff in He. destruct He as (e' & <- & He'). apply leaves_in in He'. destruct He' as (g & k & Eg & _). rewrite Eg. cbn [snd].
        assert (Cn : concat colp (PPoly g None k None) false = Ok colp) by reflexivity. rewrite Cn. cbn [bind]. rewrite IHd by (intros z Hz; apply Hd; now right). reflexivity. }
      rewrite Y by apply incl_refl. cbn [bind]. rewrite IH by (intros z Hz; apply Hl; now right). reflexivity. }
    rewrite E2. cbn [bind].
    match goal with |- context [sort_by wl ?f ?l] => destruct (sort_by_any wl (fun s => f (map rup (col s))) (pm_ss so F)) as (l' & E3 & P) end.
    - intros s Hs. unfold col. rewrite CO. cbn [bind]. rewrite nconsts_ok. cbn [bind]. rewrite <- map_app. now apply ncol_key.
    - exists l'. split; [exact P|]. exact (sort_by_map wl (fun s => map rup (col s)) _ _ _ E3).
  Qed.
  Lemma ncols_constant S : column_paths_variation so wl (UWord w) colp None = Ok (map (fun s => map rup (col s)) S) -> column_paths_constant so wl (UWord w) colp None = Ok (map (fun s => map rup (col s)) S).
  Proof. intros E. unfold column_paths_constant. rewrite E. cbn [bind]. clear E. induction S as [|s S IH]; [reflexivity|]. cbn [map]. rewrite mapM_step, IH. unfold col. rewrite CO. reflexivity. Qed.
  Definition ndims (e : gidx * script) : list (path * bool) := if gidx_eqb Constant (fst e) then [] else [(wpath (fst e), true)].
  (** the dimensions a leaf adds *)
  Definition ndim (t : role * (path * script)) : list (path * bool) :=
    if rdec (fst t) b then match fst (snd t) with PLex Content (Some (PPoly g _ _ _)) => if gidx_eqb Constant g then [] else [(wpath g, true)] | _ => [] end else [].
  Lemma flat_sub {A B} (h : role * A -> list B) i l : (forall t, In t l -> fst t <> i -> h t = []) -> flat_map h l = flat_map (fun e => h (i, e)) (rsub i l).
  Proof.
    induction l as [|[j e] l IH]; intros H; [reflexivity|]. cbn [flat_map]. rewrite IH by (intros t Ht; apply H; now right). destruct (rdec j i) as [->|D].
    - rewrite sub_same. reflexivity.
    - rewrite (sub_other _ _ i j e l) by exact D. rewrite (H (j, e)); [reflexivity|now left|exact D].
  Qed.
  Lemma ndimensions_ok : dimensions so (UWord w) colp None = Ok (flat_map ndims (places u (fun _ => true))).
  Proof.
    unfold dimensions. rewrite witems, <- tags_up. cbn [bind].
    match goal with |- bind (mapM ?g (map rup tags)) _ = _ => assert (X : forall l, incl l tags -> mapM g (map rup l) = Ok (map ndim l)) end.
    { induction l as [|t l IH]; intros Hl; [reflexivity|]. cbn [map]. rewrite mapM_step, IH by (intros z Hz; apply Hl; now right). clear IH. assert (Ht : In t tags) by (apply Hl; now left). destruct (tags_in t Ht) as (z & Hz & Hm). destruct t as [i e]. cbn [fst snd] in *.
      assert (Hi : In i (map fst es)) by now apply (in_map fst) in Hz. pose proof (lex_leaves_eq z) as Lz. rewrite Lz in Hm. apply in_app_or in Hm. destruct Hm as [Hm|Hm].
      - apply in_map_iff in Hm. destruct Hm as (m & <- & Hm).
        assert (E0 : without_morpheme (fst (rup (i, (PLex Flexion (Some (PFlex m None)), m)))) = Ok (PRole i (role_eqb i focus) (Some LF))) by reflexivity. rewrite E0. cbn [bind].
        assert (E1 : has_prefix (PRole i (role_eqb i focus) (Some LF)) (Some colp) = Ok (if rdec i a then true else false)) by (unfold colp, LF; cbn [has_prefix class_of pclass_eqb negb orb do_eq]; rewrite (role_eq i a Hi Ha'); destruct (rdec i a) as [->|D]; [rewrite Bool.eqb_reflx; reflexivity|reflexivity]).
        rewrite E1. cbn [bind]. assert (E2 : ndim (i, (PLex Flexion (Some (PFlex m None)), m)) = []) by (unfold ndim; cbn [fst snd]; destruct (rdec i b); reflexivity). rewrite E2. destruct (rdec i a) as [D|D]; [reflexivity|].
        rewrite (elem_role i z LF Hz). assert (E3 : element LF (ULexeme z) = Ok (UPm (pm_flexion z))) by reflexivity. rewrite E3. cbn [bind size sequences usl_ss]. unfold pm_ss. rewrite (OF i z Hz D). reflexivity.
      - unfold CI in Hm. rewrite map_map in Hm. apply in_map_iff in Hm. destruct Hm as ([g m] & <- & Hm).
        assert (E0 : without_morpheme (fst (rup (i, lower (itm nobare (Ku (pm_content z)) (g, m))))) = Ok (PRole i (role_eqb i focus) (Some (lpath z g)))) by (destruct g; reflexivity). rewrite E0. cbn [bind].
        assert (E1 : has_prefix (PRole i (role_eqb i focus) (Some (lpath z g))) (Some colp) = Ok false) by (unfold colp, LF; cbn [has_prefix class_of pclass_eqb negb orb do_eq]; rewrite (role_eq i a Hi Ha'); destruct (rdec i a) as [->|D]; [rewrite Bool.eqb_reflx; reflexivity|reflexivity]).
        rewrite E1. cbn [bind]. rewrite (elem_role i z (lpath z g) Hz). destruct (lpath_size so SO z (proj2 (good i z Hz)) g m Hm) as (v & n & E2 & E3 & E4). rewrite E2. cbn [bind]. rewrite E3. cbn [bind]. rewrite E4.
        unfold ndim. cbn [fst snd lower itm]. destruct (gidx_eqb Constant g) eqn:Eg; [destruct (rdec i b); reflexivity|]. assert (Hc : g <> Constant) by (intros ->; discriminate).
        destruct (rdec i b) as [Db|Db].
        + subst i. rewrite (es_fun b z y Hz Hb). destruct g; [congruence|reflexivity..].
        + exfalso. apply places_in in Hm. destruct Hm as [_ Hm]. unfold ms, groups_at in Hm. rewrite (OC i z Hz Db) in Hm. destruct g; [congruence|destruct Hm..]. }
    rewrite (X tags) by apply incl_refl. cbn [bind]. rewrite <- flat_map_concat_map. rewrite (flat_sub ndim b) by (intros t _ D; unfold ndim; destruct (rdec (fst t) b); [contradiction|reflexivity]).
    rewrite (tags_sub b y Hb), lex_leaves_eq, flat_map_app. f_equal.
    assert (Y : forall l, flat_map (fun e => ndim (b, e)) (map (fun m => (PLex Flexion (Some (PFlex m None)), m)) l) = []) by (induction l as [|m l IH]; [reflexivity|]; cbn [map flat_map]; rewrite IH; unfold ndim; cbn [fst snd]; destruct (rdec b b); reflexivity). rewrite Y. cbn [app].
    clear. induction (places u (fun _ => true)) as [|[g m] l IH]; [reflexivity|]. unfold CI in *. cbn [map flat_map]. rewrite IH. unfold ndim, ndims. cbn [fst snd lower itm]. destruct (rdec b b) as [_|D]; [reflexivity|congruence].
  Qed.
  Lemma ndims_spec : UslTable.dims_of po false (flat_map ndims (places u (fun _ => true))) = [] /\ exists J', Permutation J' Js /\ UslTable.dims_of po true (flat_map ndims (places u (fun _ => true))) = map wpath J'.
  Proof.
    assert (Sp : forall p t, In (p, t) (flat_map ndims (places u (fun _ => true))) <-> t = true /\ exists g m, g <> Constant /\ In (g, m) (places u (fun _ => true)) /\ p = wpath g).
    { intros p t. rewrite in_flat_map. split.
      - intros ([g m] & Hm & He). unfold ndims in He. cbn [fst] in He. destruct (gidx_eqb Constant g) eqn:Eg; [destruct He|]. destruct He as [He|[]]. injection He as <- <-. split; [reflexivity|]. exists g, m. split; [intros ->; discriminate|auto].
      - intros (-> & g & m & Hc & Hm & ->). exists (g, m). split; [exact Hm|]. unfold ndims. cbn [fst]. destruct (gidx_eqb Constant g) eqn:E; [apply gidx_eqb_eq in E; congruence|now left]. }
    split.
    - unfold UslTable.dims_of. assert (X : filter (fun e => Bool.eqb (snd e) false) (flat_map ndims (places u (fun _ => true))) = []) by (apply filter_none; intros [p t] He; apply Sp in He; destruct He as [-> _]; reflexivity). rewrite X. cbn [map dedup]. apply Permutation_nil. apply Permutation_sym, (PO []).
    - apply dims_gen; [exact PO|apply J_nodup; exact Logic.I| | |].
      + intros g h Hg Hh E. apply J_ok in Hg; [|exact Logic.I]. apply J_ok in Hh; [|exact Logic.I]. destruct Hg as (Hc & _), Hh as (Hc' & _). now apply wpath_inj.
      + intros p Hp. apply in_map_iff in Hp. destruct Hp as ([p' t] & <- & He). apply filter_In in He. destruct He as [He _]. apply Sp in He. destruct He as (_ & g & m & Hc & Hm & ->). cbn [fst].
        exists g. split; [|reflexivity]. apply (proj2 (J_in u Constant None Logic.I g)). split; [exact Hc|]. apply places_in in Hm. destruct Hm as [_ Hm]. destruct (ms_group u g) as (gr & E); [intros X; rewrite X in Hm; destruct Hm|exact Hc|]. unfold has_group. now rewrite E.
      + intros g Hg. apply J_ok in Hg; [|exact Logic.I]. destruct Hg as (Hc & _ & gr & Eg). apply in_map_iff. exists (wpath g, true). split; [reflexivity|]. apply filter_In. split; [|reflexivity]. apply Sp. split; [reflexivity|]. pose proof (group_nonempty u G g gr Eg) as Ne. destruct (ms u g) as [|m l] eqn:Em; [congruence|].
        exists g, m. split; [exact Hc|]. split; [|reflexivity]. apply places_in. split; [reflexivity|]. rewrite Em. now left.
  Qed.
  Lemma nrow_items v d : map snd v = map UScript d -> Forall (fun e => exists h, fst e = gpath u h) v ->
    exists l, mapM (fun e : path * usl => do its <- items (snd e); mapM (fun i => do p <- concat (fst e) (fst i) false; do p <- as_constant p (Some (snd i)); Ok (p, snd i)) its) (map lowW v) = Ok l /\ List.concat l = tagb d.
  Proof.
    revert d. induction v as [|[q yy] v IH]; intros [|m d] E Fv; try discriminate; [exists []; split; reflexivity|]. cbn [map snd] in E. injection E as -> E. apply Forall_cons_iff in Fv. destruct Fv as [(h & Eh) Fv]. cbn [fst] in Eh. subst q. destruct (IH d E Fv) as (l & El & Ll).
    cbn [map]. rewrite mapM_step, El. eexists. split; [reflexivity|]. cbn [List.concat map app]. rewrite Ll. reflexivity.
  Qed.
  Lemma nrows_ok : exists S, Permutation (map pm_str S) (map pm_str (pm_ss so (rowpm u Constant None))) /\ Forall (rgood y) S /\
    row_paths_variation so po wl (UWord w) colp None = Ok (map (fun s => map rup (nrow s)) S).
  Proof.
    unfold row_paths_variation. rewrite ndimensions_ok. cbn [bind]. destruct ndims_spec as (F0 & J' & PJ & F1). rewrite F0, F1. rewrite wby_pm by (intros g Hg; eapply Permutation_in; [exact PJ|exact Hg]). cbn [mapM bind List.concat].
    assert (K : forall S0, Permutation (map pm_str S0) (map pm_str (pm_ss so (rowpm u Constant None))) -> Forall (rgood y) S0 ->
      exists S, Permutation (map pm_str S) (map pm_str (pm_ss so (rowpm u Constant None))) /\ Forall (rgood y) S /\
      sort_by wl (fun l => do l <- mapM (fun e => do p <- as_constant (fst e) None; Ok (p, snd e)) l; do c <- constant_paths (UWord w) colp None; usl_of_list so (l ++ c)%list) (map (fun s => map rup (nrow s)) S0) = Ok (map (fun s => map rup (nrow s)) S)).
    { intros S0 PS FS.
      match goal with |- context [sort_by wl ?f (map _ S0)] => destruct (sort_by_any wl (fun s => f (map rup (nrow s))) S0) as (l' & E3 & P3) end.
      - intros s Hs. rewrite Forall_forall in FS. specialize (FS s Hs). change (map rup (nrow s)) with (tagb (parts s)). rewrite as_constant_wrow. cbn [bind]. rewrite nconsts_ok. cbn [bind]. change (tagb (parts s)) with (map rup (nrow s)). rewrite <- map_app. now apply nrow_key.
      - exists l'. split; [rewrite P3; exact PS|]. split; [apply Forall_forall; rewrite Forall_forall in FS; intros s Hs; apply FS; eapply Permutation_in; [exact P3|exact Hs]|]. exact (sort_by_map wl (fun s => map rup (nrow s)) _ _ _ E3). }
    destruct J' as [|g J'].
    - apply Permutation_nil in PJ. cbn [mapM bind product List.concat app].
      assert (Er : @nil (path * script) = map rup (nrow (rowpm u Constant None))) by (unfold nrow, row_parts; rewrite PJ; reflexivity). rewrite Er. apply (K [rowpm u Constant None]).
      + unfold pm_ss. assert (X : groups (rowpm u Constant None) = []); [|rewrite X; reflexivity]. unfold rowpm, row_groups, inJ. rewrite PJ. cbn [existsb flat_map]. destruct (groups_at u Group0), (groups_at u Group1), (groups_at u Group2); reflexivity.
      + constructor; [|constructor]. split; [|exists []; split; [constructor|]; unfold rowpm; f_equal; unfold row_groups, inJ; rewrite PJ; cbn [existsb flat_map]; destruct (groups_at u Group0), (groups_at u Group1), (groups_at u Group2); reflexivity]. unfold row_parts. rewrite PJ. apply choice0.
    - destruct (variations_ok so SO u G NR Constant None Logic.I (g :: J') PJ) as (p & vs & Ev & Po & Ep & N & Fv); [discriminate|]. rewrite mapM_step, (wvariations_under _ vs Ev). cbn [mapM bind]. rewrite product_one.
      assert (NJ : Js <> []) by (intros X; rewrite X in PJ; apply Permutation_sym, Permutation_nil in PJ; discriminate).
      assert (RP : forall s, parts s = constant s) by (intros s; unfold row_parts; destruct Js; [congruence|reflexivity]).
      match goal with |- context [mapM ?f (map (fun z => [z]) (map (map lowW) vs))] => assert (X : forall ss vs, Forall2 (fun s v => map snd v = map UScript (constant s) /\ Forall (fun e => exists h, fst e = gpath u h) v) ss vs -> mapM f (map (fun z => [z]) (map (map lowW) vs)) = Ok (map (fun s => map rup (nrow s)) ss)) end.
      { clear Fv Ev. induction 1 as [|s v ss vs' (A & B) _ IH]; [reflexivity|]. cbn [map]. rewrite mapM_step, IH. cbn [List.concat app]. rewrite app_nil_r. destruct (nrow_items v (constant s) A B) as (l & El & Ll). rewrite El. cbn [bind]. rewrite Ll. unfold nrow. rewrite RP. reflexivity. }
      rewrite (X _ _ Fv). cbn [bind]. apply (K (pm_ss so p)).
      + apply ss_text; auto. apply rowpm_ok. apply G.
      + apply Forall_forall. intros s Hs. split; [rewrite RP; now apply (row_choice so SO u G Constant None p s)|now apply (ss_flatpm so p s)].
  Qed.
  Lemma nrows_constant R : row_paths_variation so po wl (UWord w) colp None = Ok (map (fun s => map rup (nrow s)) R) -> row_paths_constant so po wl (UWord w) colp None = Ok (map (fun s => map rup (nrow s)) R).
  Proof. intros E. unfold row_paths_constant. rewrite E. cbn [bind]. clear E. induction R as [|s S IH]; [reflexivity|]. cbn [map]. rewrite mapM_step, IH. change (map rup (nrow s)) with (tagb (parts s)). rewrite constants_wrow. reflexivity. Qed.
  Lemma nheader_build C r : Permutation C (pm_ss so F) -> lcover x -> rgood y r ->
    exists v, usl_of_list so (map rup (nkt ++ nrow r ++ map (pair a) (FI (flat_map constant C)))) = Ok v /\ shows_word v (cell_words F r).
  Proof.
    intros PC Cv Hg. set (fl := flat_map constant C).
    assert (Nf : Forall named fl). { apply Forall_forall. intros m Hm. apply in_flat_map in Hm. destruct Hm as (s & Hs & Hm). apply (Permutation_in _ PC) in Hs. destruct (column_good so SO x GF s Hs) as (_ & _ & _ & _ & Nm & _). rewrite Forall_forall in Nm. auto. }
    assert (Ef : fl <> []).
    { intros Ef. destruct C as [|s C'].
      - apply Permutation_nil in PC. exact (flex_some so F SO GF Cv PC).
      - destruct (column_good so SO x GF s) as (_ & _ & _ & Ne & _); [eapply Permutation_in; [exact PC|now left]|]. apply Ne. unfold fl in Ef. cbn [flat_map] in Ef. now apply app_eq_nil in Ef. }
    destruct (flexion_uniq so SO fl F GF (flex_nf fl Nf)) as (Pf & Ef').
    { intros t Ht. split.
      - intros H. apply in_map_iff in H. destruct H as (m & <- & Hm). apply in_flat_map in Hm. destruct Hm as (s & Hs & Hm). apply (Permutation_in _ PC) in Hs. destruct (column_good so SO x GF s Hs) as (_ & _ & _ & _ & _ & I & _). now apply in_map, I.
      - intros H. apply in_map_iff in H. destruct H as (m & <- & Hm). destruct (flex_covered so F m SO GF Cv Hm) as (s & m' & Hs & Hm' & E).
        + destruct (is_empty m) eqn:Em; [|reflexivity]. exfalso. apply Ht. apply (flex_empty F); [exact GF|exact Hm|exact Em].
        + rewrite <- E. apply in_map. apply in_flat_map. exists s. split; [|exact Hm']. eapply Permutation_in; [apply Permutation_sym, PC|exact Hs]. }
    assert (Ps : fpart (FI fl) (pm_str F)) by (right; right; exists fl; auto 10).
    apply (build3 _ (put F (cellc y (parts r)))).
    - repeat (apply Forall_app; split); [apply nkt_ok|now apply nrow_ok|apply tag_ok; [apply Ha'|now apply (fpart_li _ _ Ps)]].
    - intros i z Hi. split; [apply put_ok; [exact Hi|apply clean_ok, GF|now apply row_nf]|]. unfold put. cbn [pm_flexion pm_content].
      rewrite !sub_app, (nkt_sub i z Hi), (row_sub i z r Hi). unfold nkept. rewrite sub_tagged. pose proof (makes_at i z r _ Hi Hg (rowm_in i z r Hi)) as M. destruct (rdec i a) as [D|D].
      + exists (FI fl), (NC z ++ rowm i r)%list, []. rewrite app_nil_r. split; [exact Ps|]. split; [exact M|]. rewrite CI_app2. cbn [CI map app]. now rewrite app_nil_r, <- app_assoc.
      + exists (FLs (pm_flexion z)), [], (NC z ++ rowm i r)%list. split; [now apply (allf_part i)|]. split; [exact M|]. rewrite CI_app2, app_nil_r. cbn [CI map app]. now rewrite <- !app_assoc.
  Qed.
  Lemma ntable_ok : exists C R cells, Permutation C (pm_ss so F) /\ Permutation (map pm_str R) (map pm_str (pm_ss so (rowpm u Constant None))) /\ Forall (rgood y) R /\
    table_cells so po wl (UWord w) colp None = Ok cells /\ Forall2 (fun r vs => Forall2 (fun s v => shows_word v (cell_words s r)) C vs) R cells /\
    (lcover x -> exists hs, table_rows so po wl (UWord w) colp None = Ok hs /\ Forall2 (fun r v => shows_word v (cell_words F r)) R hs).
  Proof.
    destruct ncolumns_ok as (C & PC & EC0). destruct nrows_ok as (R & PR & FR & ER). pose proof (ncols_constant C EC0) as EC. apply nrows_constant in ER.
    assert (X : forall r, rgood y r -> exists vs, mapM (fun l => do c <- constant_paths (UWord w) colp None; usl_of_list so (c ++ l ++ map rup (nrow r))%list) (map (fun s => map rup (col s)) C) = Ok vs /\ Forall2 (fun s v => shows_word v (cell_words s r)) C vs).
    { intros r Hr0. assert (IC : incl C (pm_ss so F)) by (intros s Hs; eapply Permutation_in; [exact PC|exact Hs]). clear PC EC EC0. induction C as [|s C IH]; [exists []; split; [reflexivity|constructor]|].
      destruct IH as (vs & Ev & Fv); [intros z Hz; apply IC; now right|]. destruct (ncell_build s r) as (v & E & Sh); [apply IC; now left|exact Hr0|]. exists (v :: vs). split; [|constructor; assumption].
      cbn [map]. rewrite mapM_step, Ev, nconsts_ok. cbn [bind]. rewrite <- !map_app, E. reflexivity. }
    assert (Y : exists cells, mapM (fun r => mapM (fun l => do c <- constant_paths (UWord w) colp None; usl_of_list so (c ++ l ++ r)%list) (map (fun s => map rup (col s)) C)) (map (fun s => map rup (nrow s)) R) = Ok cells /\ Forall2 (fun r vs => Forall2 (fun s v => shows_word v (cell_words s r)) C vs) R cells).
    { clear PR ER. induction FR as [|r R Hr0 FR IH]; [exists []; split; [reflexivity|constructor]|]. destruct IH as (cells & E & Fc). destruct (X r Hr0) as (vs & Ev & Fv). exists (vs :: cells). split; [|constructor; assumption]. cbn [map]. rewrite mapM_step, Ev, E. reflexivity. }
    destruct Y as (cells & E & Fc). exists C, R, cells. repeat (split; [assumption|]). split; [|split; [exact Fc|]].
    - unfold table_cells. rewrite ER. cbn [bind]. rewrite <- E. clear - EC. induction (map (fun s => map rup (nrow s)) R) as [|r l IH]; [reflexivity|]. rewrite !mapM_step, IH, EC. reflexivity.
    - intros Cv. assert (E1 : forall r, rgood y r -> exists v, usl_of_list so (map rup nkt ++ map rup (nrow r) ++ List.concat (map (fun s => map rup (col s)) C))%list = Ok v /\ shows_word v (cell_words F r)).
      { intros r Hg. destruct (nheader_build C r PC Cv Hg) as (v & E1 & Sh). exists v. split; [|exact Sh]. rewrite <- E1, !map_app. do 3 f_equal. clear. induction C as [|s C IH]; [reflexivity|]. cbn [map List.concat flat_map]. rewrite IH. unfold FI. rewrite !map_app. reflexivity. }
      assert (Z : exists hs, mapM (fun l => usl_of_list so (map rup nkt ++ l ++ List.concat (map (fun s => map rup (col s)) C))%list) (map (fun s => map rup (nrow s)) R) = Ok hs /\ Forall2 (fun r v => shows_word v (cell_words F r)) R hs).
      { clear PR ER Fc E. induction FR as [|r R Hg FR IH]; [exists []; split; [reflexivity|constructor]|]. destruct IH as (hs & E & Fh). destruct (E1 r Hg) as (v & Ev & Sh). exists (v :: hs). split; [|constructor; assumption]. cbn [map]. rewrite mapM_step, Ev, E. reflexivity. }
      destruct Z as (hs & Eh & Fh). exists hs. split; [|exact Fh]. unfold table_rows. rewrite EC0. cbn [bind]. rewrite ER. cbn [bind]. rewrite nconsts_ok. cbn [bind]. exact Eh.
  Qed.
  End Unnamed.

  (** *** Words that are written alike *)
  Lemma word_of_list l : map fst l = map fst es ->
    exists q, word_of l focus = Ok q /\ as_list (w_context q) (w_fun q) = l /\ w_role q = focus /\ w_context q = c /\ cvalid lexeme c (w_fun q) /\ mk_word (w_fun q) focus c = Ok q.
  Proof.
    intros Kl. rewrite <- roles_es in Kl. destruct (refill_c lexeme c f V l Kl) as (f2 & V2 & E2 & _). assert (H2 : In focus (map fst (as_list c f2))) by (rewrite E2, Kl; exact Hr). destruct (mk_word_list c f2 focus V2 H2) as (q & Eq). exists q. split.
    - pose proof (from_list_exact lexeme c f2 V2) as E3. rewrite E2 in E3. assert (Nf : focus <> [] /\ vrole focus) by (pose proof Hf as Hf'; apply in_map_iff in Hf'; destruct Hf' as (e & <- & He); rewrite Forall_forall in Fe; destruct (Fe e He) as (A & B & _); auto). destruct Nf as [Nf Vf].
      unfold word_of. destruct focus as [|s r] eqn:Ef; [congruence|]. rewrite <- Ef in *. rewrite E3. cbn [bind fst snd]. unfold mk_role. replace (forallb _ focus) with true; [|symmetry; apply forallb_forall; intros t Ht; apply ins_In; unfold vrole in Vf; rewrite Forall_forall in Vf; auto]. exact Eq.
    - destruct (mk_word_fields _ _ _ _ Eq) as (Qf & Qr & Qc). rewrite Qf, Qc. auto 10.
  Qed.
  Lemma shows_ext v l l' : map fst l' = map fst es -> map kstr l' = map kstr l -> shows_word v l -> shows_word v l'.
  Proof.
    intros K E (p & q & -> & Eq & T & Q1 & Q2 & Q3 & Q4 & Q5). destruct (word_of_list l' K) as (q' & Eq' & Q1' & Q2' & Q3' & Q4' & Q5'). exists p, q'. split; [reflexivity|]. split; [exact Eq'|]. split; [|auto 10].
    rewrite T. symmetry. rewrite Q3 in Q1. rewrite Q3' in Q1'. apply (word_texts c (w_fun q) (w_fun q') focus q q' Q4 Q4'); [rewrite Q1, Q1', E; apply Permutation_refl| |exact Q5|exact Q5']. rewrite Q1. assert (X : map fst l = map fst l') by (apply (f_equal (map fst)) in E; rewrite !map_map in E; symmetry; exact E). rewrite X, K. exact Hf.
  Qed.
End Words.
