(** C88: the difference between two commits. *)
From Coq Require Import List String Ascii Bool NArith Arith Lia Permutation.
From Verif Require Import Base Script ScriptParser ScriptStrProofs Database DatabaseSpec DatabaseProofs DatabaseRefine DatabasePath DatabasePathProofs RestrictProofs Properties3 Properties29 Git Diff DiffSpec DiffProofs.
Import ListNotations.
Local Open Scope string_scope.

Section Diff.
  (** Any alignment and any order of the files. *)
  Variable hunks_of : option string -> option string -> list (list edit).
  Variable order : list string -> list string.
  Hypothesis HO : forall o n, hunks_between o n (hunks_of o n).
  Hypothesis OO : forall l, Permutation (order l) l.

  (** The report has an entry for each file of text whose text changed, and one only; it says
      whether the file is new or removed; and taking away the deleted lines of the old version and
      putting in the added ones, in order, gives the new one. *)
  Theorem C88_entries : forall r c0 c1 a b d, nth_error (commits r) c0 = Some a -> nth_error (commits r) c1 = Some b ->
    diff hunks_of order r c0 c1 = Ok d ->
    NoDup (map fst d) /\
    forall p, textual (c_tree a) p -> textual (c_tree b) p ->
      (In p (map fst d) <-> text_at (c_tree a) p <> text_at (c_tree b) p) /\
      forall e, In (p, e) d ->
        (e_new e = true <-> fs_get (c_tree a) p = None) /\ (e_removed e = true <-> fs_get (c_tree b) p = None) /\
        forall old new, lines_of (text_at (c_tree a) p) old -> lines_of (text_at (c_tree b) p) new -> turns old (e_deleted e) (e_added e) new.
  Proof.
    intros r c0 c1 a b d E0 E1. unfold diff. rewrite E0, E1. intros E. destruct (diff_in hunks_of order OO _ _ _ E) as (ND & F & G). split; [exact ND|]. intros p Ta Tb.
    apply binary_text in Ta. apply binary_text in Tb. change (binary (fs_get (c_tree a) p) = false) in Ta. change (binary (fs_get (c_tree b) p) = false) in Tb. split; [split|].
    - intros H D. apply in_map_iff in H. destruct H as ([q e] & X & H). cbn in X. subst q. destruct (G p e H) as [N K]. rewrite (entry_none hunks_of HO) in K; auto. discriminate.
    - intros D. destruct (F p) as (x & Ex & Hx); [intros X; apply D; unfold text_at; now rewrite X|]. destruct (entry_some hunks_of HO _ _ x Ta Tb D Ex) as [e ->]. apply in_map_iff. exists (p, e). auto.
    - intros e H. destruct (G p e H) as [N K]. destruct (entry_flags hunks_of _ _ _ K) as [A B]. split; [exact A|]. split; [exact B|]. intros old new (L1 & L2) (L3 & L4). exact (entry_turns hunks_of HO _ _ e old new Ta Tb K L1 L3 L2 L4).
  Qed.

  (** An unknown commit raises KeyError; the only other exception is for a line without a quoted
      text. *)
  Theorem C88_exceptions : forall r c0 c1, match diff hunks_of order r c0 c1 with
    | Ok _ => nth_error (commits r) c0 <> None /\ nth_error (commits r) c1 <> None
    | Err x => (x = KeyError /\ (nth_error (commits r) c0 = None \/ nth_error (commits r) c1 = None)) \/
      (x = IndexError /\ exists a b p, nth_error (commits r) c0 = Some a /\ nth_error (commits r) c1 = Some b /\ fs_get (c_tree a) p <> fs_get (c_tree b) p)
    end.
  Proof.
    intros r c0 c1. unfold diff. destruct (nth_error (commits r) c0) as [a|]; [|auto]. destruct (nth_error (commits r) c1) as [b|]; [|auto].
    unfold diff_trees. destruct (mapM _ _) eqn:M; cbn [bind]; [split; discriminate|]. right.
    assert (K : exists p, In p (changed_paths order (c_tree a) (c_tree b)) /\ patch_entry hunks_of (fs_get (c_tree a) p) (fs_get (c_tree b) p) = Err e).
    { revert M. generalize (changed_paths order (c_tree a) (c_tree b)). induction l as [|p l IH]; [discriminate|]. cbn [mapM]. destruct (patch_entry _ _ _) eqn:P; cbn [bind].
      - destruct (mapM _ l); [discriminate|]. cbn. intros [= ->]. destruct (IH eq_refl) as (q & Hq & K). exists q. split; [now right|exact K].
      - intros [= ->]. exists p. split; [now left|exact P]. }
    destruct K as (p & Hp & K). split; [|exists a, b, p; split; [reflexivity|split; [reflexivity|now apply (changed_in order OO)]]].
    unfold patch_entry in K. destruct (rev _); [discriminate|]. destruct (nth_error _ 1); [discriminate|]. congruence.
  Qed.

  (** "The difference of any two commits can be reported": one changed file of text without
      quotes, as a README, and no difference is reported at all. *)
  Theorem C88_unquoted_refuted : forall r c0 c1 a b p, nth_error (commits r) c0 = Some a -> nth_error (commits r) c1 = Some b ->
    textual (c_tree a) p -> textual (c_tree b) p -> text_at (c_tree a) p <> text_at (c_tree b) p ->
    ~ occurs """" (text_at (c_tree a) p) -> ~ occurs """" (text_at (c_tree b) p) ->
    diff hunks_of order r c0 c1 = Err IndexError.
  Proof.
    intros r c0 c1 a b p E0 E1 Ta Tb D Qa Qb. unfold diff. rewrite E0, E1. apply (diff_errs hunks_of order OO _ _ p).
    - intros X. apply D. unfold text_at. now rewrite X.
    - apply (entry_unquoted hunks_of HO); auto; now apply binary_text.
  Qed.

  (** ** Databases *)
  Section Folder.
    Variable parse : string -> res string.
    Variable path : bool -> string -> string.
    Hypothesis ok : folder_ok parse path is_desc_file.
    Variables (fa fb : fsys) (sa sb : state).
    Hypothesis IA : Inv parse path fa sa.
    Hypothesis IB : Inv parse path fb sb.
    Hypothesis TA : forall p, textual fa p.
    Hypothesis TB : forall p, textual fb p.
    Notation entry := (patch_entry hunks_of).

    Lemma about_own i D : about i D = own dieml D i.
    Proof. unfold about, own. apply filter_ext. now intros [[[? ?] ?] ?]. Qed.
    Lemma sabout_own i T : sabout i T = own sieml T i.
    Proof. unfold sabout, own. apply filter_ext. now intros [[? ?] ?]. Qed.
    Lemma text_d fs st i : Inv parse path fs st -> parse i = Ok i -> text_at fs (path true i) = sconcat (map dline (about i (fst st))).
    Proof. intros (_ & H & _) Hi. specialize (H i Hi). rewrite about_own. unfold text_at. destruct (fs_get fs (path true i)); [exact H|now rewrite H]. Qed.
    Lemma text_s fs st i : Inv parse path fs st -> parse i = Ok i -> text_at fs (path false i) = sconcat (map sline (sabout i (snd st))).
    Proof. intros (_ & _ & H & _) Hi. specialize (H i Hi). rewrite sabout_own. unfold text_at. destruct (fs_get fs (path false i)); [exact H|now rewrite H]. Qed.
    Lemma good_about fs st i : Inv parse path fs st -> Forall (fun r => good_d parse r /\ dieml r = i) (about i (fst st)).
    Proof. intros (_ & _ & _ & H & _). rewrite about_own. apply Forall_forall. intros r Hr. apply filter_In in Hr. destruct Hr as [Hr E]. apply String.eqb_eq in E. auto. Qed.
    Lemma good_sabout fs st i : Inv parse path fs st -> Forall (fun r => good_s parse r /\ sieml r = i) (sabout i (snd st)).
    Proof. intros (_ & _ & _ & _ & H). rewrite sabout_own. apply Forall_forall. intros r Hr. apply filter_In in Hr. destruct Hr as [Hr E]. apply String.eqb_eq in E. auto. Qed.
    Lemma d_line r : good_d parse r -> a_line (dline r).
    Proof. intros H. destruct (dline_is_line parse r H) as (b & E & N & _). exists b. auto. Qed.
    Lemma s_line r : good_s parse r -> a_line (sline r).
    Proof. intros H. destruct (sline_is_line parse r H) as (b & E & N & _). exists b. auto. Qed.
    Lemma d_head i r : good_d parse r -> dieml r = i -> exists q, dline r = String """" (i ++ String """" q).
    Proof. destruct r as [[[j l] d] v]. intros (_ & (Hq & _) & _) <-. unfold dline, dieml. cbn [fst]. rewrite (quote_id j) by auto. cbn [append]. eauto. Qed.
    Lemma s_head i r : good_s parse r -> sieml r = i -> exists q, sline r = String """" (i ++ String """" q).
    Proof. destruct r as [[j k] v]. intros (_ & (Hq & _) & _) <-. unfold sline, sieml. cbn [fst]. rewrite (quote_id j) by auto. cbn [append]. eauto. Qed.
    Lemma d_inj r r' : good_d parse r -> good_d parse r' -> dline r = dline r' -> r = r'.
    Proof.
      intros G G' E. assert (X : forall s, good_d parse s -> csv_rows (dline s) = [fields s]). { intros s Gs. rewrite <- (string_app_nil (dline s)). change (dline s ++ "") with (sconcat (map dline [s])). rewrite csv_dlines; [reflexivity|]. constructor; [|constructor]. destruct s as [[[? ?] ?] ?]. destruct Gs as (_ & _ & Hl & Hd & _). auto. }
      pose proof (X r G) as A. rewrite E, (X r' G') in A. destruct r as [[[? ?] ?] ?], r' as [[[? ?] ?] ?]. cbn in A. congruence.
    Qed.
    Lemma s_inj r r' : good_s parse r -> good_s parse r' -> sline r = sline r' -> r = r'.
    Proof.
      intros G G' E. assert (X : forall s, good_s parse s -> csv_rows (sline s) = [sfields s]). { intros s Gs. rewrite <- (string_app_nil (sline s)). change (sline s ++ "") with (sconcat (map sline [s])). rewrite csv_slines; [reflexivity|]. constructor; [|constructor]. destruct s as [[? ?] ?]. destruct Gs as (_ & _ & Hl & _). auto. }
      pose proof (X r G) as A. rewrite E, (X r' G') in A. destruct r as [[? ?] ?], r' as [[? ?] ?]. cbn in A. congruence.
    Qed.
    Lemma map_lines {R} (line : R -> string) (good : R -> Prop) l : (forall r, good r -> a_line (line r)) -> Forall good l -> Forall a_line (map line l).
    Proof. intros H F. apply Forall_map. eapply Forall_impl; [|exact F]. auto. Qed.

    (** The file of one kind of one expression. *)
    Lemma kind_same {R} (line : R -> string) (ra rb : list R) p : text_at fa p = sconcat (map line ra) -> text_at fb p = sconcat (map line rb) -> ra = rb ->
      fs_get fa p <> fs_get fb p -> entry (fs_get fa p) (fs_get fb p) = Ok None.
    Proof. intros Ea Eb -> N. apply (entry_none hunks_of HO); auto; [now apply binary_text, TA|now apply binary_text, TB|]. change (text_at fa p = text_at fb p). congruence. Qed.
    Lemma kind_other {R} (line : R -> string) (good : R -> Prop) (ra rb : list R) i p :
      ~ occurs """" i -> (forall r, good r -> a_line (line r)) -> (forall r, good r -> exists q, line r = String """" (i ++ String """" q)) -> (forall r r', good r -> good r' -> line r = line r' -> r = r') ->
      Forall good ra -> Forall good rb -> text_at fa p = sconcat (map line ra) -> text_at fb p = sconcat (map line rb) -> ra <> rb ->
      fs_get fa p <> fs_get fb p /\ exists e, entry (fs_get fa p) (fs_get fb p) = Ok (Some e) /\ e_ieml e = i /\
        exists dl ad, e_deleted e = map line dl /\ e_added e = map line ad /\ turns ra dl ad rb /\ Forall good dl /\ Forall good ad.
    Proof.
      intros Qi Ln Hd Inj Fa Fb Ea Eb D. pose proof (map_lines line good ra Ln Fa) as La. pose proof (map_lines line good rb Ln Fb) as Lb.
      assert (T : text_at fa p <> text_at fb p). { rewrite Ea, Eb. intros X. apply D. apply (map_inj_in line good); auto. rewrite <- (git_lines_lines _ La), <- (git_lines_lines _ Lb). now rewrite X. }
      assert (Ba : binary (fs_get fa p) = false) by (apply binary_text, TA). assert (Bb : binary (fs_get fb p) = false) by (apply binary_text, TB).
      split; [intros X; apply T; unfold text_at; now rewrite X|].
      destruct (entry_named hunks_of HO (fs_get fa p) (fs_get fb p) (map line ra) (map line rb) i Qi Ba Bb T Ea Eb La Lb) as (e & Ee & Ei).
      1-2: apply Forall_map; eapply Forall_impl; [|eassumption]; auto.
      exists e. split; [exact Ee|]. split; [exact Ei|]. pose proof (entry_turns hunks_of HO _ _ e _ _ Ba Bb Ee Ea Eb La Lb) as Tu. destruct (turns_map line good ra rb _ _ Inj Fa Fb Tu) as (dl & ad & H1 & H2 & H3 & H4 & H5). eauto 10.
    Qed.
    Lemma shape_path p : fs_get fa p <> fs_get fb p -> exists b i, parse i = Ok i /\ p = path b i.
    Proof.
      intros N. destruct (fs_get fa p) eqn:E; [apply fs_get_in in E; destruct IA as [[_ S] _]; auto|]. destruct (fs_get fb p) eqn:E'; [apply fs_get_in in E'; destruct IB as [[_ S] _]; auto|congruence].
    Qed.
    (** An expression whose files changed is without quotes. *)
    Lemma d_cases i : parse i = Ok i -> about i (fst sa) <> about i (fst sb) -> fs_get fa (path true i) <> fs_get fb (path true i) /\ exists e, entry (fs_get fa (path true i)) (fs_get fb (path true i)) = Ok (Some e) /\ e_ieml e = i /\
        exists dl ad, e_deleted e = map dline dl /\ e_added e = map dline ad /\ turns (about i (fst sa)) dl ad (about i (fst sb)) /\ Forall (fun r => good_d parse r /\ dieml r = i) dl /\ Forall (fun r => good_d parse r /\ dieml r = i) ad.
    Proof.
      intros Hi D. pose proof (good_about fa sa i IA) as Ga. pose proof (good_about fb sb i IB) as Gb.
      assert (Q : ~ occurs """" i). { assert (X : exists r, good_d parse r /\ dieml r = i) by (destruct Ga as [|r ? G _]; [destruct Gb as [|r ? G _]; [congruence|eauto]|eauto]). destruct X as ([[[j l] c] v] & (_ & (Hq & _) & _) & <-). exact Hq. }
      apply (kind_other dline (fun r => good_d parse r /\ dieml r = i)); auto.
      - intros r [G _]. now apply d_line.
      - intros r [G E]. now apply d_head.
      - intros r r' [G _] [G' _]. now apply d_inj.
      - now apply text_d.
      - now apply text_d.
    Qed.
    Lemma s_cases i : parse i = Ok i -> sabout i (snd sa) <> sabout i (snd sb) -> fs_get fa (path false i) <> fs_get fb (path false i) /\ exists e, entry (fs_get fa (path false i)) (fs_get fb (path false i)) = Ok (Some e) /\ e_ieml e = i /\
        exists dl ad, e_deleted e = map sline dl /\ e_added e = map sline ad /\ turns (sabout i (snd sa)) dl ad (sabout i (snd sb)) /\ Forall (fun r => good_s parse r /\ sieml r = i) dl /\ Forall (fun r => good_s parse r /\ sieml r = i) ad.
    Proof.
      intros Hi D. pose proof (good_sabout fa sa i IA) as Ga. pose proof (good_sabout fb sb i IB) as Gb.
      assert (Q : ~ occurs """" i). { assert (X : exists r, good_s parse r /\ sieml r = i) by (destruct Ga as [|r ? G _]; [destruct Gb as [|r ? G _]; [congruence|eauto]|eauto]). destruct X as ([[j k] v] & (_ & (Hq & _) & _) & <-). exact Hq. }
      apply (kind_other sline (fun r => good_s parse r /\ sieml r = i)); auto.
      - intros r [G _]. now apply s_line.
      - intros r [G E]. now apply s_head.
      - intros r r' [G _] [G' _]. now apply s_inj.
      - now apply text_s.
      - now apply text_s.
    Qed.
    Lemma drec_dec (x y : list drecord) : {x = y} + {x <> y}.
    Proof. repeat decide equality. Qed.
    Lemma srec_dec (x y : list srecord) : {x = y} + {x <> y}.
    Proof. repeat decide equality. Qed.

    Lemma folder_diff : exists d, diff_trees hunks_of order fa fb = Ok d /\ NoDup (map fst d) /\
      (forall p e, In (p, e) d -> parse (e_ieml e) = Ok (e_ieml e) /\ exists k, p = path k (e_ieml e)) /\
      (forall i, parse i = Ok i ->
        (In (path true i) (map fst d) <-> about i (fst sa) <> about i (fst sb)) /\
        (In (path false i) (map fst d) <-> sabout i (snd sa) <> sabout i (snd sb)) /\
        (forall e, In (path true i, e) d -> exists dl ad, turns (about i (fst sa)) dl ad (about i (fst sb)) /\
           csv_rows (sconcat (e_deleted e)) = map fields dl /\ csv_rows (sconcat (e_added e)) = map fields ad) /\
        (forall e, In (path false i, e) d -> exists dl ad, turns (sabout i (snd sa)) dl ad (sabout i (snd sb)) /\
           csv_rows (sconcat (e_deleted e)) = map sfields dl /\ csv_rows (sconcat (e_added e)) = map sfields ad)).
    Proof.
      assert (Sd : forall i, parse i = Ok i -> about i (fst sa) = about i (fst sb) -> fs_get fa (path true i) <> fs_get fb (path true i) -> entry (fs_get fa (path true i)) (fs_get fb (path true i)) = Ok None).
      { intros i Hi E. apply (kind_same dline (about i (fst sa)) (about i (fst sb))); auto; now apply text_d. }
      assert (Ss : forall i, parse i = Ok i -> sabout i (snd sa) = sabout i (snd sb) -> fs_get fa (path false i) <> fs_get fb (path false i) -> entry (fs_get fa (path false i)) (fs_get fb (path false i)) = Ok None).
      { intros i Hi E. apply (kind_same sline (sabout i (snd sa)) (sabout i (snd sb))); auto; now apply text_s. }
      destruct (diff_ok hunks_of order OO fa fb) as [d Ed].
      { intros p N. destruct (shape_path p N) as ([|] & i & Hi & ->).
        - destruct (drec_dec (about i (fst sa)) (about i (fst sb))) as [E|D]; [eauto|]. destruct (d_cases i Hi D) as (_ & e & Ee & _). eauto.
        - destruct (srec_dec (sabout i (snd sa)) (sabout i (snd sb))) as [E|D]; [eauto|]. destruct (s_cases i Hi D) as (_ & e & Ee & _). eauto. }
      exists d. split; [exact Ed|]. destruct (diff_in hunks_of order OO _ _ _ Ed) as (ND & F & G). split; [exact ND|].
      assert (Ud : forall i e, parse i = Ok i -> In (path true i, e) d -> about i (fst sa) <> about i (fst sb)) by (intros i e Hi H X; destruct (G _ _ H) as [N K]; rewrite (Sd i Hi X N) in K; discriminate).
      assert (Us : forall i e, parse i = Ok i -> In (path false i, e) d -> sabout i (snd sa) <> sabout i (snd sb)) by (intros i e Hi H X; destruct (G _ _ H) as [N K]; rewrite (Ss i Hi X N) in K; discriminate).
      split.
      - intros p e H. destruct (G p e H) as [N K]. destruct (shape_path p N) as ([|] & i & Hi & ->).
        + destruct (d_cases i Hi (Ud i e Hi H)) as (_ & e' & Ee & Ei & _). assert (e' = e) by congruence. subst e'. rewrite Ei. eauto.
        + destruct (s_cases i Hi (Us i e Hi H)) as (_ & e' & Ee & Ei & _). assert (e' = e) by congruence. subst e'. rewrite Ei. eauto.
      - intros i Hi. split; [|split; [|split]].
        + split; [intros H; apply in_map_iff in H; destruct H as ([q e] & X & H); cbn in X; subst q; eauto|]. intros D. destruct (d_cases i Hi D) as (N & e & Ee & _). destruct (F _ N) as (x & Ex & Hx). rewrite Ee in Ex. injection Ex as <-. apply in_map_iff. exists (path true i, e). auto.
        + split; [intros H; apply in_map_iff in H; destruct H as ([q e] & X & H); cbn in X; subst q; eauto|]. intros D. destruct (s_cases i Hi D) as (N & e & Ee & _). destruct (F _ N) as (x & Ex & Hx). rewrite Ee in Ex. injection Ex as <-. apply in_map_iff. exists (path false i, e). auto.
        + intros e H. destruct (d_cases i Hi (Ud i e Hi H)) as (_ & e' & Ee & _ & dl & ad & E1 & E2 & T & F1 & F2). destruct (G _ _ H) as [_ K]. assert (e' = e) by congruence. subst e'. exists dl, ad. split; [exact T|]. rewrite E1, E2.
          split; apply csv_dlines; eapply Forall_impl; [|exact F1| |exact F2]; intros [[[? ?] ?] ?] [(_ & _ & Hl & Hd & _) _]; auto.
        + intros e H. destruct (s_cases i Hi (Us i e Hi H)) as (_ & e' & Ee & _ & dl & ad & E1 & E2 & T & F1 & F2). destruct (G _ _ H) as [_ K]. assert (e' = e) by congruence. subst e'. exists dl, ad. split; [exact T|]. rewrite E1, E2.
          split; apply csv_slines; eapply Forall_impl; [|exact F1| |exact F2]; intros [[? ?] ?] [(_ & _ & Hl & _) _]; auto.
    Qed.
  End Folder.

  (** Between two commits of the database there is always a report: an entry for each file of an
      expression whose records changed, under that expression; the deleted lines read as the
      records taken away and the added lines as the records put in. *)
  Theorem C88_databases : forall parse sha class_of singular folder ops0 ops1 r c0 c1 a b,
    layout parse sha (ops0 ++ ops1) -> Forall (op_ok parse) (ops0 ++ ops1) ->
    let path := db_path sha class_of singular folder in
    nth_error (commits r) c0 = Some a -> c_tree a = run parse path [] ops0 -> (forall p, textual (c_tree a) p) ->
    nth_error (commits r) c1 = Some b -> c_tree b = run parse path [] ops1 -> (forall p, textual (c_tree b) p) ->
    let (D0, T0) := records parse ops0 in
    let (D1, T1) := records parse ops1 in
    exists d, diff hunks_of order r c0 c1 = Ok d /\ NoDup (map fst d) /\
      (forall p e, In (p, e) d -> named parse (ops0 ++ ops1) (e_ieml e) /\ exists k, p = path k (e_ieml e)) /\
      (forall i, named parse (ops0 ++ ops1) i ->
        (In (path true i) (map fst d) <-> about i D0 <> about i D1) /\
        (In (path false i) (map fst d) <-> sabout i T0 <> sabout i T1) /\
        (forall e, In (path true i, e) d -> exists deleted added, turns (about i D0) deleted added (about i D1) /\
           csv_rows (sconcat (e_deleted e)) = map fields deleted /\ csv_rows (sconcat (e_added e)) = map fields added) /\
        (forall e, In (path false i, e) d -> exists deleted added, turns (sabout i T0) deleted added (sabout i T1) /\
           csv_rows (sconcat (e_deleted e)) = map sfields deleted /\ csv_rows (sconcat (e_added e)) = map sfields added)).
  Proof.
    intros parse sha class_of singular folder ops0 ops1 r c0 c1 a b (L1 & L2 & L3) Hops path Ea Ta TA Eb Tb TB.
    set (ops := (ops0 ++ ops1)%list) in *. set (parse' := restrict parse (texts parse ops)).
    assert (idem : forall s n, parse s = Ok n -> parse n = Ok n) by (intros s n H; apply (L1 s n H)).
    assert (Sm : forall o, In o ops -> same parse parse' (op_text o)) by (intros o; apply restrict_same).
    assert (ok : folder_ok parse' path is_desc_file).
    { apply C43_layout.
      + intros s n H. apply restrict_ok in H. destruct H as [H E]. split; [|apply (L1 _ _ E)]. apply restrict_ok. split; [|eauto]. apply texts_in in H. destruct H as (o & Ho & [->|H]); apply texts_in; exists o; split; auto. rewrite (idem _ _ H) in E. injection E as <-. auto.
      + intros n H. apply restrict_ok in H. destruct H as [_ H]. exact (L2 _ H).
      + intros i j Hi Hj. apply L3; apply restrict_named; auto. }
    assert (Nm : forall i, named parse ops i -> parse' i = Ok i). { intros i (o & Ho & E). apply restrict_ok. split; [|eauto]. apply texts_in. eauto. }
    assert (S0 : forall o, In o ops0 -> same parse parse' (op_text o)) by (intros o Ho; apply Sm; apply in_app_iff; auto).
    assert (S1 : forall o, In o ops1 -> same parse parse' (op_text o)) by (intros o Ho; apply Sm; apply in_app_iff; auto).
    assert (Ho' : forall l, (forall o, In o l -> In o ops) -> Forall (op_ok parse') l). { intros l Hl. apply Forall_forall. intros o Ho. apply (op_same parse); [apply Sm; auto|]. rewrite Forall_forall in Hops. auto. }
    pose proof (run_inv parse' path is_desc_file ok ops0 [] ([], []) (Inv_empty parse' path) (Ho' ops0 (fun o H => proj2 (in_app_iff _ _ _) (or_introl H)))) as I0.
    pose proof (run_inv parse' path is_desc_file ok ops1 [] ([], []) (Inv_empty parse' path) (Ho' ops1 (fun o H => proj2 (in_app_iff _ _ _) (or_intror H)))) as I1.
    rewrite (run_same parse parse' path idem ops0) in I0 by auto. rewrite (run_same parse parse' path idem ops1) in I1 by auto.
    rewrite (spec_same parse parse') in I0, I1 by auto. fold (records parse ops0) in I0. fold (records parse ops1) in I1. fold path in Ta, Tb.
    rewrite <- Ta in I0. rewrite <- Tb in I1. destruct (folder_diff parse' path (c_tree a) (c_tree b) (records parse ops0) (records parse ops1) I0 I1 TA TB) as (d & Ed & ND & P & Q).
    destruct (records parse ops0) as [D0 T0], (records parse ops1) as [D1 T1]. cbn [fst snd] in Q. exists d. unfold diff. rewrite Ea, Eb. split; [exact Ed|]. split; [exact ND|]. split.
    - intros p e H. destruct (P p e H) as [X Y]. split; [|exact Y]. now apply restrict_named.
    - intros i Hi. apply Q. now apply Nm.
  Qed.
End Diff.
Print Assumptions C88_entries.
Print Assumptions C88_exceptions.
Print Assumptions C88_unquoted_refuted.
Print Assumptions C88_databases.

(** ** Examples *)
(** An alignment: old lines are kept as long as they come in the same order. *)
Fixpoint aligned (a b : list string) : list edit :=
  match a, b with
  | x :: a', y :: b' => if String.eqb x y then Keep x :: aligned a' b' else if inb x b then (map Del a ++ map Add b)%list else Del x :: aligned a' b
  | _, _ => (map Del a ++ map Add b)%list
  end.
Definition simple_hunks (o n : option string) : list (list edit) :=
  let s := aligned (git_lines (Diff.text o)) (git_lines (Diff.text n)) in
  if forallb (fun e => match e with Keep _ => true | _ => false end) s then [] else [s].
Lemma simple_hunks_ok o n : hunks_between o n (simple_hunks o n).
Proof.
  assert (D : forall a, old_side (map Del a) = a /\ new_side (map Del a) = []) by (induction a as [|x a [I J]]; [split; reflexivity|]; cbn; unfold old_side, new_side in *; cbn; rewrite I, J; split; reflexivity).
  assert (A : forall a, new_side (map Add a) = a /\ old_side (map Add a) = []) by (induction a as [|x a [I J]]; [split; reflexivity|]; cbn; unfold old_side, new_side in *; cbn; rewrite I, J; split; reflexivity).
  assert (B : forall a b, old_side (map Del a ++ map Add b) = a /\ new_side (map Del a ++ map Add b) = b).
  { intros a b. unfold old_side, new_side. rewrite !cat_app. fold (old_side (map Del a)) (new_side (map Del a)) (old_side (map Add b)) (new_side (map Add b)). destruct (D a) as [-> ->], (A b) as [-> ->]. now rewrite app_nil_r. }
  assert (S : forall a b, old_side (aligned a b) = a /\ new_side (aligned a b) = b).
  { induction a as [|x a IH]; intros [|y b]; cbn [aligned]; try apply B. destruct (String.eqb_spec x y) as [->|_]; [|destruct (inb x (y :: b)); [apply B|]].
    - destruct (IH b) as [I J]. unfold old_side, new_side in *. cbn. rewrite I, J. split; reflexivity.
    - destruct (IH (y :: b)) as [I J]. unfold old_side, new_side in *. cbn. rewrite I, J. split; reflexivity. }
  exists (aligned (git_lines (Diff.text o)) (git_lines (Diff.text n))). split; [apply S|]. split; [apply S|]. unfold simple_hunks. destruct (forallb _ _) eqn:E.
  - constructor. apply Forall_forall. intros e He. rewrite forallb_forall in E. specialize (E e He). now destruct e.
  - rewrite <- (app_nil_r (aligned _ _)) at 1. apply (cut_cons []); [constructor| |constructor; constructor]. intros F. rewrite <- not_true_iff_false in E. apply E. apply forallb_forall. rewrite Forall_forall in F. intros e He. specialize (F e He). now destruct e.
Qed.
Definition two (a b : fsys) : repo :=
  {| commits := [{| c_tree := a; c_parents := [] |}; {| c_tree := b; c_parents := [0] |}]; head := 1; index := b; work := b |}.
Notation diff_of a b := (diff simple_hunks (fun l => l) (two a b) 0 1).
Definition history88 : list op := history85 ++ [RemoveDescriptor "wa." (Some "en") None None; AddDescriptor "wa." "en" "tags" "say ""go"""; AddStructure "wa." "is_ignored" "true"; AddDescriptor "wo.+wa." "en" "translations" "again"].
Notation path88 := (db_path toy_digest (fun _ => CMorpheme) one85 "/db").
Notation fs88 := (run script_text path88 [] history88).
Lemma textual_all fs : forallb (fun f => negb (existsb (Ascii.eqb "000") (list_ascii_of_string (snd f)))) fs = true -> forall p, textual fs p.
Proof.
  intros H p. unfold textual, text_at, fs_get. destruct (find (fun f => String.eqb p (fst f)) fs) as [f|] eqn:E; cbn; [|intros []]. apply find_some in E. destruct E as [E _]. rewrite forallb_forall in H. specialize (H f E).
  intros O. apply negb_true_iff in H. rewrite <- not_true_iff_false in H. apply H. apply existsb_exists. exists "000"%char. split; [exact O|reflexivity].
Qed.
Example C88_case : layout script_text toy_digest (history85 ++ history88) /\ Forall (op_ok script_text) (history85 ++ history88) /\
  (forall p, textual fs85 p) /\ (forall p, textual fs88 p) /\
  diff_of fs85 fs88 =
  Ok [(path88 true "wa.", {| e_ieml := "wa."; e_added := ["""wa."" en tags ""say """"go""""""" ++ nl]; e_deleted := ["""wa."" en translations ""act""" ++ nl]; e_new := false; e_removed := false |});
      (path88 true "wo.+wa.", {| e_ieml := "wo.+wa."; e_added := ["""wo.+wa."" en translations ""again""" ++ nl]; e_deleted := []; e_new := false; e_removed := false |});
      (path88 false "wa.", {| e_ieml := "wa."; e_added := ["""wa."" is_ignored ""True""" ++ nl]; e_deleted := []; e_new := true; e_removed := false |})].
Proof.
  split; [|split; [|split; [|split]]].
  - apply C85_scripts_layout.
    + intros t. unfold toy_digest. destruct (String.eqb _ _); unfold occurs; cbn; intuition discriminate.
    + intros i j (o & Ho & Ei) _ Li. exfalso. unfold history88, history85 in Ho. cbn [In app] in Ho. repeat (destruct Ho as [<-|Ho]); try (destruct Ho); vm_compute in Ei; injection Ei as <-; cbn in Li; lia.
  - assert (H1 : forall n, script_text "wa." = Ok n -> plain n) by (intros n; vm_compute; intros [= <-]; plain_tac).
    assert (H2 : forall n, script_text "wo.+wa." = Ok n -> plain n) by (intros n; vm_compute; intros [= <-]; plain_tac).
    apply Forall_app. split; [exact history85_ok|]. apply Forall_app. split; [exact history85_ok|].
    repeat apply Forall_cons; try apply Forall_nil; cbn [op_ok]; split; try assumption; try discriminate; try (intros X; now destruct X); unfold occurs; cbn; intuition discriminate.
  - apply textual_all. vm_compute. reflexivity.
  - apply textual_all. vm_compute. reflexivity.
  - vm_compute. reflexivity.
Qed.

(** ** Claims that fail *)
(** "The report shows every record that changed": a value with a zero makes the file binary, and
    it has no entry. *)
Theorem C88_zero_refuted : exists ops, records script_text ops <> ([], []) /\
  forall hunks_of, diff hunks_of (fun l => l) (two [] (run script_text simple_path [] ops)) 0 1 = Ok [].
Proof. exists [AddDescriptor "wa." "en" "comments" (String "a" (String "000" "b"))]. split; [vm_compute; discriminate|]. intros h. vm_compute. reflexivity. Qed.
Print Assumptions C88_zero_refuted.
(** "An entry names the expression of the file": one with a literal is cut at the quote. *)
Theorem C88_quoted_expression_refuted : exists i v, let tree := [("f.desc", descriptor_line i "en" "comments" v)] in
  csv_rows (text_at tree "f.desc") = [[i; "en"; "comments"; v]] /\
  match diff_of [] tree with Ok [(_, e)] => e_ieml e = "[wa. " | _ => False end.
Proof. exists "[wa. ""act""]", "x". split; vm_compute; reflexivity. Qed.
Print Assumptions C88_quoted_expression_refuted.
(** "A file whose lines all name the expression can be reported": not when the last one has no
    line feed. *)
Theorem C88_last_line_refuted : exists c, csv_rows c = [["wa."; "en"; "tags"; "act"]] /\ diff_of [] [("f.desc", c)] = Err IndexError.
Proof. exists """wa."" en tags ""act""". split; vm_compute; reflexivity. Qed.
Print Assumptions C88_last_line_refuted.
(** "The deleted lines were in the old version": so is reported what is not a line of it. *)
Theorem C88_marker_refuted : exists c d, match diff_of [("f", c)] [("f", d)] with Ok [(_, e)] => exists l, In l (e_deleted e) /\ ~ In l (git_lines c) | _ => False end.
Proof. exists """a""", ("""b""" ++ nl). vm_compute. eexists. split; [right; left; reflexivity|]. intros [H|[]]. discriminate. Qed.
Print Assumptions C88_marker_refuted.
