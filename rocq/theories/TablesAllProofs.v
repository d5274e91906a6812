(** Proofs about the tables of scripts with overlapping sums. *)
From Coq Require Import List String Bool NArith Arith Lia Permutation.
From Verif Require Import Base Script ScriptParser SortProofs ScriptWf ScriptStrProofs ScriptOrderProofs ScriptSpec ScriptCtorProofs ScriptParseProofs ScriptSeqProofs ScriptMoreProofs ScriptAlgProofs Tables TablesSpec TablesProofs TablesGridProofs.
Import ListNotations.

Definition cells_of (t : tabs) : list cell := flat_map all_cells (t_cells t).
(** The cells show exactly the words. *)
Definition show_words (n : nat) (ws : list word) (t : tabs) : Prop :=
  (forall w, In w ws -> exists x, In (Some x) (cells_of t) /\ wordof x = w) /\
  (forall x, In (Some x) (cells_of t) -> sing1 n x /\ In (wordof x) ws).

Lemma in_all_cells {A} (t : list (list (list A))) x : In x (all_cells t) <-> exists r c, In r t /\ In c r /\ In x c.
Proof.
  unfold all_cells. rewrite in_concat. split.
  - intros (c & Hc & Hx). apply in_concat in Hc as (r & Hr & Hc). eauto.
  - intros (r & c & Hr & Hc & Hx). exists c. split; [|exact Hx]. apply in_concat. eauto.
Qed.
Lemma in_cells t x : In x (cells_of t) <-> exists arr r c, In arr (t_cells t) /\ In r arr /\ In c r /\ In x c.
Proof.
  unfold cells_of. rewrite in_flat_map. split.
  - intros (arr & Ha & Hx). apply in_all_cells in Hx as (r & c & ? & ? & ?). eauto 8.
  - intros (arr & r & c & Ha & Hr & Hc & Hx). exists arr. split; [exact Ha|]. apply in_all_cells. eauto.
Qed.
Lemma mapM_F2 {A B} (f : A -> res B) l l' : mapM f l = Ok l' -> Forall2 (fun x y => f x = Ok y) l l'.
Proof. intros E. eapply mapM_rel; [|exact E]. auto. Qed.
Lemma Forall2_In_r {A B} {R : A -> B -> Prop} {l l'} : Forall2 R l l' -> forall y, In y l' -> exists x, In x l /\ R x y.
Proof. induction 1 as [|a b l l' H F IH]; intros y []; [subst; exists a; simpl; auto|]. destruct (IH y H0) as (x & ? & ?). exists x. simpl. auto. Qed.

Lemma from_child_show a b c k t t' : wf (Mul a b c) -> cardinal (Mul a b c) <> 1%N -> k < 3 ->
  (forall j, j < 3 -> j <> k -> cardinal (pick a b c j) = 1%N) -> show_words (layer a) (words (pick a b c k)) t -> from_child a b c k t = Ok t' -> show_words (S (layer a)) (words (Mul a b c)) t'.
Proof.
  intros Wm Pm K3 One [S1 S2] E. destruct (ss_total (Mul a b c) Wm) as (own & Eo & _). unfold from_child in E. rewrite Eo in E. cbn [bind] in E.
  destruct (mapM (mapM (mapM (mapM (resolve k own)))) (t_cells t)) as [cs|] eqn:Ec; cbn [bind] in E; [|discriminate].
  destruct (mapM (with_nth a b c k) (t_scripts t)); cbn [bind] in E; [|discriminate]. destruct (mapM (mapM (mapM (with_nth a b c k))) (t_headers t)); cbn [bind] in E; [|discriminate]. apply Ok_inj in E. subst t'.
  assert (R1 : forall x, In x (cells_of t) -> exists y, In y (flat_map all_cells cs) /\ resolve k own x = Ok y).
  { intros x Hx. apply in_cells in Hx as (arr & r & co & Ha & Hr & Hc & Hx). destruct (Forall2_In_l (mapM_F2 _ _ _ Ec) arr Ha) as (arr' & Ha' & E1). destruct (Forall2_In_l (mapM_F2 _ _ _ E1) r Hr) as (r' & Hr' & E2).
    destruct (Forall2_In_l (mapM_F2 _ _ _ E2) co Hc) as (co' & Hc' & E3). destruct (Forall2_In_l (mapM_F2 _ _ _ E3) x Hx) as (y & Hy & E4). exists y. split; [|exact E4]. apply in_flat_map. exists arr'. split; [exact Ha'|]. apply in_all_cells. eauto. }
  assert (R2 : forall y, In y (flat_map all_cells cs) -> exists x, In x (cells_of t) /\ resolve k own x = Ok y).
  { intros x Hx. apply in_flat_map in Hx as (arr & Ha & Hx). apply in_all_cells in Hx as (r & co & Hr & Hc & Hx). destruct (Forall2_In_r (mapM_F2 _ _ _ Ec) arr Ha) as (arr' & Ha' & E1). destruct (Forall2_In_r (mapM_F2 _ _ _ E1) r Hr) as (r' & Hr' & E2).
    destruct (Forall2_In_r (mapM_F2 _ _ _ E2) co Hc) as (co' & Hc' & E3). destruct (Forall2_In_r (mapM_F2 _ _ _ E3) x Hx) as (y & Hy & E4). exists y. split; [|exact E4]. apply in_cells. eauto 8. }
  assert (Re : forall x y, In x (cells_of t) -> resolve k own x = Ok y -> exists x' s, x = Some x' /\ y = Some s /\ In s own /\ wordof s = put_word a b c k (wordof x')).
  { intros x y Hx E. unfold resolve in E. destruct x as [x'|]; [|discriminate]. destruct (find (fun s => text_is x' (nth_child k s)) (rev own)) as [s|] eqn:Ef; [|discriminate]. injection E as <-.
    apply find_some in Ef as [Hs T]. apply in_rev in Hs. exists x', s. split; [reflexivity|]. split; [reflexivity|]. split; [exact Hs|]. destruct (S2 x' Hx) as [Sx Hw]. apply (nth_child_own a b c Wm Pm own Eo k K3 One s x'); auto. }
  cbn [words]. rewrite (mul_words a b c Wm Pm k K3 One). split; unfold cells_of; cbn [t_cells].
  - intros w Hw. apply in_map_iff in Hw as (w' & <- & Hw'). destruct (S1 w' Hw') as (x & Hx & <-). destruct (R1 _ Hx) as (y & Hy & Ey). destruct (Re _ _ Hx Ey) as (x' & s & Ex & -> & Hs & Es). injection Ex as <-. eauto.
  - intros s Hs. destruct (R2 _ Hs) as (x & Hx & Ey). destruct (Re _ _ Hx Ey) as (x' & s' & -> & Es' & Hs' & Es). injection Es' as <-. split; [eapply own_sing; eauto|]. rewrite Es. apply in_map. apply (S2 x' Hx).
Qed.

Lemma combine_seq_in {A} k (l : list A) i y : In (i, y) (combine (seq k (List.length l)) l) -> exists d, i = k + d /\ nth_error l d = Some y.
Proof.
  revert k. induction l as [|z l IH]; intros k H; simpl in H; [destruct H|]. destruct H as [E|H]; [injection E as -> ->; exists 0; rewrite Nat.add_0_r; auto|].
  apply IH in H as (d & -> & E). exists (S d). split; [lia|exact E].
Qed.
Lemma index_of_word n x l i : sing1 n x -> Forall (sing1 n) l -> index_of x l = Ok i -> exists y, nth_error l i = Some y /\ wordof y = wordof x.
Proof.
  intros Sx F. unfold index_of. destruct (find _ _) as [[i' y]|] eqn:E; [|discriminate]. intros Q. injection Q as ->. apply find_some in E as [Hi E]. apply in_rev in Hi. cbn [snd] in E.
  assert (Hn : nth_error l i = Some y).
  { apply (combine_seq_in 0) in Hi as (d & -> & E'). exact E'. }
  exists y. split; [exact Hn|]. rewrite Forall_forall in F. apply (sing1_word n y x) in E; auto. apply F. eapply nth_error_In; eauto.
Qed.
Lemma index_of_same x y l : str x = str y -> index_of x l = index_of y l.
Proof. intros E. unfold index_of. assert (X : forall e : nat * script, script_eqb (snd e) x = script_eqb (snd e) y) by (intros e; unfold script_eqb; now rewrite E). induction (rev _) as [|e r IH]; simpl; [reflexivity|]. rewrite X. destruct (script_eqb (snd e) y); [reflexivity|exact IH]. Qed.

Section Overlap.
  Variables a b c : script.
  Hypothesis Wm : wf (Mul a b c).
  Hypothesis Pm : cardinal (Mul a b c) <> 1%N.
  Variables own la lb lc : list script.
  Hypothesis Eo : ss (Mul a b c) = Ok own.
  Hypotheses (Ea : ss a = Ok la) (Eb : ss b = Ok lb) (Ec : ss c = Ok lc).
  Local Notation n := (layer a).
  Lemma list_sing d : Forall (sing1 n) (lst la lb lc d) /\ N.of_nat (List.length (lst la lb lc d)) = cardinal (pick a b c d).
  Proof.
    pose proof (pick_good a b c Wm d) as [W L]. destruct (ss_total _ W) as (l & E & F & P & C). rewrite L in F.
    assert (l = lst la lb lc d) as -> by (destruct d as [|[|d]]; simpl in *; congruence). auto.
  Qed.
  (** The positions of a singular sequence: defined by its words in the plural children. *)
  Variable ds : list nat.
  Hypothesis Hd : Forall (fun d => d < 3) ds.
  Hypothesis Ds : NoDup ds.
  Hypothesis Rest : forall d, d < 3 -> ~ In d ds -> cardinal (pick a b c d) = 1%N.
  Local Notation axes := (map (fun d => (d, lst la lb lc d)) ds).
  Lemma position_word s s' p : In s own -> In s' own -> position axes s = Ok p -> position axes s' = Ok p -> wordof s' = wordof s.
  Proof.
    intros Hs Hs' E E'. destruct (own_spec a b c Wm Pm own Eo s Hs) as (x & y & z & -> & Sx & Sy & Sz & Hx & Hy & Hz). destruct (own_spec a b c Wm Pm own Eo s' Hs') as (x' & y' & z' & -> & Sx' & Sy' & Sz' & Hx' & Hy' & Hz').
    assert (Q : forall d, d < 3 -> exists u u', nth_child d (Mul x y z) = Some u /\ nth_child d (Mul x' y' z') = Some u' /\ sing1 n u /\ sing1 n u' /\ In (wordof u) (words (pick a b c d)) /\ In (wordof u') (words (pick a b c d))).
    { intros [|[|[|d]]] L; [exists x, x'|exists y, y'|exists z, z'|lia]; simpl; auto 8. }
    assert (W : forall d u u', d < 3 -> nth_child d (Mul x y z) = Some u -> nth_child d (Mul x' y' z') = Some u' -> wordof u' = wordof u).
    { intros d u u' L Eu Eu'. destruct (Q d L) as (v & v' & Ev & Ev' & Sv & Sv' & Iv & Iv'). rewrite Eu in Ev. injection Ev as <-. rewrite Eu' in Ev'. injection Ev' as <-.
      destruct (in_dec Nat.eq_dec d ds) as [Hin|Hout].
      - clear -E E' Hin Eu Eu' Sv Sv' Wm Ea Eb Ec. revert p E E'. induction ds as [|e es IH]; intros p E E'; [destruct Hin|]. unfold position in E, E'. cbn [map mapM fst snd] in E, E'.
        destruct Hin as [->|Hin].
        + rewrite Eu in E. rewrite Eu' in E'. destruct (index_of u (lst la lb lc d)) as [i|] eqn:Ei; cbn [bind] in E; [|discriminate]. destruct (mapM _ _) in E; cbn [bind] in E; [|discriminate]. injection E as <-.
          destruct (index_of u' (lst la lb lc d)) as [i'|] eqn:Ei'; cbn [bind] in E'; [|discriminate]. destruct (mapM _ _) in E'; cbn [bind] in E'; [|discriminate]. injection E' as -> _.
          apply (index_of_word n) in Ei as (v & Ev & <-); [|exact Sv|apply list_sing]. apply (index_of_word n) in Ei' as (v' & Ev' & <-); [|exact Sv'|apply list_sing]. congruence.
        + fold (position (map (fun d => (d, lst la lb lc d)) es) (Mul x y z)) in E. fold (position (map (fun d => (d, lst la lb lc d)) es) (Mul x' y' z')) in E'.
          destruct (match nth_child e (Mul x y z) with Some _ => _ | None => _ end) as [i|]; cbn [bind] in E; [|discriminate]. destruct (position _ (Mul x y z)) as [q|] eqn:Eq; cbn [bind] in E; [|discriminate]. injection E as <-.
          destruct (match nth_child e (Mul x' y' z') with Some _ => _ | None => _ end) as [i'|]; cbn [bind] in E'; [|discriminate]. destruct (position _ (Mul x' y' z')) as [q'|] eqn:Eq'; cbn [bind] in E'; [|discriminate]. injection E' as -> ->.
          eapply IH; eauto.
      - pose proof (words_single _ (proj1 (pick_good a b c Wm d)) (Rest d L Hout)) as Ws. rewrite Ws in Iv, Iv'. destruct Iv as [<-|[]], Iv' as [<-|[]]. reflexivity. }
    change (cat3 (wordof x', wordof y', wordof z') = cat3 (wordof x, wordof y, wordof z)). rewrite (W 0 x x'), (W 1 y y'), (W 2 z z'); auto.
  Qed.
  Lemma positions_ok s : In s own -> exists p, position axes s = Ok p /\ Forall2 (fun i d => i < List.length (lst la lb lc d)) p ds.
  Proof.
    intros Hs. destruct (own_spec a b c Wm Pm own Eo s Hs) as (x & y & z & -> & Sx & Sy & Sz & Hx & Hy & Hz).
    clear Rest Ds. induction ds as [|d es IH]; [exists []; split; [reflexivity|constructor]|]. apply Forall_cons_iff in Hd as [Hl He]. destruct (IH He) as (p & Ep & Fp). unfold position in *. cbn [map mapM fst snd].
    assert (exists u, nth_child d (Mul x y z) = Some u /\ sing1 n u /\ In (wordof u) (words (pick a b c d))) as (u & Eu & Su & Iu) by (destruct d as [|[|[|d]]]; [exists x|exists y|exists z|lia]; simpl; auto).
    rewrite Eu. destruct (list_sing d) as [F _]. assert (Hi : exists i, index_of u (lst la lb lc d) = Ok i).
    { unfold index_of. destruct (find _ _) as [[i v]|] eqn:Ef; [eauto|exfalso].
      assert (In (wordof u) (map wordof (lst la lb lc d))) as H.
      { pose proof (pick_good a b c Wm d) as [W L]. eapply Permutation_in; [apply Permutation_sym, (ss_words (pick a b c d)); [exact W|]|exact Iu]. destruct d as [|[|d]]; simpl; auto. }
      apply in_map_iff in H as (v & Ev & Hv). rewrite Forall_forall in F. assert (script_eqb v u = true) as T by (apply (sing1_word n); auto).
      assert (Hc : exists i, In (i, v) (combine (seq 0 (List.length (lst la lb lc d))) (lst la lb lc d))).
      { clear -Hv. generalize 0 as k. induction (lst la lb lc d) as [|w l IH]; intros k; [destruct Hv|]. simpl. destruct Hv as [->|Hv]; [exists k; auto|]. destruct (IH Hv (S k)) as [i Hi]. exists i. auto. }
      destruct Hc as [i Hi]. pose proof (find_none _ _ Ef (i, v)) as Nn. rewrite <- in_rev in Nn. specialize (Nn Hi). cbn [snd] in Nn. congruence. }
    destruct Hi as [i Ei]. rewrite Ei. cbn [bind]. rewrite Ep. cbn [bind]. exists (i :: p). split; [reflexivity|]. constructor; [|exact Fp].
    apply (index_of_word n) in Ei as (v & Ev & _); auto. apply nth_error_Some. congruence.
  Qed.
  Lemma sing_own s : In s own -> sing1 (S n) s.
  Proof. intros Hs. eapply own_sing; eauto. Qed.
  Lemma fill_show ps t : List.length ds <= 3 -> mapM (position axes) own = Ok ps -> t = fill (map (fun d => cardinal (pick a b c d)) ds) (combine own ps) ->
    (forall s, In s own -> exists x, In (Some x) (all_cells t) /\ wordof x = wordof s) /\ (forall x, In (Some x) (all_cells t) -> In x own).
  Proof.
    intros L3 Ep ->. apply mapM_F2 in Ep.
    assert (Hin : forall s p, In (s, p) (combine own ps) -> In s own /\ position axes s = Ok p).
    { clear -Ep. induction Ep as [|s p own ps H F IH]; intros s' p' []; [injection H0 as <- <-; simpl; auto|]. destruct (IH _ _ H0). simpl. auto. }
    assert (Hall : forall s, In s own -> exists p, In (s, p) (combine own ps)).
    { clear -Ep. induction Ep as [|s p own ps H F IH]; intros s' []; [subst; exists p; simpl; auto|]. destruct (IH _ H0) as [q Hq]. exists q. simpl. auto. }
    split.
    - intros s Hs. destruct (Hall s Hs) as [p Hp]. destruct (Hin s p Hp) as [_ Es]. destruct (positions_ok s Hs) as (p' & Ep' & Fp). rewrite Es in Ep'. apply Ok_inj in Ep'. subst p'.
      set (i := nth 0 p 0). set (j := nth 1 p 0). set (k := nth 2 p 0).
      destruct (find (fun e => same_position (snd e) [i; j; k]) (rev (combine own ps))) as [[s' p']|] eqn:Ef.
      + exists s'. pose proof Ef as Ef'. apply find_some in Ef as [Hs' T]. apply in_rev in Hs'. cbn [snd] in T. destruct (Hin s' p' Hs') as [Ho' Es'].
        assert (p' = p).
        { destruct (positions_ok s' Ho') as (q & Eq & Fq). rewrite Es' in Eq. apply Ok_inj in Eq. subst q. pose proof (F2_length _ _ _ Fp) as Lp. pose proof (F2_length _ _ _ Fq) as Lq.
          unfold same_position in T. cbn [forallb nth] in T. rewrite !andb_true_iff, !Nat.eqb_eq in T. destruct T as (T0 & T1 & T2 & _). subst i j k.
          clear -Lp Lq L3 T0 T1 T2. destruct p as [|p0 [|p1 [|p2 [|]]]], p' as [|q0 [|q1 [|q2 [|]]]]; simpl in *; try lia; congruence. }
        subst p'. split; [|apply (position_word s s' p); auto].
        assert (Sz : forall m, nth m p 0 < N.to_nat (nth m (map (fun d => cardinal (pick a b c d)) ds) 1%N)).
        { clear -Fp Wm Ea Eb Ec. induction Fp as [|i d p ds' H F IH]; intros [|m]; cbn [nth map]; auto; try (simpl; lia). rewrite <- (proj2 (list_sing d)). rewrite Nnat.Nat2N.id. exact H. }
        apply in_all_cells. unfold fill.
        exists (map (fun j => map (fun k => option_map fst (find (fun e => same_position (snd e) [i; j; k]) (rev (combine own ps)))) (seq 0 (N.to_nat (nth 2 (map (fun d => cardinal (pick a b c d)) ds) 1%N)))) (seq 0 (N.to_nat (nth 1 (map (fun d => cardinal (pick a b c d)) ds) 1%N)))),
          (map (fun k => option_map fst (find (fun e => same_position (snd e) [i; j; k]) (rev (combine own ps)))) (seq 0 (N.to_nat (nth 2 (map (fun d => cardinal (pick a b c d)) ds) 1%N)))).
        split; [|split].
        * apply in_map_iff. exists i. split; [reflexivity|]. apply in_seq. split; [lia|apply Sz].
        * apply in_map_iff. exists j. split; [reflexivity|]. apply in_seq. split; [lia|apply Sz].
        * apply in_map_iff. exists k. split; [rewrite Ef'; reflexivity|]. apply in_seq. split; [lia|apply Sz].
      + exfalso. pose proof (find_none _ _ Ef (s, p)) as Nn. rewrite <- in_rev in Nn. specialize (Nn Hp). cbn [snd] in Nn. unfold same_position in Nn. subst i j k. cbn [forallb nth] in Nn. rewrite !Nat.eqb_refl in Nn. discriminate.
    - intros x Hx. apply in_all_cells in Hx as (r & co & Hr & Hc & Hx). unfold fill in Hr. apply in_map_iff in Hr as (i & <- & _). apply in_map_iff in Hc as (j & <- & _). apply in_map_iff in Hx as (k & Ex & _).
      destruct (find _ _) as [[s p]|] eqn:Ef; [|discriminate]. injection Ex as <-. apply find_some in Ef as [Hs _]. apply in_rev in Hs. cbn. apply (Hin s p Hs).
  Qed.
End Overlap.

Lemma grid_show a b c t : wf (Mul a b c) -> cardinal (Mul a b c) <> 1%N -> 2 <= List.length (plurals a b c) -> grid a b c = Ok t -> show_words (S (layer a)) (words (Mul a b c)) t.
Proof.
  intros Wm Pm L E. unfold grid in E. destruct (existsb _ (plurals a b c)); [discriminate|].
  pose proof (Wa a b c Wm) as Wa. pose proof (Wb a b c Wm) as Wb. pose proof (Wc a b c Wm) as Wc.
  destruct (ss_total a Wa) as (la & Ea & _). destruct (ss_total b Wb) as (lb & Eb & _). destruct (ss_total c Wc) as (lc & Ec & _). destruct (ss_total (Mul a b c) Wm) as (own & Eo & _ & Po & _).
  assert (Fin : forall ds ps, Forall (fun d => d < 3) ds -> (forall d, d < 3 -> ~ In d ds -> cardinal (pick a b c d) = 1%N) -> List.length ds <= 3 ->
    mapM (position (map (fun d => (d, lst la lb lc d)) ds)) own = Ok ps -> t_cells t = [fill (map (fun d => cardinal (pick a b c d)) ds) (combine own ps)] -> show_words (S (layer a)) (words (Mul a b c)) t).
  { intros ds ps Hd Rest L3 Ep Et. destruct (fill_show a b c Wm Pm own la lb lc Eo Ea Eb Ec ds Hd Rest ps _ L3 Ep eq_refl) as [F1 F2].
    unfold show_words, cells_of. rewrite Et. cbn [flat_map]. rewrite app_nil_r. split.
    - intros w Hw. apply (Permutation_in _ (Permutation_sym Po)) in Hw. apply in_map_iff in Hw as (s & <- & Hs). destruct (F1 s Hs) as (x & Hx & Ex). eauto.
    - intros x Hx. apply F2 in Hx. split; [eapply own_sing; eauto|]. eapply Permutation_in; [exact Po|]. now apply in_map. }
  assert (Pl : plurals a b c = filter (fun e => several (snd e)) [(0, a); (1, b); (2, c)]) by reflexivity. cbn [filter snd] in Pl.
  destruct (several a) eqn:Sa, (several b) eqn:Sb, (several c) eqn:Sc; rewrite Pl in *; cbn [List.length] in L; try lia; clear L Pl; cbn [mapM fst snd map app] in *; rewrite ?Ea, ?Eb, ?Ec in E; cbn [bind] in E; rewrite Eo in E; cbn [bind] in E;
    repeat match goal with H : several _ = false |- _ => apply several_not in H end.
  - destruct (mapM (position _) own) as [ps|] eqn:Ep; cbn [bind] in E; [|discriminate].
    destruct (mapM _ lc) as [ts|]; cbn [bind] in E; [|discriminate]. destruct (mapM _ lc) as [hs|]; cbn [bind] in E; [|discriminate]. apply Ok_inj in E. subst t.
    apply (Fin [0; 1; 2] ps); [repeat constructor|intros [|[|[|d]]] H N; simpl in *; intuition lia|simpl; lia|exact Ep|reflexivity].
  - destruct (mapM (position _) own) as [ps|] eqn:Ep; cbn [bind] in E; [|discriminate].
    match type of E with context[do h <- ?m; _] => destruct m as [hs|] end; cbn [bind] in E; [|discriminate]. apply Ok_inj in E. subst t.
    apply (Fin [0; 1] ps); [repeat constructor|intros [|[|[|d]]] H N; simpl in *; auto; intuition lia|simpl; lia|exact Ep|reflexivity].
  - destruct (mapM (position _) own) as [ps|] eqn:Ep; cbn [bind] in E; [|discriminate].
    match type of E with context[do h <- ?m; _] => destruct m as [hs|] end; cbn [bind] in E; [|discriminate]. apply Ok_inj in E. subst t.
    apply (Fin [0; 2] ps); [repeat constructor|intros [|[|[|d]]] H N; simpl in *; auto; intuition lia|simpl; lia|exact Ep|reflexivity].
  - destruct (mapM (position _) own) as [ps|] eqn:Ep; cbn [bind] in E; [|discriminate].
    match type of E with context[do h <- ?m; _] => destruct m as [hs|] end; cbn [bind] in E; [|discriminate]. apply Ok_inj in E. subst t.
    apply (Fin [1; 2] ps); [repeat constructor|intros [|[|[|d]]] H N; simpl in *; auto; intuition lia|simpl; lia|exact Ep|reflexivity].
Qed.
Lemma show_app n ws ws' t u : show_words n ws t -> show_words n ws' u ->
  show_words n (ws ++ ws') {| t_cells := t_cells t ++ t_cells u; t_scripts := t_scripts t ++ t_scripts u; t_headers := t_headers t ++ t_headers u |}.
Proof.
  intros [T1 T2] [U1 U2]. unfold show_words, cells_of in *. cbn [t_cells]. rewrite flat_map_app. split.
  - intros w Hw. apply in_app_or in Hw as [Hw|Hw]; [destruct (T1 w Hw) as (x & Hx & Ex)|destruct (U1 w Hw) as (x & Hx & Ex)]; exists x; rewrite in_app_iff; auto.
  - intros x Hx. apply in_app_or in Hx as [Hx|Hx]; [destruct (T2 x Hx)|destruct (U2 x Hx)]; rewrite in_app_iff; auto.
Qed.
Lemma tables_show s t : wf s -> tables s = Ok t -> show_words (layer s) (words s) t.
Proof.
  intros W. destruct (N.eq_dec (cardinal s) 1) as [C|N].
  { intros E. assert (E' : tables s = Ok {| t_cells := [[[[Some s]]]]; t_scripts := [s]; t_headers := [] |}) by (destruct s; cbn [tables]; rewrite (proj2 (N.eqb_eq _ _) C); reflexivity).
    rewrite E' in E. apply Ok_inj in E. subst t. rewrite (words_single s W C). unfold show_words, cells_of. simpl. split.
    - intros w [<-|[]]. exists s. auto.
    - intros x [Ex|[]]. injection Ex as <-. split; [split; auto|auto]. }
  revert t W N. induction s as [l|p|a b c IHa IHb IHc|cs IH] using script_ind'; intros t W N E; try (simpl in N; congruence).
  - pose proof (Wa a b c W) as Wa. pose proof (Wb a b c W) as Wb. pose proof (Wc a b c W) as Wc. rewrite tables_mul in E by exact N. cbn [layer].
    assert (Pl : plurals a b c = filter (fun e => several (snd e)) [(0, a); (1, b); (2, c)]) by reflexivity. cbn [filter snd] in Pl.
    assert (G : 2 <= List.length (plurals a b c) -> grid a b c = Ok t -> show_words (S (layer a)) (words (Mul a b c)) t) by (intros; now apply grid_show).
    destruct (several a) eqn:Sa, (several b) eqn:Sb, (several c) eqn:Sc; rewrite Pl in E, G; cbn [List.length map snd] in G; try (apply G; [lia|exact E]);
      rewrite ?several_yes in *; repeat match goal with H : several _ = false |- _ => apply several_not in H end.
    + destruct (tables a) as [u|] eqn:Eu; cbn [bind] in E; [|discriminate]. eapply (from_child_show a b c 0); eauto. intros [|[|[|j]]]; simpl; auto; lia.
    + destruct (tables b) as [u|] eqn:Eu; cbn [bind] in E; [|discriminate]. eapply (from_child_show a b c 1); eauto; [intros [|[|[|j]]]; simpl; auto; lia|]. rewrite <- (Lb a b c W). apply IHb; auto.
    + destruct (tables c) as [u|] eqn:Eu; cbn [bind] in E; [|discriminate]. eapply (from_child_show a b c 2); eauto; [intros [|[|[|j]]]; simpl; auto; lia|]. rewrite <- (Lc a b c W). apply IHc; auto.
    + exfalso. apply N. simpl. now rewrite Sa, Sb, Sc.
  - rewrite tables_add in E by exact N. destruct (existsb (fun c => negb (paradigm c)) cs) eqn:Ex.
    + destruct (ss_total (Add cs) W) as (l & El & Fl & Pl & _). rewrite El in E. cbn [bind] in E. apply Ok_inj in E. subst t. unfold show_words, cells_of. cbn [t_cells flat_map]. rewrite app_nil_r.
      assert (X : @all_cells cell (map (fun x => [[Some x]]) l) = map Some l) by (clear; unfold all_cells; induction l as [|x l IHl]; simpl; [reflexivity|now rewrite IHl]). rewrite X. split.
      * intros w Hw. apply (Permutation_in _ (Permutation_sym Pl)) in Hw. apply in_map_iff in Hw as (x & <- & Hx). exists x. split; [now apply in_map|reflexivity].
      * intros x Hx. apply in_map_iff in Hx as (y & Ey & Hy). injection Ey as ->. rewrite Forall_forall in Fl. split; [auto|]. eapply Permutation_in; [exact Pl|]. now apply in_map.
    + assert (Hall : forall y, In y cs -> cardinal y <> 1%N).
      { intros y Hy C. apply cardinal_paradigm in C; [|apply (wf_add_in cs y W Hy)]. assert (existsb (fun c => negb (paradigm c)) cs = true) by (apply existsb_exists; exists y; rewrite C; auto). congruence. }
      assert (X : forall l u, incl l cs -> all_tables l = Ok u -> show_words (layer (Add cs)) (flat_map words l) u).
      { induction l as [|x l IHl]; intros u I Eu; cbn [all_tables] in Eu.
        - apply Ok_inj in Eu. subst u. split; [intros w []|intros x []].
        - assert (Hx : In x cs) by (apply I; simpl; auto). destruct (wf_add_in cs x W Hx) as (Wx & _ & Lx). destruct (tables x) as [v|] eqn:Ev; cbn [bind] in Eu; [|discriminate].
          destruct (all_tables l) as [v'|] eqn:Ev'; cbn [bind] in Eu; [|discriminate]. apply Ok_inj in Eu. subst u. cbn [flat_map]. apply show_app.
          + rewrite <- Lx. rewrite Forall_forall in IH. apply (IH x Hx); auto.
          + apply IHl; [intros z Hz; apply I; simpl; auto|reflexivity]. }
      exact (X cs t (incl_refl cs) E).
Qed.
Lemma too_wide_plural s : wf s -> too_wide s -> cardinal s <> 1%N.
Proof.
  intros W T. induction T as [a b c x L Hx C|a b c x F T IH|cs x A Hx T IH].
  - cbn [cardinal]. intros E. apply N.eq_mul_1 in E as [E Ec]. apply N.eq_mul_1 in E as [Ea Eb]. cbn [In] in Hx. intuition (subst; lia).
  - cbn [cardinal]. intros E. apply N.eq_mul_1 in E as [E Ec]. apply N.eq_mul_1 in E as [Ea Eb]. cbn [filter] in F. unfold several in F. rewrite Ea, Eb, Ec in F. discriminate.
  - intros E. destruct (wf_add_in cs x W Hx) as (Wx & _). apply cardinal_paradigm in E; [|exact W].
    destruct cs as [|y [|z cs]]; [destruct Hx| |].
    + destruct Hx as [->|[]]. apply (IH Wx). destruct (ss_total _ W) as (l & _). apply cardinal_paradigm in E; [|exact W]. simpl in E. lia.
    + apply cardinal_paradigm in E; [|exact W]. destruct (wf_add_in _ y W (or_introl eq_refl)) as (Wy & _). destruct (wf_add_in _ z W (or_intror (or_introl eq_refl))) as (Wz & _).
      pose proof (length_words y Wy) as Ly. pose proof (length_words z Wz) as Lz. pose proof (words_nonempty y Wy). pose proof (words_nonempty z Wz). destruct (words y); [congruence|]. destruct (words z); [congruence|]. simpl in *. lia.
Qed.
