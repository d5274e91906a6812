(** Lemmas on what the calls of the transactions on paradigms do to the records. *)
From Coq Require Import List String Ascii Bool NArith Arith Lia Permutation.
From Verif Require Import Base Script ScriptParser ScriptSpec ScriptWf ScriptCtorProofs ScriptParseProofs ScriptEqProofs ScriptMoreProofs ScriptSeqProofs TablesProofs TablesGridProofs UslProofs SortProofs Factor
  Dictionary DictionarySpec DictTableProofs DictLoadProofs DictTopProofs
  Database DatabaseSpec DatabaseProofs DatabaseRefine Git GitProofs Cache Transactions TransactionsProofs Properties3 Properties4 Properties6 Properties16 Paradigms ParadigmsSpec ParadigmsProofs ParadigmsDictProofs.
Import ListNotations.
Local Open Scope string_scope.

Definition keep_d (i : string) (D : list drecord) : list drecord := filter (fun r => negb (String.eqb i (dieml r))) D.
Definition keep_s (i : string) (T : list srecord) : list srecord := filter (fun r => negb (String.eqb i (sieml r))) T.

Lemma keep_d_in i D r : In r (keep_d i D) <-> In r D /\ dieml r <> i.
Proof.
  unfold keep_d. rewrite filter_In, negb_true_iff, String.eqb_neq. split; intros [H N]; split; auto.
Qed.
Lemma keep_s_in i T r : In r (keep_s i T) <-> In r T /\ sieml r <> i.
Proof.
  unfold keep_s. rewrite filter_In, negb_true_iff, String.eqb_neq. split; intros [H N]; split; auto.
Qed.
Lemma keep_d_values i D i' l d : values_of (keep_d i D) i' l d = if String.eqb i i' then [] else values_of D i' l d.
Proof.
  unfold values_of, keep_d. induction D as [|[[[j m] c] v] D IH]; [destruct (String.eqb i i'); reflexivity|].
  cbn [filter]. change (dieml (j, m, c, v)) with j. destruct (String.eqb_spec i j) as [->|Nj]; cbn [negb filter].
  - rewrite IH. destruct (String.eqb_spec j i') as [->|]; [reflexivity|]. cbn [andb]. reflexivity.
  - destruct (String.eqb j i' && String.eqb m l && String.eqb c d)%bool eqn:E; cbn [map]; rewrite IH; [|reflexivity].
    apply andb_true_iff in E as [E _]. apply andb_true_iff in E as [E _]. apply String.eqb_eq in E. subst j. apply String.eqb_neq in Nj. rewrite Nj. reflexivity.
Qed.
Lemma keep_s_values i T i' k : svalues_of (keep_s i T) i' k = if String.eqb i i' then [] else svalues_of T i' k.
Proof.
  unfold svalues_of, keep_s. induction T as [|[[j m] v] T IH]; [destruct (String.eqb i i'); reflexivity|].
  cbn [filter]. change (sieml (j, m, v)) with j. destruct (String.eqb_spec i j) as [->|Nj]; cbn [negb filter].
  - rewrite IH. destruct (String.eqb_spec j i') as [->|]; [reflexivity|]. cbn [andb]. reflexivity.
  - destruct (String.eqb j i' && String.eqb m k)%bool eqn:E; cbn [map]; rewrite IH; [|reflexivity].
    apply andb_true_iff in E as [E _]. apply String.eqb_eq in E. subst j. apply String.eqb_neq in Nj. rewrite Nj. reflexivity.
Qed.
Lemma svalues_of_app T T' i k : svalues_of (T ++ T') i k = (svalues_of T i k ++ svalues_of T' i k)%list.
Proof. unfold svalues_of. rewrite filter_app, map_app. reflexivity. Qed.
Lemma svalues_of_one j k' v i k : svalues_of [(j, k', v)] i k = if (String.eqb j i && String.eqb k' k)%bool then [v] else [].
Proof. unfold svalues_of. cbn. destruct (String.eqb j i && String.eqb k' k)%bool; reflexivity. Qed.
(** What is said is seen in the values. *)
Lemma said_values T i k v : In (i, k, v) T <-> In v (svalues_of T i k).
Proof.
  unfold svalues_of. rewrite in_map_iff. split.
  - intros H. exists (i, k, v). split; [reflexivity|]. apply filter_In. rewrite !String.eqb_refl. auto.
  - intros ([[j m] w] & E & H). apply filter_In in H as [H E']. apply andb_true_iff in E' as [E1 E2]. apply String.eqb_eq in E1, E2. cbn in E. subst. exact H.
Qed.
Lemma states_values T i k : states T i k <-> exists v, true_value v /\ In v (svalues_of T i k).
Proof. unfold states. split; intros (v & Tv & H); exists v; split; auto; now apply said_values. Qed.

  Lemma keeps_values l D i' m d : values_of (fold_left (fun D i => keep_d i D) l D) i' m d = if inb i' l then [] else values_of D i' m d.
  Proof.
    revert D. induction l as [|i l IH]; intros D; [reflexivity|]. cbn [fold_left]. rewrite IH, keep_d_values. unfold inb. cbn [existsb]. rewrite String.eqb_sym. destruct (String.eqb i' i); cbn [orb]; destruct (existsb _ l); reflexivity.
  Qed.
  Lemma keeps_in l D r : In r (fold_left (fun D i => keep_d i D) l D) <-> In r D /\ ~ In (dieml r) l.
  Proof.
    revert D. induction l as [|i l IH]; intros D; cbn [fold_left]; [simpl; tauto|]. rewrite IH, keep_d_in. simpl. intuition auto.
  Qed.

Section Steps.
  Variable parse_ieml : string -> res string.
  Notation mstep := (spec_step parse_ieml LANGUAGES DESCRIPTORS_CLASS svalue normalize_value String.eqb).
  Lemma step_remove_d i D T : parse_ieml i = Ok i -> mstep (D, T) (RemoveDescriptor i None None None) = (keep_d i D, T).
  Proof.
    intros H. cbn [spec_step]. rewrite H. unfold keep_d. f_equal. apply filter_ext. intros [[[j l] c] v]. cbn. rewrite !andb_true_r. reflexivity.
  Qed.
  Lemma step_remove_s i D T : parse_ieml i = Ok i -> mstep (D, T) (RemoveStructure i None None) = (D, keep_s i T).
  Proof.
    intros H. cbn [spec_step]. rewrite H. unfold keep_s. f_equal. apply filter_ext. intros [[j l] v]. cbn. rewrite !andb_true_r. reflexivity.
  Qed.
  Lemma step_add_s i k v w D T : parse_ieml i = Ok i -> svalue k v = Some w -> mstep (D, T) (AddStructure i k v) = (D, (T ++ [(i, k, w)])%list).
  Proof. intros H E. cbn [spec_step]. rewrite H, E. reflexivity. Qed.
  Lemma steps_remove_d l D T : Forall (fun i => parse_ieml i = Ok i) l ->
    fold_left mstep (map (fun i => RemoveDescriptor i None None None) l) (D, T) = (fold_left (fun D i => keep_d i D) l D, T).
  Proof.
    revert D. induction l as [|i l IH]; intros D H; [reflexivity|]. inversion H; subst. cbn [map fold_left]. rewrite step_remove_d by assumption. apply IH. assumption.
  Qed.
  (** The texts given to add_morpheme_paradigm. *)
  Definition text_calls (i : string) (translations comments : string -> list string) : list op :=
    flat_map (fun l => (map (AddDescriptor i l "translations") (translations l) ++ map (AddDescriptor i l "comments") (comments l))%list) LANGUAGES.
  Lemma add_texts_given i tr co : add_texts i (fun l => Some (tr l)) (fun l => Some (co l)) = map (@Ok op) (text_calls i tr co).
  Proof. unfold add_texts, text_calls, LANGUAGES. cbn [flat_map]. rewrite !app_nil_r, !map_app, !map_map. reflexivity. Qed.
  Definition text_records (i : string) (translations comments : string -> list string) : list drecord :=
    flat_map (fun l => (map (fun v => (i, l, "translations", v)) (clean_texts (translations l)) ++ map (fun v => (i, l, "comments", v)) (clean_texts (comments l)))%list) LANGUAGES.
  Lemma text_calls_spec i tr co D T : parse_ieml i = Ok i ->
    fold_left mstep (text_calls i tr co) (D, T) = ((D ++ text_records i tr co)%list, T).
  Proof.
    intros H. unfold text_calls, text_records, LANGUAGES. cbn [flat_map]. rewrite !app_nil_r, !fold_left_app, !adds_spec by (auto; simpl; auto).
    rewrite <- !app_assoc. reflexivity.
  Qed.
  Lemma text_records_values i tr co i' l d : In l LANGUAGES ->
    values_of (text_records i tr co) i' l d =
      if String.eqb i i' then if String.eqb "translations" d then clean_texts (tr l) else if String.eqb "comments" d then clean_texts (co l) else [] else [].
  Proof.
    intros Hl. unfold text_records. assert (X : values_of (text_records i tr co) i' l d = values_of (text_records i tr co) i' l d) by reflexivity. unfold text_records, LANGUAGES in *. cbn [flat_map] in *. clear X.
    rewrite !values_of_app, !values_of_block. destruct (String.eqb i i'); [|reflexivity]. cbn [andb].
    destruct (String.eqb "translations" d) eqn:E1; [apply String.eqb_eq in E1; subst d|]; destruct Hl as [<-|[<-|[]]]; cbn; rewrite ?app_nil_r; try reflexivity; destruct (String.eqb "comments" d) eqn:E2; cbn; rewrite ?app_nil_r; reflexivity.
  Qed.
  Lemma text_records_ieml i tr co r : In r (text_records i tr co) -> dieml r = i.
  Proof.
    unfold text_records. intros H. apply in_flat_map in H as (l & _ & H). apply in_app_iff in H as [H|H]; apply in_map_iff in H as (v & <- & _); reflexivity.
  Qed.
End Steps.
