(** C40, C41 and C42, continued: what is read after any history, quotes, line breaks and the texts
    pandas takes for missing included, in the layout of the library. *)
From Coq Require Import List String Ascii Bool NArith Arith Lia Permutation.
From Verif Require Import Base Script ScriptParser ScriptStrProofs ScriptSpec ScriptWf Dictionary Database DatabaseSpec DatabaseRefine DatabaseProofs DatabasePath DatabasePathProofs
  Properties1 Properties3 RestrictProofs Properties29 DiffSpec.
Import ListNotations.
Local Open Scope string_scope.

Section Layout.
  Variables (sha : string -> string) (class_of : string -> iclass) (singular : string -> bool) (folder : string).
  Variable parse : string -> res string.
  Notation path := (db_path sha class_of singular folder).

  Lemma layout_incl ops ops0 : incl ops0 ops -> layout parse sha ops -> layout parse sha ops0.
  Proof.
    intros H (L1 & L2 & L3). split; [exact L1|]. split; [exact L2|]. intros i j (o & Ho & Ei) (o' & Ho' & Ej). apply L3; [exists o|exists o']; auto.
  Qed.

  Lemma layout_inv' ops : layout parse sha ops -> Forall (op_ok parse) ops ->
    folder_ok (restrict parse (texts parse ops)) path is_desc_file /\ Inv (restrict parse (texts parse ops)) path (run parse path [] ops) (records parse ops).
  Proof.
    intros (L1 & L2 & L3) Hops. set (parse' := restrict parse (texts parse ops)).
    assert (idem : forall s n, parse s = Ok n -> parse n = Ok n) by (intros s n H; apply (L1 s n H)).
    assert (Sm : forall o, In o ops -> same parse parse' (op_text o)) by (intros o; apply restrict_same).
    assert (ok : folder_ok parse' path is_desc_file).
    { apply C43_layout.
      + intros s n H. apply restrict_ok in H. destruct H as [H E]. split; [|apply (L1 _ _ E)]. apply restrict_ok. split; [|eauto]. apply texts_in in H. destruct H as (o & Ho & [->|H]); apply texts_in; exists o; split; auto. rewrite (idem _ _ H) in E. injection E as <-. auto.
      + intros n H. apply restrict_ok in H. destruct H as [_ H]. exact (L2 _ H).
      + intros i j Hi Hj. apply L3; apply restrict_named; auto. }
    split; [exact ok|].
    assert (Ho' : Forall (op_ok parse') ops). { apply Forall_forall. intros o Ho. apply (op_same parse); [apply Sm; auto|]. rewrite Forall_forall in Hops. auto. }
    pose proof (run_inv parse' path is_desc_file ok ops [] ([], []) (Inv_empty parse' path) Ho') as HI.
    rewrite (run_same parse parse' path idem ops) in HI by auto. rewrite (spec_same parse parse') in HI by auto. exact HI.
  Qed.
  Lemma layout_inv ops : layout parse sha ops -> Forall (op_ok parse) ops ->
    exists parse', folder_ok parse' path is_desc_file /\ Inv parse' path (run parse path [] ops) (records parse ops).
  Proof. intros L H. eexists. exact (layout_inv' ops L H). Qed.

  (** Whatever the values: the values read of a key are those of the records, in order; those
      which pandas takes for missing are read as missing. *)
  Theorem C40_exact : forall fo ops, layout parse sha ops -> file_order fo -> Forall (op_ok parse) ops ->
    let fs := run parse path [] ops in
    (forall i l d, In l LANGUAGES -> In d DESCRIPTORS_CLASS ->
      descriptor_values parse is_desc_file fo fs i l d = Ok (map pandas_cell (values_of (fst (records parse ops)) i l d))) /\
    match get_structure is_desc_file fo fs with
    | Ok rows => snd (records parse ops) <> [] /\ forall i k, structure_values rows i k = svalues_of (snd (records parse ops)) i k
    | Err e => snd (records parse ops) = [] /\ e = ValueError
    end.
  Proof.
    intros fo ops L Hfo Hops fs. destruct (layout_inv ops L Hops) as (parse' & ok & HI). split.
    - intros i l d Hl Hd. rewrite <- (lookup_read parse' path is_desc_file fo fs _ i l d ok HI Hfo Hl Hd).
      unfold descriptor_values. destruct (get_descriptors _ _ _); [|reflexivity]. cbn [bind]. unfold get_values, normalize_key. rewrite !andb_false_r. reflexivity.
    - destruct (read_structure parse' path is_desc_file ok _ _ fo HI Hfo) as [H0 H1]. fold fs in H0, H1.
      destruct (snd (records parse ops)) as [|r T] eqn:ET.
      + rewrite H0 by reflexivity. auto.
      + rewrite <- ET in *. destruct H1 as (rows & Er & F); [congruence|]. rewrite Er. split; [congruence|].
        intros i k. unfold structure_values, svalues_of. f_equal.
        specialize (F i (fun r => let '(_, k', _) := r in String.eqb k' k)).
        etransitivity; [|etransitivity; [exact F|]]; apply filter_ext_in_; intros [[i' k'] v'] _; unfold sieml; simpl; reflexivity.
  Qed.

  Lemma records_app ops o : records parse (ops ++ [o]) = spec_step parse LANGUAGES DESCRIPTORS_CLASS svalue kept same_or_quoted (records parse ops) o.
  Proof. unfold records, spec_run. rewrite fold_left_app. reflexivity. Qed.

  Lemma one_line_fixed v : one_line v = v -> ~ occurs "010" v.
  Proof. intros E. rewrite <- E. apply one_line_no_nl. Qed.

  (** Adding one more value adds one value to the end of its key, and to no other; it is read as
      the value given without its surrounding blanks exactly when it has no line break and pandas
      does not take it for missing. *)
  Theorem C42_added_exact : forall fo ops t i l d v, layout parse sha (ops ++ [AddDescriptor t l d v]) -> file_order fo ->
    Forall (op_ok parse) (ops ++ [AddDescriptor t l d v]) -> parse t = Ok i -> In l LANGUAGES -> In d DESCRIPTORS_CLASS ->
    let values ops := descriptor_values parse is_desc_file fo (run parse path [] ops) in
    exists before, values ops i l d = Ok before /\
      (normalize_value v = "" -> values (ops ++ [AddDescriptor t l d v])%list i l d = Ok before) /\
      (normalize_value v <> "" -> exists x, values (ops ++ [AddDescriptor t l d v])%list i l d = Ok (before ++ [x])%list /\
         (x = Some (normalize_value v) <-> ~ occurs "010" (normalize_value v) /\ ~ In (normalize_value v) NA_VALUES)) /\
      (forall i' l' d', In l' LANGUAGES -> In d' DESCRIPTORS_CLASS -> (i', l', d') <> (i, l, d) ->
         values (ops ++ [AddDescriptor t l d v])%list i' l' d' = values ops i' l' d').
  Proof.
    intros fo ops t i l d v L Hfo Hops Hi Hl Hd values.
    assert (L0 : layout parse sha ops) by (apply (layout_incl (ops ++ [AddDescriptor t l d v])); [intros o Ho; apply in_app_iff; auto|exact L]).
    assert (H0 : Forall (op_ok parse) ops) by (apply Forall_app in Hops; tauto).
    destruct (C40_exact fo ops L0 Hfo H0) as [R0 _]. destruct (C40_exact fo _ L Hfo Hops) as [R1 _]. unfold values. clear values.
    rewrite (R0 i l d Hl Hd). eexists. split; [reflexivity|].
    rewrite (R1 i l d Hl Hd).
    assert (E : forall i' l' d', values_of (fst (records parse (ops ++ [AddDescriptor t l d v]))) i' l' d' =
      (values_of (fst (records parse ops)) i' l' d' ++ if (String.eqb (kept v) "" || negb (String.eqb i i' && String.eqb l l' && String.eqb d d'))%bool then [] else [kept v])%list).
    { intros i' l' d'. rewrite records_app. destruct (records parse ops) as [D T]. cbn [spec_step fst]. rewrite Hi.
      assert (mem l LANGUAGES = true) as -> by (apply existsb_exists; exists l; split; [exact Hl|apply String.eqb_refl]).
      assert (mem d DESCRIPTORS_CLASS = true) as -> by (apply existsb_exists; exists d; split; [exact Hd|apply String.eqb_refl]).
      cbn [andb]. destruct (String.eqb (kept v) ""); cbn [negb fst orb]; [now rewrite app_nil_r|].
      unfold values_of. rewrite filter_app, map_app. f_equal. cbn [filter]. destruct (String.eqb i i' && String.eqb l l' && String.eqb d d')%bool; reflexivity. }
    split; [|split].
    - intros N. rewrite E. unfold kept. rewrite N. cbn [one_line String.eqb orb]. now rewrite app_nil_r.
    - intros N. rewrite E, !String.eqb_refl. destruct (String.eqb_spec (kept v) "") as [K|K]; [apply (proj1 (one_line_empty _)) in K; contradiction|].
      cbn [orb andb negb]. rewrite map_app. eexists. split; [reflexivity|].
      unfold pandas_cell, kept. destruct (inb _ NA_VALUES) eqn:I1.
      + split; [discriminate|]. intros [A B]. rewrite (one_line_id _ A) in I1. apply inb_In in I1. contradiction.
      + split.
        * intros [= A]. rewrite A in I1. split; [now apply one_line_fixed|]. intros B. apply inb_In in B. congruence.
        * intros [A _]. now rewrite (one_line_id _ A).
    - intros i' l' d' Hl' Hd' N. rewrite (R0 i' l' d' Hl' Hd'), (R1 i' l' d' Hl' Hd'), E. f_equal. f_equal.
      destruct (String.eqb_spec i i') as [->|]; [|now rewrite orb_true_r, app_nil_r].
      destruct (String.eqb_spec l l') as [->|]; [|now rewrite orb_true_r, app_nil_r].
      destruct (String.eqb_spec d d') as [->|]; [congruence|now rewrite orb_true_r, app_nil_r].
  Qed.

  (** Removing: the keys selected keep the values which are not removed, in order; the other keys
      are as they were. *)
  Theorem C41_removed_exact : forall fo ops t i l d v, layout parse sha (ops ++ [RemoveDescriptor t l d v]) -> file_order fo ->
    Forall (op_ok parse) (ops ++ [RemoveDescriptor t l d v]) -> parse t = Ok i ->
    let texts ops := stored is_desc_file fo (run parse path [] ops) in
    forall i' l' d', exists before, texts ops i' l' d' = Ok before /\
      texts (ops ++ [RemoveDescriptor t l d v])%list i' l' d' =
      Ok (if (String.eqb i i' && selects l l' && selects d d')%bool
          then match v with None => [] | Some v => filter (fun x => negb (same_or_quoted (kept v) x)) before end else before).
  Proof.
    intros fo ops t i l d v L Hfo Hops Hi texts i' l' d'.
    assert (L0 : layout parse sha ops) by (apply (layout_incl (ops ++ [RemoveDescriptor t l d v])); [intros o Ho; apply in_app_iff; auto|exact L]).
    assert (H0 : Forall (op_ok parse) ops) by (apply Forall_app in Hops; tauto).
    destruct (layout_inv _ L0 H0) as (p0 & ok0 & I0). destruct (layout_inv _ L Hops) as (p1 & ok1 & I1).
    exists (values_of (fst (records parse ops)) i' l' d'). unfold texts. split; [exact (stored_read _ _ _ _ _ _ _ _ _ ok0 I0 Hfo)|].
    rewrite (stored_read _ _ _ _ _ _ _ _ _ ok1 I1 Hfo). f_equal. rewrite records_app. destruct (records parse ops) as [D T]. cbn [spec_step fst]. rewrite Hi. cbn [fst].
    rewrite (values_of_filter D i' l' d' (fun i' l' d' v' => negb (String.eqb i i' && selects l l' && selects d d' && selects_value kept same_or_quoted v v'))).
    destruct (String.eqb i i' && selects l l' && selects d d')%bool; cbn [andb].
    - destruct v as [v|]; [reflexivity|]. apply filter_none. reflexivity.
    - apply filter_all. reflexivity.
  Qed.
End Layout.
Print Assumptions C40_exact.
Print Assumptions C42_added_exact.
Print Assumptions C41_removed_exact.

(** Values with quotes, with a line break, and one which is taken for missing. *)
Definition history42 : list op :=
  [AddDescriptor "wa." "en" "comments" " say ""act"" "; AddDescriptor "wo.+wa." "en" "comments" "first";
   AddDescriptor "wa." "en" "comments" (String "a" (String "010" "b")); AddDescriptor "wa." "en" "comments" "say"; AddDescriptor "wa." "fr" "comments" "a\nb"].
Notation path42 := (db_path toy_digest (fun _ => CMorpheme) one85 "/db").
Notation read42 := (fun ops => descriptor_values script_text is_desc_file (@rev _) (run script_text path42 [] ops)).
Lemma short42 ops : (forall o, In o ops -> op_text o = "wa." \/ op_text o = "wo.+wa.") -> layout script_text toy_digest ops.
Proof.
  intros H. apply C85_scripts_layout.
  - intros t. unfold toy_digest. destruct (String.eqb _ _); intros O; apply existsb_occurs in O; vm_compute in O; discriminate.
  - intros i j (o & Ho & E) _ N. exfalso. revert N. destruct (H o Ho) as [X|X]; rewrite X in E; vm_compute in E; injection E as <-; apply Nat.le_ngt, Nat.leb_le; reflexivity.
Qed.
Lemma ok42 ops : (forall o, In o ops -> match o with AddDescriptor t _ _ v => (t = "wa." \/ t = "wo.+wa.") /\ ~ occurs "013" v | _ => False end) ->
  layout script_text toy_digest ops /\ Forall (op_ok script_text) ops.
Proof.
  intros H. split; [apply short42; intros o Ho; apply H in Ho; destruct o; try contradiction; apply Ho|].
  apply Forall_forall. intros o Ho. apply H in Ho. destruct o as [t l d v| | |]; try contradiction. destruct Ho as [X Y]. split; [|exact Y].
  intros n. destruct X as [->| ->]; vm_compute; intros [= <-]; plain_tac.
Qed.
Example C42_added_case :
  (layout script_text toy_digest history42 /\ Forall (op_ok script_text) history42) /\
  (layout script_text toy_digest (history42 ++ [AddDescriptor "wa." "en" "comments" "N/A"])%list /\ Forall (op_ok script_text) (history42 ++ [AddDescriptor "wa." "en" "comments" "N/A"])%list) /\
  read42 history42 "wa." "en" "comments" = Ok [Some "say ""act"""; Some "a\nb"; Some "say"] /\
  read42 (history42 ++ [AddDescriptor "wa." "en" "comments" "N/A"])%list "wa." "en" "comments" = Ok [Some "say ""act"""; Some "a\nb"; Some "say"; None] /\
  read42 (history42 ++ [AddDescriptor "wa." "en" "comments" "N/A"])%list "wa." "fr" "comments" = Ok [Some "a\nb"] /\
  stored is_desc_file (@rev _) (run script_text path42 [] (history42 ++ [RemoveDescriptor "wa." (Some "en") (Some "comments") (Some "say")])%list) "wa." "en" "comments"
    = Ok ["say ""act"""; "a\nb"].
Proof.
  assert (A : forall o, In o (history42 ++ [AddDescriptor "wa." "en" "comments" "N/A"])%list -> match o with AddDescriptor t _ _ v => (t = "wa." \/ t = "wo.+wa.") /\ ~ occurs "013" v | _ => False end).
  { intros o Ho. cbn in Ho. repeat (destruct Ho as [<-|Ho]; [split; [auto|intros O; apply existsb_occurs in O; vm_compute in O; discriminate]|]). destruct Ho. }
  split; [apply ok42; intros o Ho; apply A, in_app_iff; auto|]. split; [apply ok42, A|]. repeat split; vm_compute; reflexivity.
Qed.
