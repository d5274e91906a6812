(** Properties of the database of descriptors: C40-C44. *)
From Coq Require Import List String Ascii Bool NArith Arith Lia Permutation.
From Verif Require Import Base Script ScriptParser ScriptStrProofs ScriptWf ScriptSpec ScriptSeqProofs ScriptParseProofs Database DatabasePath
  DatabaseSpec DatabaseProofs DatabaseRefine DatabasePathProofs Properties1.
Import ListNotations.
Local Open Scope string_scope.

(** The order in which the files are listed is arbitrary. *)
Definition file_order (fo : fsys -> fsys) : Prop := forall l, Permutation (fo l) l.

(** A folder where expressions are scripts and the file of an expression has its name. *)
Definition script_text (t : string) : res string := do s <- parse ident t; Ok (str s).
Definition simple_path (b : bool) (i : string) : string := i ++ ext b.
Lemma simple_folder : folder_ok script_text simple_path is_desc_file.
Proof.
  constructor.
  - unfold script_text. intros s n. destruct (parse ident s) as [r|] eqn:E; [|discriminate]. simpl. intros [= <-].
    destruct (C13_parser_normalises ident s r set_order_id E) as (_ & r' & E' & H). rewrite E'. simpl. f_equal. exact H.
  - intros n. vm_compute. discriminate.
  - intros b b' i j _ _ E. unfold simple_path in E. apply string_app_eq_r in E; [|destruct b, b'; reflexivity].
    destruct E as [-> E]. split; [|reflexivity]. destruct b, b'; try reflexivity; discriminate.
  - intros b i _. unfold simple_path. rewrite is_desc_app by (destruct b; reflexivity). destruct b; reflexivity.
Qed.

(** * C40 *)
(** The descriptor database as a multimap: a value is kept without its surrounding
    blanks, and a removed value is exactly the value given. *)
Definition multimap (parse : string -> res string) (ops : list op) : state :=
  spec_run parse LANGUAGES DESCRIPTORS_CLASS svalue normalize_value String.eqb ([], []) ops.

(** Values on one line, without quotes, that pandas does not read as missing. *)
Definition plain_op (parse : string -> res string) (o : op) : Prop :=
  op_ok parse o /\
  match o with
  | AddDescriptor _ _ _ v => plain v /\ ~ In (normalize_value v) NA_VALUES
  | RemoveDescriptor _ _ _ (Some v) => plain v
  | _ => True
  end.

Lemma plain_kept v : plain v -> kept v = normalize_value v /\ ~ occurs """" (normalize_value v).
Proof.
  intros (Hq & Hn & _). split.
  - unfold kept. apply one_line_id. intros C. apply Hn. apply (strip_sub py_space). exact C.
  - intros C. apply Hq. apply (strip_sub py_space). exact C.
Qed.

(** On such calls both specifications agree. *)
Lemma multimap_run parse ops : Forall (plain_op parse) ops ->
  spec_run parse LANGUAGES DESCRIPTORS_CLASS svalue kept same_or_quoted ([], []) ops = multimap parse ops /\
  Forall (fun r => ~ occurs """" (snd r) /\ ~ In (snd r) NA_VALUES) (fst (multimap parse ops)).
Proof.
  unfold multimap, spec_run. rewrite <- (rev_involutive ops). induction (rev ops) as [|o l IH]; intros H.
  - split; [reflexivity|constructor].
  - simpl in *. apply Forall_app in H. destruct H as [H Ho]. destruct (IH H) as [E F]. clear IH H.
    inversion_clear Ho as [|? ? [_ Hp] _]. rewrite !fold_left_app. simpl. rewrite E. clear E.
    destruct (fold_left _ (rev l) _) as [D T]. simpl in F.
    destruct o as [i ln d v|i ln d v|i k v|i k v]; simpl.
    + destruct Hp as [Hp Hna]. destruct (plain_kept v Hp) as [-> Hq]. destruct (parse i) as [n|]; [|auto].
      destruct (_ && _)%bool; [|auto]. split; [reflexivity|]. simpl. apply Forall_app. split; [auto|]. constructor; auto.
    + destruct (parse i) as [n|]; [|auto]. split.
      * f_equal. apply filter_ext_in_. intros [[[i' l'] d'] v'] Hin. f_equal. f_equal.
        destruct v as [v|]; [|reflexivity]. simpl. destruct (plain_kept v Hp) as [-> _].
        apply same_or_quoted_plain. rewrite Forall_forall in F. apply (F _ Hin).
      * simpl. rewrite Forall_forall in *. intros r Hr. apply filter_In in Hr. apply F. tauto.
    + destruct (parse i) as [n|]; [|auto]. destruct (svalue k v); auto.
    + destruct (parse i) as [n|]; auto.
Qed.

Lemma inb_false x l : ~ In x l -> inb x l = false.
Proof. intros H. destruct (inb x l) eqn:E; [apply inb_In in E; contradiction|reflexivity]. Qed.

Lemma lookup_read parse path is_desc fo fs st i l d : folder_ok parse path is_desc -> Inv parse path fs st -> file_order fo ->
  In l LANGUAGES -> In d DESCRIPTORS_CLASS ->
  descriptor_values parse is_desc fo fs i l d = Ok (map pandas_cell (values_of (fst st) i l d)).
Proof.
  intros ok HI Hfo Hl Hd. destruct (read_d parse path is_desc ok fs st fo HI Hfo) as (rows & E & _ & F).
  unfold descriptor_values. rewrite E. cbn [bind]. unfold get_values.
  assert (normalize_key parse false i (Some l) (Some d) false false = Ok (i, Some l, Some d)) as ->.
  { unfold normalize_key. rewrite andb_false_r. destruct Hl as [<-|[<-|[]]], Hd as [<-|[<-|[<-|[<-|[]]]]]; reflexivity. }
  cbn [bind]. unfold values_of. rewrite map_map. do 2 f_equal.
  specialize (F i (fun r => let '(_, l', d', _) := r in (String.eqb l' l && String.eqb d' d)%bool)).
  etransitivity; [|etransitivity; [exact F|]]; apply filter_ext_in_; intros [[[i' l'] d'] v'] _; unfold dieml; simpl;
  rewrite andb_assoc; reflexivity.
Qed.

(** After any history of calls, for any order of the files, a key has exactly the values
    added and not removed since, in order of addition. Partial: the values are on one
    line and without quotes, and are not texts that pandas reads as missing; the
    expressions are without quotes; a value to remove comes with its language and class. *)
Theorem C40_database_is_a_multimap_partial : forall parse path is_desc fo ops,
  folder_ok parse path is_desc -> file_order fo -> Forall (plain_op parse) ops ->
  forall i l d, In l LANGUAGES -> In d DESCRIPTORS_CLASS ->
    descriptor_values parse is_desc fo (run parse path [] ops) i l d
    = Ok (map Some (values_of (fst (multimap parse ops)) i l d)).
Proof.
  intros parse path is_desc fo ops ok Hfo Hops i l d Hl Hd.
  assert (Hok : Forall (op_ok parse) ops) by (eapply Forall_impl; [|exact Hops]; intros o [H _]; exact H).
  pose proof (run_inv parse path is_desc ok ops [] ([], []) (Inv_empty parse path) Hok) as HI.
  destruct (multimap_run parse ops Hops) as [E F]. rewrite E in HI.
  rewrite (lookup_read parse path is_desc fo _ _ i l d ok HI Hfo Hl Hd). f_equal. apply map_ext_in.
  intros v Hv. unfold values_of in Hv. apply in_map_iff in Hv. destruct Hv as (r & <- & Hr). apply filter_In in Hr.
  rewrite Forall_forall in F. unfold pandas_cell. rewrite inb_false; [reflexivity|]. apply F. tauto.
Qed.
Print Assumptions C40_database_is_a_multimap_partial.

(** The same of the structure files, with no restriction on the values. A structure without
    any row cannot be read. *)
Theorem C40_structure_is_a_multimap : forall parse path is_desc fo ops,
  folder_ok parse path is_desc -> file_order fo -> Forall (plain_op parse) ops ->
  match get_structure is_desc fo (run parse path [] ops) with
  | Ok rows => snd (multimap parse ops) <> [] /\
               forall i k, structure_values rows i k = svalues_of (snd (multimap parse ops)) i k
  | Err e => snd (multimap parse ops) = [] /\ e = ValueError
  end.
Proof.
  intros parse path is_desc fo ops ok Hfo Hops.
  assert (Hok : Forall (op_ok parse) ops) by (eapply Forall_impl; [|exact Hops]; intros o [H _]; exact H).
  pose proof (run_inv parse path is_desc ok ops [] ([], []) (Inv_empty parse path) Hok) as HI.
  destruct (multimap_run parse ops Hops) as [E _]. rewrite E in HI.
  destruct (read_structure parse path is_desc ok _ _ fo HI Hfo) as [H0 H1].
  destruct (snd (multimap parse ops)) as [|r T] eqn:ET.
  - rewrite H0 by reflexivity. auto.
  - rewrite <- ET in *. destruct H1 as (rows & Er & F); [congruence|]. rewrite Er. split; [congruence|].
    intros i k. unfold structure_values, svalues_of. f_equal.
    specialize (F i (fun r => let '(_, k', _) := r in String.eqb k' k)).
    etransitivity; [|etransitivity; [exact F|]]; apply filter_ext_in_; intros [[i' k'] v'] _; unfold sieml; simpl; reflexivity.
Qed.
Print Assumptions C40_structure_is_a_multimap.

(** Reading one key with Structure.get_values raises when no key has two values. *)
Theorem C40_structure_get_values_refuted : exists rows,
  get_structure is_desc_file (fun l => l) (run script_text simple_path [] [AddStructure "wa.+wo." "is_root" "TRUE"]) = Ok rows /\
  structure_values rows "wo.+wa." "is_root" = ["True"] /\ structure_get_values rows "wo.+wa." "is_root" = Err TypeError.
Proof. eexists. split; [vm_compute; reflexivity|]. split; vm_compute; reflexivity. Qed.
Print Assumptions C40_structure_get_values_refuted.

Definition history : list op :=
  [AddDescriptor "wa." "en" "translations" " act in view of a goal ";
   AddDescriptor "wo.+wa." "en" "translations" "first";
   AddDescriptor "wa.+wo." "en" "translations" "second";
   AddDescriptor "wa." "fr" "tags" "agir";
   AddDescriptor "wa." "en" "translations" "to act";
   AddStructure "wa.+wo." "is_root" "TRUE";
   RemoveDescriptor "wa." (Some "en") (Some "translations") (Some "act in view of a goal");
   RemoveDescriptor "wo.+wa." (Some "en") None None;
   AddDescriptor "wa.+wo." "en" "translations" "third"].

Ltac plain_tac := unfold plain, occurs; simpl; repeat split; intuition discriminate.
Example C40_case : Forall (plain_op script_text) history /\
  descriptor_values script_text is_desc_file (@rev _) (run script_text simple_path [] history) "wa." "en" "translations"
  = Ok [Some "to act"] /\
  descriptor_values script_text is_desc_file (@rev _) (run script_text simple_path [] history) "wo.+wa." "en" "translations"
  = Ok [Some "third"].
Proof.
  assert (Hw : forall n, script_text "wa." = Ok n -> plain n).
  { intros n. vm_compute. intros [= <-]. plain_tac. }
  assert (Hw2 : forall n, script_text "wo.+wa." = Ok n -> plain n).
  { intros n. vm_compute. intros [= <-]. plain_tac. }
  assert (Hw3 : forall n, script_text "wa.+wo." = Ok n -> plain n).
  { intros n. vm_compute. intros [= <-]. plain_tac. }
  split; [|split; vm_compute; reflexivity].
  unfold history.
  repeat (apply Forall_cons; [split; [split; [assumption|]|]; try (vm_compute; repeat split; intuition discriminate)|]).
  constructor.
Qed.

(** * C41 *)
(** The values of a key as they are in the files. *)
Definition stored (is_desc : string -> bool) (fo : fsys -> fsys) (fs : fsys) (i l d : string) : res (list string) :=
  do rows <- get_descriptors is_desc fo fs; Ok (values_of rows i l d).

Lemma stored_read parse path is_desc fo fs st i l d : folder_ok parse path is_desc -> Inv parse path fs st -> file_order fo ->
  stored is_desc fo fs i l d = Ok (values_of (fst st) i l d).
Proof.
  intros ok HI Hfo. destruct (read_d parse path is_desc ok fs st fo HI Hfo) as (rows & E & _ & F).
  unfold stored. rewrite E. cbn [bind]. unfold values_of. do 2 f_equal.
  specialize (F i (fun r => let '(_, l', d', _) := r in (String.eqb l' l && String.eqb d' d)%bool)).
  etransitivity; [|etransitivity; [exact F|]]; apply filter_ext_in_; intros [[[i' l'] d'] v'] _; unfold dieml; simpl;
  rewrite andb_assoc; reflexivity.
Qed.

Lemma values_of_filter D i l d (P : string -> string -> string -> string -> bool) :
  values_of (filter (fun r => let '(i', l', d', v') := r in P i' l' d' v') D) i l d = filter (P i l d) (values_of D i l d).
Proof.
  unfold values_of. rewrite filter_map, !filter_filter. f_equal. apply filter_ext_in_.
  intros [[[i' l'] d'] v'] _. simpl.
  destruct (String.eqb_spec i' i) as [->|]; [|rewrite !andb_false_r; reflexivity].
  destruct (String.eqb_spec l' l) as [->|]; [|rewrite !andb_false_r; reflexivity].
  destruct (String.eqb_spec d' d) as [->|]; [|rewrite !andb_false_r; reflexivity].
  simpl. rewrite andb_true_r. reflexivity.
Qed.

(** Whatever the arguments left out, a removal leaves the other keys as they were. *)
Theorem C41_other_keys_are_untouched : forall parse path is_desc fo ops t i l d v i' l' d',
  folder_ok parse path is_desc -> file_order fo -> Forall (op_ok parse) ops ->
  op_ok parse (RemoveDescriptor t l d v) -> parse t = Ok i ->
  i' <> i \/ selects l l' = false \/ selects d d' = false ->
  let fs := run parse path [] ops in
  stored is_desc fo (exec_step parse path fs (RemoveDescriptor t l d v)) i' l' d' = stored is_desc fo fs i' l' d'.
Proof.
  intros parse path is_desc fo ops t i l d v i' l' d' ok Hfo Hops Ho Hi Hne fs.
  pose proof (run_inv parse path is_desc ok ops [] ([], []) (Inv_empty parse path) Hops) as HI. fold fs in HI.
  pose proof (step_inv parse path is_desc ok fs _ _ HI Ho) as HI'.
  rewrite (stored_read _ _ _ _ _ _ _ _ _ ok HI Hfo), (stored_read _ _ _ _ _ _ _ _ _ ok HI' Hfo).
  destruct (spec_run _ _ _ _ _ _ _ ops) as [D T]. cbn [spec_step fst snd]. rewrite Hi. cbn [fst]. f_equal.
  rewrite (values_of_filter D i' l' d' (fun i' l' d' v' =>
    negb (String.eqb i i' && selects l l' && selects d d' && selects_value kept same_or_quoted v v'))).
  apply filter_all. intros x _. destruct Hne as [H|[H|H]].
  - destruct (String.eqb_spec i i'); [congruence|]. reflexivity.
  - rewrite H, andb_false_r. reflexivity.
  - rewrite H, andb_false_r. reflexivity.
Qed.
Print Assumptions C41_other_keys_are_untouched.

(** Of the selected keys, the removal of a value removes it and, wrongly, the values that
    go on with a quote; without a value everything goes. The values left keep their order. *)
Theorem C41_removed_values_partial : forall parse path is_desc fo ops t i l d v l' d',
  folder_ok parse path is_desc -> file_order fo -> Forall (op_ok parse) ops ->
  op_ok parse (RemoveDescriptor t l d v) -> parse t = Ok i ->
  selects l l' = true -> selects d d' = true ->
  let fs := run parse path [] ops in
  exists before, stored is_desc fo fs i l' d' = Ok before /\
    stored is_desc fo (exec_step parse path fs (RemoveDescriptor t l d v)) i l' d' =
    Ok (match v with
        | None => []
        | Some v => filter (fun x => negb (same_or_quoted (kept v) x)) before
        end).
Proof.
  intros parse path is_desc fo ops t i l d v l' d' ok Hfo Hops Ho Hi Hl Hd fs.
  pose proof (run_inv parse path is_desc ok ops [] ([], []) (Inv_empty parse path) Hops) as HI. fold fs in HI.
  pose proof (step_inv parse path is_desc ok fs _ _ HI Ho) as HI'.
  rewrite (stored_read _ _ _ _ _ _ _ _ _ ok HI Hfo), (stored_read _ _ _ _ _ _ _ _ _ ok HI' Hfo).
  destruct (spec_run _ _ _ _ _ _ _ ops) as [D T]. cbn [spec_step fst snd]. rewrite Hi. cbn [fst].
  eexists. split; [reflexivity|]. f_equal.
  rewrite (values_of_filter D i l' d' (fun i' l' d' v' =>
    negb (String.eqb i i' && selects l l' && selects d d' && selects_value kept same_or_quoted v v'))).
  rewrite String.eqb_refl, Hl, Hd. cbn [andb]. destruct v as [v|]; [reflexivity|].
  apply filter_none. reflexivity.
Qed.
Print Assumptions C41_removed_values_partial.

Theorem C41_same_or_quoted_meaning : forall v x,
  same_or_quoted v x = true <-> x = v \/ exists r, x = v ++ """" ++ r.
Proof.
  intros v x. unfold same_or_quoted. rewrite orb_true_iff, String.eqb_eq.
  assert (String.prefix (v ++ """") x = true <-> exists r, x = v ++ """" ++ r) as ->; [|split; intros [H|H]; auto].
  split.
  - intros H. exists (substring (String.length (v ++ """")) (String.length x - String.length (v ++ """")) x).
    rewrite <- string_app_assoc.
    remember (v ++ """") as p eqn:E. clear E v. revert x H. induction p as [|c p IH]; intros x H.
    + simpl. rewrite Nat.sub_0_r. clear. induction x as [|c x IH]; [reflexivity|]. simpl. f_equal. exact IH.
    + destruct x as [|c' x]; [discriminate|]. rewrite prefix_cons in H. apply andb_true_iff in H. destruct H as [Hc H].
      apply Ascii.eqb_eq in Hc. subst. simpl. f_equal. apply IH. exact H.
  - intros [r ->]. rewrite <- string_app_assoc. clear. induction (v ++ """") as [|c p IH]; [apply prefix_nil|].
    simpl append. rewrite prefix_cons, Ascii.eqb_refl. exact IH.
Qed.
Print Assumptions C41_same_or_quoted_meaning.

Definition example_ops : list op :=
  [AddDescriptor "wa." "en" "comments" "abc"; AddDescriptor "wa." "en" "comments" "abc""def";
   AddDescriptor "wa." "en" "comments" "abcd"; AddDescriptor "wa." "fr" "comments" "abc"].
Notation stored_texts := (stored is_desc_file (fun l => l)).
Notation after ops := (run script_text simple_path [] ops).

Example C41_case : Forall (op_ok script_text) example_ops /\
  op_ok script_text (RemoveDescriptor "wa." (Some "en") (Some "comments") (Some "abcd")) /\
  stored_texts (after (example_ops ++ [RemoveDescriptor "wa." (Some "en") (Some "comments") (Some "abcd")])%list) "wa." "en" "comments"
  = Ok ["abc"; "abc""def"] /\
  stored_texts (after (example_ops ++ [RemoveDescriptor "wa." (Some "en") (Some "comments") (Some "abcd")])%list) "wa." "fr" "comments"
  = Ok ["abc"].
Proof.
  assert (Hw : forall n, script_text "wa." = Ok n -> plain n).
  { intros n. vm_compute. intros [= <-]. plain_tac. }
  split; [|split; [split; [assumption|intros _; split; discriminate]|split; vm_compute; reflexivity]].
  unfold example_ops.
  repeat (apply Forall_cons; [split; [assumption|vm_compute; intuition discriminate]|]). constructor.
Qed.

(** Removing a value also removes the values that start with it and a quote. *)
Theorem C41_quoted_value_refuted : exists ops,
  stored_texts (after ops) "wa." "en" "comments" = Ok ["abc"; "abc""def"] /\
  stored_texts (after (ops ++ [RemoveDescriptor "wa." (Some "en") (Some "comments") (Some "abc")])%list) "wa." "en" "comments"
  = Ok [].
Proof.
  exists [AddDescriptor "wa." "en" "comments" "abc"; AddDescriptor "wa." "en" "comments" "abc""def"].
  split; vm_compute; reflexivity.
Qed.
Print Assumptions C41_quoted_value_refuted.

(** Removing a value in all languages removes every value. *)
Theorem C41_value_in_all_languages_refuted : exists ops,
  stored_texts (after ops) "wa." "en" "comments" = Ok ["abc"; "other"] /\
  stored_texts (after (ops ++ [RemoveDescriptor "wa." None (Some "comments") (Some "abc")])%list) "wa." "en" "comments"
  = Ok [].
Proof.
  exists [AddDescriptor "wa." "en" "comments" "abc"; AddDescriptor "wa." "en" "comments" "other"].
  split; vm_compute; reflexivity.
Qed.
Print Assumptions C41_value_in_all_languages_refuted.

(** Removing one value changes another one that contains a carriage return. *)
Theorem C41_carriage_return_refuted : exists ops,
  stored_texts (after ops) "wa." "en" "comments" = Ok [String "a" (String "013" "b"); "x"] /\
  stored_texts (after (ops ++ [RemoveDescriptor "wa." (Some "en") (Some "comments") (Some "x")])%list) "wa." "en" "comments"
  = Ok [String "a" (String "010" "b")].
Proof.
  exists [AddDescriptor "wa." "en" "comments" (String "a" (String "013" "b")); AddDescriptor "wa." "en" "comments" "x"].
  split; vm_compute; reflexivity.
Qed.
Print Assumptions C41_carriage_return_refuted.

(** The values of an expression containing quotes cannot be removed by key. *)
Definition any_text (t : string) : res string := if String.eqb t "" then Err CannotParse else Ok t.
Theorem C41_quoted_expression_refuted : exists i ops,
  stored is_desc_file (fun l => l) (run any_text simple_path [] ops) i "en" "comments" = Ok ["x"] /\
  stored is_desc_file (fun l => l)
    (run any_text simple_path [] (ops ++ [RemoveDescriptor i (Some "en") (Some "comments") None])%list) i "en" "comments"
  = Ok ["x"].
Proof.
  exists "[wa. ""act""]", [AddDescriptor "[wa. ""act""]" "en" "comments" "x"].
  split; vm_compute; reflexivity.
Qed.
Print Assumptions C41_quoted_expression_refuted.

(** * C42 *)
(** A written line is read back as one row, whatever follows it: the expression and the
    value are read as they were, quotes included, but for the line breaks. *)
Theorem C42_lines_are_read_back_partial : forall i l d v rest, word l -> word d ->
  csv_rows (descriptor_line i l d v ++ rest) = [one_line i; l; d; one_line v] :: csv_rows rest.
Proof.
  intros i l d v rest Hl Hd. unfold descriptor_line. rewrite !escape_quote. apply csv_dline; auto.
Qed.
Print Assumptions C42_lines_are_read_back_partial.

(** So a value without line break that pandas does not read as missing is read back. *)
Theorem C42_values_are_read_back_partial : forall i l d v, In l LANGUAGES -> In d DESCRIPTORS_CLASS ->
  ~ occurs "010" i -> ~ occurs "010" v ->
  csv_rows (descriptor_line i l d v) = [[i; l; d; v]] /\
  (~ In v NA_VALUES -> pandas_cell v = Some v).
Proof.
  intros i l d v Hl Hd Hi Hv. split.
  - rewrite <- (string_app_nil (descriptor_line i l d v)), C42_lines_are_read_back_partial by auto using lang_word, desc_word.
    rewrite !one_line_id by auto. reflexivity.
  - intros H. unfold pandas_cell. rewrite inb_false by auto. reflexivity.
Qed.
Print Assumptions C42_values_are_read_back_partial.

Example C42_case : csv_rows (descriptor_line "[wa. ""x""]" "en" "comments" "say ""a b"" ""\n""") =
  [["[wa. ""x""]"; "en"; "comments"; "say ""a b"" ""\n"""]].
Proof. vm_compute. reflexivity. Qed.

Theorem C42_line_break_refuted : exists v, normalize_value v = v /\
  descriptor_values script_text is_desc_file (fun l => l) (after [AddDescriptor "wa." "en" "comments" v]) "wa." "en" "comments"
  <> Ok [Some v].
Proof.
  exists (String "a" (String "010" "b")). split; [reflexivity|]. vm_compute. discriminate.
Qed.
Print Assumptions C42_line_break_refuted.

(** Two values that differ by a line break only are confused. *)
Theorem C42_distinct_values_refuted : exists v v', v <> v' /\ normalize_value v = v /\ normalize_value v' = v' /\
  after [AddDescriptor "wa." "en" "comments" v] = after [AddDescriptor "wa." "en" "comments" v'].
Proof.
  exists (String "a" (String "010" "b")), "a\nb". split; [discriminate|]. repeat split.
Qed.
Print Assumptions C42_distinct_values_refuted.

Theorem C42_missing_value_refuted : exists v, plain v /\ normalize_value v = v /\
  descriptor_values script_text is_desc_file (fun l => l) (after [AddDescriptor "wa." "en" "comments" v]) "wa." "en" "comments"
  = Ok [None].
Proof. exists "null". split; [plain_tac|]. split; vm_compute; reflexivity. Qed.
Print Assumptions C42_missing_value_refuted.

(** * C43 *)
(** Expressions without the characters / and | have distinct paths, provided the first
    ten digits of the digests of long expressions do not collide; a descriptor file is
    never a structure file. *)
Theorem C43_distinct_files : forall sha class_of singular folder b b' i j,
  nameable sha i -> nameable sha j ->
  (100 < String.length i -> 100 < String.length j -> substring 0 10 (sha i) = substring 0 10 (sha j) -> i = j) ->
  db_path sha class_of singular folder b i = db_path sha class_of singular folder b' j -> b = b' /\ i = j.
Proof. intros. eapply db_path_inj; eauto. Qed.
Print Assumptions C43_distinct_files.

Theorem C43_file_names_are_short : forall sha class_of singular folder b i, nameable sha i ->
  String.length (basename (db_path sha class_of singular folder b i)) <= 105.
Proof.
  intros. rewrite path_basename by auto. rewrite length_app. pose proof (filename_length sha i).
  destruct b; simpl ext; simpl String.length; lia.
Qed.
Print Assumptions C43_file_names_are_short.

(** The layout of the folder meets what C40 and C41 ask of it. *)
Theorem C43_layout : forall parse sha class_of singular folder,
  (forall s n, parse s = Ok n -> parse n = Ok n /\ nameable sha n) -> (forall n, parse "" <> Ok n) ->
  (forall i j, parse i = Ok i -> parse j = Ok j -> 100 < String.length i -> 100 < String.length j ->
     substring 0 10 (sha i) = substring 0 10 (sha j) -> i = j) ->
  folder_ok parse (db_path sha class_of singular folder) is_desc_file.
Proof.
  intros parse sha class_of singular folder Hp He Hc. constructor.
  - intros s n H. apply (Hp s n H).
  - exact He.
  - intros b b' i j Hi Hj. apply db_path_inj; [apply (Hp i i Hi)|apply (Hp j j Hj)|]. auto.
  - intros b i Hi. apply db_path_kind. apply (Hp i i Hi).
Qed.
Print Assumptions C43_layout.

(** Two long expressions with the same beginning; the digest is a stand-in. *)
Fixpoint repeat_text (n : nat) (s : string) : string := match n with 0 => "" | S k => s ++ repeat_text k s end.
Definition toy_digest (s : string) : string := if String.eqb (substring 0 3 s) "wa." then "0123456789abcdef" else "fedcba9876543210".
Example C43_case :
  let i := repeat_text 40 "wa." in let j := repeat_text 40 "wo." in
  nameable toy_digest i /\ nameable toy_digest j /\ 100 < String.length i /\ 100 < String.length j /\
  db_path toy_digest (fun _ => CPolymorpheme) (fun _ => true) "/db" true i =
  "/db/polymorpheme/singular/wa.wa/" ++ repeat_text 29 "wa." ++ "wa|0123456789.desc" /\
  db_path toy_digest (fun _ => CMorpheme) (fun _ => false) "/db/" false "wa." = "/db/morpheme/paradigm/wa..ieml".
Proof.
  cbv zeta.
  assert (H : forall c s, existsb (Ascii.eqb c) (list_ascii_of_string s) = false -> ~ occurs c s).
  { intros c s E C. apply existsb_occurs in C. congruence. }
  split; [repeat split; apply H; vm_compute; reflexivity|].
  split; [repeat split; apply H; vm_compute; reflexivity|].
  split; [apply Nat.ltb_lt; vm_compute; reflexivity|]. split; [apply Nat.ltb_lt; vm_compute; reflexivity|].
  split; vm_compute; reflexivity.
Qed.

(** The restriction on / is needed: such an expression names a folder that is not created. *)
Theorem C43_slash_refuted : exists i, basename (db_path toy_digest (fun _ => CWord) (fun _ => true) "/db" true i) <>
  filename_of toy_digest i ++ ".desc".
Proof. exists "a/b". vm_compute. discriminate. Qed.
Print Assumptions C43_slash_refuted.

(** * C44 *)
(** A descriptor is written only with a known language and a known class. *)
Theorem C44_descriptor_keys : forall parse path fs t l d v fs',
  add_descriptor parse path fs t l d v = Ok fs' -> In l LANGUAGES /\ In d DESCRIPTORS_CLASS.
Proof.
  intros parse path fs t l d v fs'. unfold add_descriptor.
  destruct (normalize_key parse true t (Some l) (Some d) false false) as [k|] eqn:E; [|discriminate]. intros _.
  revert E. unfold normalize_key. cbn [orb]. destruct (truthy (Some l)) eqn:Tl; [|discriminate].
  destruct (truthy (Some d)) eqn:Td; [|discriminate]. cbn [andb orb negb].
  destruct (if (negb (String.eqb t "") && true)%bool then parse t else Ok t) as [n|]; [|discriminate]. cbn [bind].
  destruct (inb l LANGUAGES) eqn:El; [|discriminate]. destruct (inb d DESCRIPTORS_CLASS) eqn:Ed; [|discriminate].
  intros _. split; apply inb_In; auto.
Qed.
Print Assumptions C44_descriptor_keys.

(** What a non-empty structure value may be. *)
Definition blank (s : string) : Prop := forall c, occurs c s -> In c [" "; "009"; "010"; "013"]%char.
Definition reads_bool (b : bool) (v : string) : Prop :=
  exists before m after, v = before ++ m ++ after /\ blank before /\ blank after /\
    lower m = if b then "true" else "false".

Definition legal (k v kept : string) : Prop :=
  (k = "inhibition" /\ In v INHIBITABLE_RELATIONS /\ kept = v) \/
  ((k = "is_root" \/ k = "is_ignored") /\
   ((reads_bool true v /\ kept = "True") \/ (reads_bool false v /\ kept = "False"))).

Lemma rstrip_split sp s : exists a, s = rstrip sp s ++ a /\ forall c, occurs c a -> sp c = true.
Proof.
  induction s as [|x s (a & Ha & Hb)]; [exists ""; split; [reflexivity|intros c []]|].
  cbn [rstrip]. destruct (rstrip sp s) as [|y r] eqn:E.
  - destruct (sp x) eqn:Ex.
    + exists (String x s). split; [reflexivity|]. intros c [->|H]; [auto|]. rewrite Ha in H. apply Hb. exact H.
    + exists s. split; [reflexivity|]. rewrite Ha. exact Hb.
  - exists a. split; [|exact Hb]. rewrite Ha at 1. reflexivity.
Qed.
Lemma lstrip_split sp s : exists a, s = a ++ lstrip sp s /\ forall c, occurs c a -> sp c = true.
Proof.
  induction s as [|x s (a & Ha & Hb)]; [exists ""; split; [reflexivity|intros c []]|].
  cbn [lstrip]. destruct (sp x) eqn:Ex.
  - exists (String x a). split; [simpl; congruence|]. intros c [->|H]; auto.
  - exists "". split; [reflexivity|intros c []].
Qed.
Lemma json_space_blank c : json_space c = true <-> In c [" "; "009"; "010"; "013"]%char.
Proof.
  split; [|simpl; intros [<-|[<-|[<-|[<-|[]]]]]; reflexivity].
  destruct c as [[] [] [] [] [] [] [] []]; vm_compute; try discriminate; tauto.
Qed.
Lemma lower_app a b : lower (a ++ b) = lower a ++ lower b.
Proof. induction a as [|x a IH]; [reflexivity|]. simpl. rewrite IH. reflexivity. Qed.
Lemma lower_blank c : json_space (lower_char c) = json_space c.
Proof. destruct c as [[] [] [] [] [] [] [] []]; reflexivity. Qed.
Lemma lower_lstrip s : lstrip json_space (lower s) = lower (lstrip json_space s).
Proof. induction s as [|c s IH]; [reflexivity|]. cbn [lower lstrip]. rewrite lower_blank. destruct (json_space c); [exact IH|reflexivity]. Qed.
Lemma lower_rstrip s : rstrip json_space (lower s) = lower (rstrip json_space s).
Proof.
  induction s as [|c s IH]; [reflexivity|]. cbn [lower rstrip]. rewrite IH, lower_blank.
  destruct (rstrip json_space s); cbn [lower]; [destruct (json_space c); reflexivity|reflexivity].
Qed.
Lemma lstrip_app a b : blank a -> lstrip json_space (a ++ b) = lstrip json_space b.
Proof.
  induction a as [|c a IH]; [reflexivity|]. intros H. simpl append. cbn [lstrip].
  assert (json_space c = true) as -> by (apply json_space_blank; apply H; left; reflexivity).
  apply IH. intros x Hx. apply H. right. exact Hx.
Qed.
Lemma rstrip_blank a : blank a -> rstrip json_space a = "".
Proof.
  induction a as [|c a IH]; [reflexivity|]. intros H. cbn [rstrip]. rewrite IH by (intros x Hx; apply H; right; exact Hx).
  assert (json_space c = true) as -> by (apply json_space_blank; apply H; left; reflexivity). reflexivity.
Qed.
Lemma rstrip_app m a : blank a -> rstrip json_space (m ++ a) = rstrip json_space m.
Proof.
  induction m as [|c m IH]; intros H; [apply rstrip_blank; exact H|]. simpl append. cbn [rstrip]. rewrite IH by auto. reflexivity.
Qed.
Lemma json_bool_reads v b : json_bool v = Some b <-> reads_bool b v.
Proof.
  unfold json_bool, strip. rewrite lower_lstrip, lower_rstrip. split.
  - intros H. destruct (lstrip_split json_space v) as (a & Ha & Ba).
    destruct (rstrip_split json_space (lstrip json_space v)) as (r & Hr & Br).
    exists a, (rstrip json_space (lstrip json_space v)), r. split; [rewrite <- Hr; exact Ha|].
    split; [intros c Hc; apply json_space_blank; auto|]. split; [intros c Hc; apply json_space_blank; auto|].
    destruct (String.eqb_spec (lower (rstrip json_space (lstrip json_space v))) "true"); [injection H as <-; auto|].
    destruct (String.eqb_spec (lower (rstrip json_space (lstrip json_space v))) "false"); [injection H as <-; auto|discriminate].
  - intros (x & m & y & -> & Bx & By & E). rewrite lstrip_app by auto.
    assert (Em : lower (rstrip json_space (lstrip json_space (m ++ y))) = lower m).
    { assert (Hne : m <> "") by (intros ->; destruct b; discriminate).
      assert (Hl : lstrip json_space (m ++ y) = m ++ y).
      { destruct m as [|c m]; [congruence|]. simpl append. cbn [lstrip]. rewrite <- lower_blank.
        cbn [lower] in E. destruct b; injection E as -> _; reflexivity. }
      rewrite Hl, rstrip_app by auto. rewrite <- lower_rstrip, E. destruct b; reflexivity. }
    rewrite Em, E. destruct b; reflexivity.
Qed.

(** add_structure with a non-empty value succeeds exactly on legal keys and values, and
    appends one line; otherwise ValueError is raised and nothing is written. *)
Theorem C44_structure_keys_partial : forall parse path is_desc fs t i k v,
  folder_ok parse path is_desc -> parse t = Ok i -> v <> "" ->
  (exists kept, legal k v kept /\
     add_structure parse path fs t k (Some v) = Ok (fs_append fs (path false i) (structure_line i k (Some kept)))) \/
  ((forall kept, ~ legal k v kept) /\ add_structure parse path fs t k (Some v) = Err ValueError).
Proof.
  intros parse path is_desc fs t i k v ok Hi Hv.
  assert (L : forall kept, svalue k v = Some kept <-> legal k v kept).
  { intros kp. unfold svalue, structure_value, legal. destruct (String.eqb_spec k "inhibition") as [->|Hk].
    - destruct (mem v INHIBITABLE_RELATIONS) eqn:E.
      + apply inb_In in E. split; [intros [= <-]; auto|]. intros [(_ & _ & ->)|([H|H] & _)]; [reflexivity|discriminate|discriminate].
      + split; [discriminate|]. intros [(_ & H & _)|([H|H] & _)]; [|discriminate|discriminate].
        apply inb_In in H. unfold inb in H. unfold mem in E. congruence.
    - destruct (mem k ["is_root"; "is_ignored"]) eqn:E.
      + apply inb_In in E. simpl in E. destruct (json_bool v) as [[]|] eqn:J.
        * assert (reads_bool true v) by (apply json_bool_reads; auto).
          assert (~ reads_bool false v) by (intros C; apply json_bool_reads in C; congruence).
          split; [intros [= <-]; right; split; [intuition|auto]|]. intros [(C & _)|(_ & [(_ & ->)|(C & _)])]; tauto.
        * assert (reads_bool false v) by (apply json_bool_reads; auto).
          assert (~ reads_bool true v) by (intros C; apply json_bool_reads in C; congruence).
          split; [intros [= <-]; right; split; [intuition|auto]|]. intros [(C & _)|(_ & [(C & _)|(_ & ->)])]; tauto.
        * split; [discriminate|]. intros [(C & _)|(_ & [(C & _)|(C & _)])]; [tauto| |]; apply json_bool_reads in C; congruence.
      + split; [discriminate|]. intros [(C & _)|(C & _)]; [tauto|]. exfalso.
        assert (mem k ["is_root"; "is_ignored"] = true); [|congruence]. apply inb_In. simpl. intuition. }
  destruct (string_dec k "") as [->|Hk].
  - right. split; [intros kp [(C & _)|([C|C] & _)]; discriminate|reflexivity].
  - unfold add_structure. rewrite (nk_svalue parse path is_desc ok _ _ _ _ _ Hi Hv Hk).
    destruct (svalue k v) as [kp|] eqn:E.
    + left. exists kp. split; [apply L; auto|]. cbn [bind].
      rewrite (path_of_parsed parse path) by (eapply parse_idem; eauto). reflexivity.
    + right. split; [intros kp C; apply L in C; congruence|]. reflexivity.
Qed.
Print Assumptions C44_structure_keys_partial.

Example C44_case : script_text "O:M:." = Ok "O:M:." /\ legal "is_root" " TRUE" "True" /\ ~ legal "is_root" "1" "1" /\
  add_structure script_text simple_path [] "O:M:." "is_root" (Some " TRUE")
  = Ok [("O:M:..ieml", """O:M:."" is_root ""True""" ++ nl)] /\
  add_structure script_text simple_path [] "O:M:." "is_root" (Some "1") = Err ValueError /\
  add_structure script_text simple_path [] "O:M:." "inhibition" (Some "twins") = Err ValueError /\
  add_descriptor script_text simple_path [] "O:M:." "de" "comments" "x" = Err ValueError.
Proof.
  split; [vm_compute; reflexivity|]. split.
  - right. split; [auto|]. left. split; [|reflexivity]. exists " ", "TRUE", "". split; [reflexivity|].
    split; [intros c [<-|[]]; simpl; auto|]. split; [intros c []|reflexivity].
  - split; [|repeat split; vm_compute; reflexivity].
    intros [(C & _)|(_ & [(C & _)|(C & _)])]; [discriminate| |]; apply json_bool_reads in C; discriminate.
Qed.

(** A missing or empty value is not validated: it is written as the text None or as an
    empty text. *)
Theorem C44_missing_value_refuted :
  exists fs, add_structure script_text simple_path [] "O:M:." "inhibition" None = Ok fs /\
  exists rows, get_structure is_desc_file (fun l => l) fs = Ok rows /\
    structure_values rows "O:M:." "inhibition" = ["None"] /\ ~ In "None" INHIBITABLE_RELATIONS.
Proof.
  eexists. split; [vm_compute; reflexivity|]. eexists. split; [vm_compute; reflexivity|].
  split; [vm_compute; reflexivity|]. simpl. intuition discriminate.
Qed.
Print Assumptions C44_missing_value_refuted.

(** Every row of a database made by any history has a legal key. *)
Theorem C44_stored_rows_are_legal : forall parse path is_desc fo ops,
  folder_ok parse path is_desc -> file_order fo -> Forall (op_ok parse) ops ->
  exists rows, get_descriptors is_desc fo (run parse path [] ops) = Ok rows /\
    forall i l d v, In (i, l, d, v) rows -> parse i = Ok i /\ In l LANGUAGES /\ In d DESCRIPTORS_CLASS.
Proof.
  intros parse path is_desc fo ops ok Hfo Hops.
  pose proof (run_inv parse path is_desc ok ops [] ([], []) (Inv_empty parse path) Hops) as HI.
  destruct (read_d parse path is_desc ok _ _ fo HI Hfo) as (rows & E & P & _). exists rows. split; [exact E|].
  intros i l d v Hin. apply (Permutation_in _ P) in Hin. destruct HI as (_ & _ & _ & GD & _).
  destruct (GD _ Hin) as (H1 & _ & H2 & H3 & _). auto.
Qed.
Print Assumptions C44_stored_rows_are_legal.
