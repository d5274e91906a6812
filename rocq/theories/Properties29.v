(** C85: the listing of the database. *)
From Coq Require Import List String Ascii Bool NArith Arith Lia Permutation Sorted.
From Verif Require Import Base Script ScriptParser ScriptStrProofs ScriptSpec ScriptWf ScriptCtorProofs UslProofs ScriptSeqProofs ScriptParseProofs ScriptMoreProofs Dictionary Database DatabaseSpec DatabaseRefine DatabaseProofs DatabasePath DatabasePathProofs
  Properties1 Properties3 Pull Paradigms ParadigmsProofs Usl Sfun UslParser Query QuerySpec ContentProofs RestrictProofs.
Import ListNotations.
Local Open Scope string_scope.

(** * C43, continued *)
(** The layout of the folder, on a history of calls: texts are read back, and the digests of
    the long expressions named in the history do not collide. (Over all expressions digests
    do collide, so that C43_layout only applies to a parser of fewer texts.) *)
Definition layout (parse : string -> res string) (sha : string -> string) (ops : list op) : Prop :=
  (forall s n, parse s = Ok n -> parse n = Ok n /\ nameable sha n) /\ (forall n, parse "" <> Ok n) /\
  (forall i j, named parse ops i -> named parse ops j -> 100 < String.length i -> 100 < String.length j -> substring 0 10 (sha i) = substring 0 10 (sha j) -> i = j).

(** The calls are those of a parser to which C40, C41 and C44 apply: one that knows only the
    expressions named. *)
Theorem C43_history : forall parse sha class_of singular folder ops, layout parse sha ops ->
  let path := db_path sha class_of singular folder in
  exists parse', folder_ok parse' path is_desc_file /\
    (forall s n, parse' s = Ok n -> parse s = Ok n) /\ (forall o, In o ops -> parse' (op_text o) = parse (op_text o)) /\
    run parse' path [] ops = run parse path [] ops /\ multimap parse' ops = multimap parse ops.
Proof.
  intros parse sha class_of singular folder ops (L1 & L2 & L3) path. exists (restrict parse (texts parse ops)).
  assert (idem : forall s n, parse s = Ok n -> parse n = Ok n) by (intros s n H; apply (L1 s n H)).
  assert (Sm : forall o, In o ops -> same parse (restrict parse (texts parse ops)) (op_text o)) by (intros o; apply restrict_same).
  split; [|split; [|split; [|split]]].
  - apply C43_layout.
    + intros s n H. apply restrict_ok in H. destruct H as [H E]. split; [|apply (L1 _ _ E)]. apply restrict_ok. split; [|eauto]. apply texts_in in H. destruct H as (o & Ho & [->|H]); apply texts_in; exists o; split; auto. rewrite (idem _ _ H) in E. injection E as <-. auto.
    + intros n H. apply restrict_ok in H. destruct H as [_ H]. exact (L2 _ H).
    + intros i j Hi Hj. apply L3; apply restrict_named; auto.
  - intros s n H. now apply restrict_ok in H.
  - intros o Ho. apply Sm, Ho.
  - apply run_same; auto.
  - apply spec_same; auto.
Qed.
Print Assumptions C43_history.

(** So the database in its own layout is the multimap of C40. *)
Theorem C43_database_is_a_multimap_partial : forall parse sha class_of singular folder fo ops,
  layout parse sha ops -> file_order fo -> Forall (plain_op parse) ops ->
  forall i l d, In l LANGUAGES -> In d DESCRIPTORS_CLASS ->
    descriptor_values parse is_desc_file fo (run parse (db_path sha class_of singular folder) [] ops) i l d
    = Ok (map Some (values_of (fst (multimap parse ops)) i l d)).
Proof.
  intros parse sha class_of singular folder fo ops L Hfo Hops i l d Hl Hd.
  destruct (C43_history parse sha class_of singular folder ops L) as (parse' & ok & _ & Po & R & M). rewrite <- R, <- M.
  rewrite <- (C40_database_is_a_multimap_partial parse' _ is_desc_file fo ops ok Hfo) with (i := i) (l := l) (d := d); auto.
  - unfold descriptor_values. destruct (get_descriptors _ _ _); [|reflexivity]. cbn [bind]. unfold get_values, normalize_key. rewrite !andb_false_r. reflexivity.
  - rewrite Forall_forall in *. intros o Ho. apply (plain_same parse); auto.
Qed.
Print Assumptions C43_database_is_a_multimap_partial.

(** * C85 *)
(** After any history of calls, the listing has once each described expression of the class and
    number asked for, and nothing else. *)
Theorem C85_list : forall parse sha class_of singular folder dirs fo ops type paradigm,
  layout parse sha ops -> (forall n, parse n = Ok n -> strip byte_space n = n) -> file_order fo -> Forall (op_ok parse) ops ->
  (forall t, type = Some t -> ~ occurs "/" t) -> dirs (list_folder folder type paradigm) = true ->
  let fs := run parse (db_path sha class_of singular folder) [] ops in
  exists rows ans, get_descriptors is_desc_file fo fs = Ok rows /\ list_content folder fo dirs fs type paradigm = Ok ans /\
    NoDup ans /\ forall i, In i ans <-> in_folder class_of singular type paradigm i /\ exists l d v, In (i, l, d, v) rows.
Proof.
  intros parse sha class_of singular folder dirs fo ops type paradigm L St Hfo Hops Ht Hd fs.
  destruct (C43_history parse sha class_of singular folder ops L) as (parse' & ok & Pp & Po & R & _). destruct L as (L1 & L2 & _).
  assert (Hops' : Forall (op_ok parse') ops) by (rewrite Forall_forall in *; intros o Ho; apply (op_same parse); auto).
  pose proof (run_inv parse' _ is_desc_file ok ops [] ([], []) (Inv_empty parse' _) Hops') as HI. rewrite R in HI. fold fs in HI.
  destruct (read_d parse' _ is_desc_file ok _ _ fo HI Hfo) as (rows & E & P & _). exists rows.
  unfold list_content. rewrite Hd. eexists. split; [exact E|]. split; [reflexivity|].
  assert (St' : forall n, parse' n = Ok n -> strip byte_space n = n /\ n <> "") by (intros n H; apply Pp in H; split; [auto|intros ->; exact (L2 _ H)]).
  assert (HL : forall b j, parse' j = Ok j -> (below (list_folder folder type paradigm) (db_path sha class_of singular folder b j) && is_desc_file (db_path sha class_of singular folder b j))%bool = true <-> b = true /\ in_folder class_of singular type paradigm j).
  { intros b j Pj. apply Pp in Pj. destruct (L1 _ _ Pj) as [_ Nm]. rewrite andb_true_iff, (db_path_kind sha class_of singular folder b j Nm), (below_spec sha class_of singular folder b j type paradigm Nm Ht). tauto. }
  destruct (listing_spec parse' _ is_desc_file fo ok Hfo St' (fun f => (below (list_folder folder type paradigm) f && is_desc_file f)%bool) (in_folder class_of singular type paradigm) fs _ HL HI) as [N C].
  split; [exact N|]. intros i. rewrite (C i). split.
  - intros (W & [[[j l] d] v] & Hr & <-). split; [exact W|]. exists l, d, v. apply (Permutation_in _ (Permutation_sym P)). exact Hr.
  - intros (W & l & d & v & Hr). split; [exact W|]. exists (i, l, d, v). split; [apply (Permutation_in _ P), Hr|reflexivity].
Qed.
Print Assumptions C85_list.

(** Without the directory the call raises. *)
Theorem C85_no_directory : forall folder fo dirs fs type paradigm, dirs (list_folder folder type paradigm) = false ->
  list_content folder fo dirs fs type paradigm = Err FileNotFoundError.
Proof. intros. unfold list_content. rewrite H. reflexivity. Qed.
Print Assumptions C85_no_directory.

(** In a database of scripts all that is asked of the texts holds. *)
Theorem C85_scripts_layout : forall sha ops, (forall t, ~ occurs "/" (sha t)) ->
  (forall i j, named script_text ops i -> named script_text ops j -> 100 < String.length i -> 100 < String.length j -> substring 0 10 (sha i) = substring 0 10 (sha j) -> i = j) ->
  layout script_text sha ops /\ forall n, script_text n = Ok n -> strip byte_space n = n.
Proof.
  intros sha ops H1 H2.
  assert (W : forall s n, script_text s = Ok n -> exists r, wf r /\ n = str r).
  { intros s n. unfold script_text. destruct (parse ident s) as [r|] eqn:E; [|discriminate]. cbn. intros [= <-]. exists r. split; auto. exact (constructible_wf _ (parse_constructible ident set_order_id _ _ E)). }
  split; [split; [|split; [exact (parse_empty _ _ _ simple_folder)|exact H2]]|].
  - intros s n E. split; [exact (parse_idem _ _ _ simple_folder s n E)|]. destruct (W _ _ E) as (r & Wr & ->). pose proof (script_word_chars _ (str_word r Wr)) as C. split; [|split; [|apply H1]]; intros O; apply (chars_occurs _ _ _ C) in O; discriminate.
  - intros n E. destruct (W _ _ E) as (r & Wr & ->). apply (script_stripped r Wr).
Qed.
Print Assumptions C85_scripts_layout.

(** With parse=True: the parsed expressions of the texts that can be parsed, in order; an
    exception other than CannotParse goes through. *)
Theorem C85_parsed : forall parse l,
  match list_parsed parse l with
  | Ok us => (forall s, In s l -> (exists u, parse s = Ok u) \/ parse s = Err CannotParse) /\
             us = flat_map (fun s => match parse s with Ok u => [u] | Err _ => [] end) l
  | Err e => e <> CannotParse /\ exists a s b, l = (a ++ s :: b)%list /\ parse s = Err e /\ forall x, In x a -> (exists u, parse x = Ok u) \/ parse x = Err CannotParse
  end.
Proof.
  intros parse l. induction l as [|s l IH]; cbn [list_parsed].
  - split; [intros s []|reflexivity].
  - destruct (parse s) as [u|e] eqn:E.
    + destruct (list_parsed parse l) as [us|e]; cbn [bind].
      * destruct IH as [H ->]. split; [intros x [<-|Hx]; [left; eauto|auto]|]. cbn [flat_map]. rewrite E. reflexivity.
      * destruct IH as (N & a & x & b & -> & Ex & H). split; [exact N|]. exists (s :: a), x, b. split; [reflexivity|]. split; [exact Ex|]. intros y [<-|Hy]; [left; eauto|auto].
    + assert (D : e = CannotParse \/ e <> CannotParse) by (destruct e; auto; right; discriminate). destruct D as [->|D].
      * destruct (list_parsed parse l) as [us|e'].
        -- destruct IH as [H ->]. split; [intros x [<-|Hx]; auto|]. cbn [flat_map]. rewrite E. reflexivity.
        -- destruct IH as (N & a & x & b & -> & Ex & H). split; [exact N|]. exists (s :: a), x, b. split; [reflexivity|]. split; [exact Ex|]. intros y [<-|Hy]; auto.
      * assert (X : match e with CannotParse => list_parsed parse l | _ => Err e end = Err e) by (destruct e; auto; now destruct D).
        rewrite X. split; [exact D|]. exists [], s, l. split; [reflexivity|]. split; [exact E|]. intros x [].
Qed.
Print Assumptions C85_parsed.

(** ** Claims that fail *)
Definition history85 : list op :=
  [AddDescriptor "wa." "en" "translations" "act"; AddDescriptor "wo.+wa." "en" "translations" "first"; AddDescriptor "wa." "fr" "tags" "agir";
   AddStructure "wo.+wa." "is_root" "TRUE"; AddDescriptor "O:M:." "en" "comments" "gone"; RemoveDescriptor "O:M:." (Some "en") (Some "comments") None].
Definition one85 (t : string) : bool := negb (inb t ["wo.+wa."; "O:M:."]).
Definition fs85 : fsys := run script_text (db_path toy_digest (fun _ => CMorpheme) one85 "/db") [] history85.
(** The directories are those of the files. *)
Definition dirs85 (fs : fsys) (p : string) : bool := existsb (fun f => below p (fst f)) fs.
(** "A database without words has an empty list of words": the call raises. *)
Theorem C85_no_words_refuted : list_content "/db" (fun l => l) (dirs85 fs85) fs85 (Some "word") None = Err FileNotFoundError.
Proof. vm_compute. reflexivity. Qed.
Print Assumptions C85_no_words_refuted.
(** "list(paradigm=True) lists paradigms only": without a type the number is ignored. *)
Theorem C85_paradigms_without_type_refuted : exists i, one85 i = true /\
  match list_content "/db" (fun l => l) (dirs85 fs85) fs85 None (Some true) with Ok ans => In i ans | Err _ => False end.
Proof. exists "wa.". split; [reflexivity|]. vm_compute. auto. Qed.
Print Assumptions C85_paradigms_without_type_refuted.

Lemma history85_ok : Forall (op_ok script_text) history85.
Proof.
  assert (Hp : forall t m, script_text t = Ok m -> forall n, script_text t = Ok n -> n = m) by (intros; congruence).
  assert (H1 : forall n, script_text "wa." = Ok n -> plain n) by (intros n; vm_compute; intros [= <-]; plain_tac).
  assert (H2 : forall n, script_text "wo.+wa." = Ok n -> plain n) by (intros n; vm_compute; intros [= <-]; plain_tac).
  assert (H3 : forall n, script_text "O:M:." = Ok n -> plain n) by (intros n; vm_compute; intros [= <-]; plain_tac).
  unfold history85. repeat apply Forall_cons; try apply Forall_nil; cbn [op_ok]; split; try assumption; try discriminate; try (intros X; now destruct X); unfold occurs; cbn; intuition discriminate.
Qed.
Example C85_case : Forall (op_ok script_text) history85 /\ layout script_text toy_digest history85 /\
  list_content "/db" (@rev _) (dirs85 fs85) fs85 (Some "morpheme") (Some true) = Ok ["wo.+wa."] /\
  list_content "/db" (@rev _) (dirs85 fs85) fs85 (Some "morpheme") (Some false) = Ok ["wa."] /\
  list_content "/db" (fun l => l) (dirs85 fs85) fs85 None None = Ok ["wa."; "wo.+wa."].
Proof.
  split; [exact history85_ok|]. split; [|repeat split; vm_compute; reflexivity].
  apply C85_scripts_layout.
  - intros t. unfold toy_digest. destruct (String.eqb _ _); unfold occurs; cbn; intuition discriminate.
  - intros i j (o & Ho & Ei) _ Li. exfalso. unfold history85 in Ho. cbn [In] in Ho. repeat (destruct Ho as [<-|Ho]); try (destruct Ho); vm_compute in Ei; injection Ei as <-; cbn in Li; lia.
Qed.
