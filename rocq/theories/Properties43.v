(** C93: the descriptors read from a list of files. *)
From Coq Require Import List String Ascii Bool NArith Arith Lia Permutation.
From Verif Require Import Base Script ScriptParser ScriptStrProofs ScriptSpec Dictionary Database DatabaseSpec DatabaseRefine DatabaseProofs DatabasePath DatabasePathProofs
  Properties1 Properties3 RestrictProofs Properties29 DiffSpec DiffProofs Properties42 FilesList FilesListSpec FilesListProofs.
Import ListNotations.
Local Open Scope string_scope.

(** The names which [cat] gets are those of the list exactly when no name but the first begins
    with a digit of base eight and the last is not empty. *)
Theorem C93_names_exact : forall files, Forall printable files ->
  (xargs0 "" (echo_ne (join0 files)) = files <-> ~ Exists digit_first (tl files) /\ (files <> [] -> last files "" <> "")).
Proof. exact names_exact. Qed.
Print Assumptions C93_names_exact.

Lemma no_zero files : Forall printable files -> existsb (fun f => existsb (Ascii.eqb "000") (list_ascii_of_string f)) files = false.
Proof.
  induction 1 as [|f l (Z & _) _ IH]; [reflexivity|]. cbn [existsb]. apply orb_false_iff. split; [|exact IH].
  destruct (existsb (Ascii.eqb "000") (list_ascii_of_string f)) eqn:E; [|reflexivity]. apply existsb_occurs in E. contradiction.
Qed.
Lemma no_dash files : Forall printable files -> existsb dash files = false.
Proof.
  induction 1 as [|f l (_ & _ & D) _ IH]; [reflexivity|]. cbn [existsb]. rewrite IH, orb_false_r.
  destruct f as [|c r]; [reflexivity|]. destruct (Ascii.eqb_spec c "-") as [->|N]; [now elim (D r)|]. destruct c as [[] [] [] [] [] [] [] []]; try reflexivity. now elim N.
Qed.
Lemma sconcat_lines (l : list (list drecord)) : sconcat (map (fun r => sconcat (map dline r)) l) = sconcat (map dline (List.concat l)).
Proof.
  induction l as [|a l IH]; [reflexivity|]. cbn [map List.concat sconcat]. rewrite IH. clear IH. induction a as [|r a IH]; [reflexivity|]. cbn [map app sconcat]. rewrite string_app_assoc. f_equal. exact IH.
Qed.

Section Listed.
  Variables (sha : string -> string) (class_of : string -> iclass) (singular : string -> bool) (folder : string).
  Variable parse : string -> res string.
  Variable cat_options : fsys -> list string -> string.
  Notation path := (db_path sha class_of singular folder).

  (** After any history of calls, with a list of names of the descriptor files of expressions: the
      records of these expressions and no other, expression by expression in the order of the
      list. *)
  Theorem C93_listed_partial : forall ops files is, layout parse sha ops -> Forall (op_ok parse) ops ->
    Forall printable files -> ~ Exists digit_first (tl files) -> (files <> [] -> last files "" <> "") ->
    Forall2 (fun f i => named parse ops i /\ os_join folder f = path true i) files is ->
    get_descriptors_of folder cat_options (run parse path [] ops) files = Ok (flat_map (fun i => about i (fst (records parse ops))) is).
  Proof.
    intros ops files is L Hops P D La F. unfold get_descriptors_of. rewrite (no_zero files P).
    rewrite (proj2 (C93_names_exact files P) (conj D La)). unfold cat. rewrite (no_dash files P).
    pose proof L as (L1 & _ & _).
    assert (Nm : forall i, named parse ops i -> restrict parse (texts parse ops) i = Ok i).
    { intros i (o & Ho & E). apply restrict_ok. split; [|apply (L1 _ _ E)]. apply texts_in. eauto. }
    destruct (layout_inv' sha class_of singular folder parse ops L Hops) as (_ & HS & HD & _ & GD & _).
    assert (E : map (content folder (run parse path [] ops)) files = map (fun r => sconcat (map dline r)) (map (fun i => about i (fst (records parse ops))) is)).
    { clear P D La. induction F as [|f i files is [Ni Ei] _ IH]; [reflexivity|]. cbn [map]. rewrite IH. f_equal. unfold content. rewrite Ei.
      pose proof (HD i (Nm i Ni)) as X. assert (O : own dieml (fst (records parse ops)) i = about i (fst (records parse ops))) by (apply filter_ext_in_; intros [[[? ?] ?] ?] _; reflexivity).
      rewrite O in X. destruct (fs_get _ _); [exact X|]. now rewrite X. }
    rewrite E, sconcat_lines, <- flat_map_concat_map, csv_dlines.
    - rewrite (mapM_rows row4 _ (fun r => r)); [now rewrite map_id|]. intros [[[i l] d] v]. reflexivity.
    - apply Forall_forall. intros [[[i l] d] v] Hr. apply in_flat_map in Hr. destruct Hr as (j & _ & Hr). apply filter_In in Hr. destruct Hr as [Hr _]. apply GD in Hr. destruct Hr as (_ & _ & A & B & _). auto.
  Qed.

  Lemma join_first a b : exists r, os_join (String "/" a) b = String "/" r.
  Proof.
    unfold os_join. destruct b as [|c b]; [|destruct (Ascii.eqb_spec c "/") as [->|N]; [eauto|]]; [destruct (_ || _)%bool; cbn; eauto|].
    destruct c as [[] [] [] [] [] [] [] []]; try (destruct (_ || _)%bool; cbn; eauto; fail); now elim N.
  Qed.
  Lemma join_occurs c a b : occurs c (os_join a b) -> occurs c a \/ occurs c b \/ c = "/"%char.
  Proof.
    assert (A : forall x y, occurs c (x ++ y) -> occurs c x \/ occurs c y).
    { induction x as [|d x IH]; intros y; cbn [append]; [auto|]. rewrite !occurs_cons. intros [H|H]; [auto|]. apply IH in H. tauto. }
    unfold os_join. intros H. assert (B : occurs c b \/ occurs c (if (String.eqb a "" || ends_with_slash a)%bool then a ++ b else a ++ "/" ++ b)).
    { destruct b as [|d b]; [auto|]. destruct d as [[] [] [] [] [] [] [] []]; auto. }
    destruct B as [B|B]; [auto|]. destruct (_ || _)%bool; apply A in B; [tauto|]. destruct B as [B|B]; [auto|]. cbn [append] in B. rewrite occurs_cons in B. destruct B as [B|B]; auto.
  Qed.
  Lemma path_first b i : (exists r, folder = String "/" r) -> exists r, path b i = String "/" r.
  Proof.
    intros [r ->]. unfold db_path. destruct (class_folder (class_of i)) as [cf n]. destruct (join_first r cf) as [r1 ->].
    match goal with |- context [os_join (String "/" r1) ?x] => destruct (join_first r1 x) as [r2 ->] end.
    match goal with |- context [os_join (String "/" r2) ?x] => destruct (join_first r2 x) as [r3 ->] end. apply join_first.
  Qed.
  Lemma path_occurs c b i : In c ["000"; "\"]%char -> ~ occurs c folder -> ~ occurs c i -> ~ occurs c (sha i) -> ~ occurs c (path b i).
  Proof.
    intros Hc Hf Hi Hs. assert (Fn : ~ occurs c (filename_of sha i)) by (apply filename_occurs; auto; destruct Hc as [<-|[<-|[]]]; discriminate).
    assert (Cf : forall k, ~ occurs c (fst (class_folder k))) by (intros []; destruct Hc as [<-|[<-|[]]]; unfold occurs; cbn; intuition discriminate).
    assert (K : forall s, In s ["singular"; "paradigm"; ".desc"; ".ieml"] -> ~ occurs c s).
    { intros s Hs'. cbn in Hs'. destruct Hc as [<-|[<-|[]]]; repeat (destruct Hs' as [<-|Hs']; [unfold occurs; cbn; intuition discriminate|]); destruct Hs'. }
    assert (N : c <> "/"%char) by (destruct Hc as [<-|[<-|[]]]; discriminate).
    unfold db_path. specialize (Cf (class_of i)). destruct (class_folder (class_of i)) as [cf n]. cbn [fst] in Cf.
    assert (A : forall x y, occurs c (x ++ y) -> occurs c x \/ occurs c y).
    { induction x as [|d x IH]; intros y; cbn [append]; [auto|]. rewrite !occurs_cons. intros [H|H]; [auto|]. apply IH in H. tauto. }
    intros H. repeat (apply join_occurs in H; destruct H as [H|[H|H]]; [| |contradiction]).
    - contradiction.
    - contradiction.
    - destruct (singular i); revert H; apply K; cbn; auto.
    - apply substring_occurs in H. contradiction.
    - apply A in H. destruct H as [H|H]; [contradiction|]. destruct b; revert H; apply K; cbn; auto.
  Qed.

  (** With the paths of the library in an absolute folder: nothing else is asked. *)
  Theorem C93_paths : forall ops is, layout parse sha ops -> Forall (op_ok parse) ops -> (exists r, folder = String "/" r) ->
    (forall c, In c ["000"; "\"]%char -> ~ occurs c folder /\ forall i, In i is -> ~ occurs c i /\ ~ occurs c (sha i)) ->
    (forall i, In i is -> named parse ops i) ->
    get_descriptors_of folder cat_options (run parse path [] ops) (map (path true) is) = Ok (flat_map (fun i => about i (fst (records parse ops))) is).
  Proof.
    intros ops is L Hops Ab Ch Nm.
    assert (Fi : forall i, exists r, path true i = String "/" r) by (intros i; now apply path_first).
    apply C93_listed_partial; auto.
    - apply Forall_forall. intros f Hf. apply in_map_iff in Hf. destruct Hf as (i & <- & Hi). split; [|split].
      + destruct (Ch "000"%char) as [A B]; [cbn; auto|]. destruct (B i Hi). apply path_occurs; cbn; auto.
      + destruct (Ch "\"%char) as [A B]; [cbn; auto|]. destruct (B i Hi). apply path_occurs; cbn; auto.
      + intros r. destruct (Fi i) as [r' ->]. discriminate.
    - intros X. apply Exists_exists in X. destruct X as (f & Hf & c & r & -> & Hc). destruct is as [|i is]; [destruct Hf|]. cbn [map tl] in Hf. apply in_map_iff in Hf. destruct Hf as (j & E & _).
      destruct (Fi j) as [r' E']. rewrite E' in E. injection E as <- _. cbn in Hc. repeat (destruct Hc as [Hc|Hc]; [discriminate|]). destruct Hc.
    - intros N E. destruct is as [|i is] using rev_ind; [now elim N|]. rewrite map_app in E. cbn [map] in E. rewrite last_last in E. destruct (Fi i) as [r' E']. congruence.
    - clear -Nm Fi. induction is as [|i is IH]; [constructor|]. cbn [map]. constructor; [|apply IH; intros j Hj; apply Nm; now right]. split; [apply Nm; now left|]. destruct (Fi i) as [r ->]. reflexivity.
  Qed.
End Listed.
Print Assumptions C93_listed_partial.
Print Assumptions C93_paths.

(** The records of three expressions, of which two are asked for. *)
Definition history93 : list op :=
  [AddDescriptor "wa." "en" "comments" "act"; AddDescriptor "wo.+wa." "en" "comments" "first"; AddDescriptor "O:M:." "fr" "tags" "autre"; AddDescriptor "wa." "fr" "tags" "agir"].
Notation fs93 folder := (run script_text (db_path toy_digest (fun _ => CMorpheme) one85 folder) [] history93).
Notation path93 folder := (db_path toy_digest (fun _ => CMorpheme) one85 folder true).
Example C93_case : layout script_text toy_digest history93 /\ Forall (op_ok script_text) history93 /\
  (forall i, In i ["wo.+wa."; "wa."] -> named script_text history93 i) /\
  path93 "/db" "wa." = "/db/morpheme/singular/wa..desc" /\
  get_descriptors_of "/db" (fun _ _ => "") (fs93 "/db") (map (path93 "/db") ["wo.+wa."; "wa."]) =
    Ok [("wo.+wa.", "en", "comments", "first"); ("wa.", "en", "comments", "act"); ("wa.", "fr", "tags", "agir")] /\
  get_descriptors_of "/db" (fun _ _ => "") (fs93 "/db") ["morpheme/singular/wa..desc"; "morpheme/missing.desc"; "morpheme/paradigm/wo.+wa..desc"] =
    Ok [("wa.", "en", "comments", "act"); ("wa.", "fr", "tags", "agir"); ("wo.+wa.", "en", "comments", "first")].
Proof.
  split; [|split; [|split; [|split; [vm_compute; reflexivity|split; vm_compute; reflexivity]]]].
  - apply C85_scripts_layout.
    + intros t. unfold toy_digest. destruct (String.eqb _ _); intros O; apply existsb_occurs in O; vm_compute in O; discriminate.
    + intros i j (o & Ho & E) _ N. exfalso. revert N. cbn in Ho. repeat (destruct Ho as [<-|Ho]; [vm_compute in E; injection E as <-; apply Nat.le_ngt, Nat.leb_le; reflexivity|]). destruct Ho.
  - repeat (apply Forall_cons; [split; [intros n; vm_compute; intros [= <-]; plain_tac|intros O; apply existsb_occurs in O; vm_compute in O; discriminate]|]). constructor.
  - intros i [<-|[<-|[]]]; [exists (AddDescriptor "wo.+wa." "en" "comments" "first")|exists (AddDescriptor "wa." "en" "comments" "act")]; (split; [unfold history93; auto using in_eq, in_cons|vm_compute; reflexivity]).
Qed.

(** "The listed files are read": in a database opened with a relative folder, the paths the library
    gives are looked for from the folder itself and nothing is read. *)
Theorem C93_relative_folder_refuted : fs_get (fs93 "db") (path93 "db" "wa.") <> None /\
  descriptor_values script_text is_desc_file (fun l => l) (fs93 "db") "wa." "en" "comments" = Ok [Some "act"] /\
  get_descriptors_of "db" (fun _ _ => "") (fs93 "db") [path93 "db" "wa."] = Ok [].
Proof. split; [vm_compute; discriminate|]. split; vm_compute; reflexivity. Qed.
Print Assumptions C93_relative_folder_refuted.
(** Two files which are read one by one and not together: the second name begins with a digit,
    which is taken into the separator. *)
Theorem C93_digit_refuted : exists fs, get_descriptors_of "/db" (fun _ _ => "") fs ["a.desc"] = Ok [("wa.", "en", "comments", "x")] /\
  get_descriptors_of "/db" (fun _ _ => "") fs ["2020.desc"] = Ok [("wo.", "en", "comments", "y")] /\
  get_descriptors_of "/db" (fun _ _ => "") fs ["a.desc"; "2020.desc"] = Ok [].
Proof.
  exists [("/db/a.desc", descriptor_line "wa." "en" "comments" "x"); ("/db/2020.desc", descriptor_line "wo." "en" "comments" "y")].
  split; [|split]; vm_compute; reflexivity.
Qed.
Print Assumptions C93_digit_refuted.
