(** Properties C71 to C75: folders in which the transactions on paradigms can be carried out, and what their
    success does not mean. *)
From Coq Require Import List String Ascii Bool NArith Arith Lia Permutation.
From Verif Require Import Base Script ScriptParser ScriptSpec ScriptWf ScriptCtorProofs ScriptParseProofs ScriptEqProofs ScriptMoreProofs ScriptSeqProofs TablesProofs TablesGridProofs UslProofs SortProofs Tables Factor
  Dictionary DictionarySpec DictTableProofs DictLoadProofs DictTopProofs
  Database DatabaseSpec DatabasePath DatabasePathProofs DatabaseProofs DatabaseRefine Git GitProofs Cache Transactions TransactionsProofs Properties1 Properties3 Properties4 Properties6 Properties16
  Paradigms ParadigmsSpec ParadigmsProofs ParadigmsDictProofs ParadigmsStepProofs ParadigmsUpdateProofs Properties21.
Import ListNotations.
Local Open Scope string_scope.

(** * A folder *)
(** The descriptor files of the plural scripts are listed. *)
Definition listed_file (p : string) : bool :=
  (is_desc_file p && match parse ident (String.substring 0 (String.length p - 5) p) with Ok s => negb (N.eqb (cardinal s) 1) | Err _ => false end)%bool.
Lemma substring_whole i e : String.substring 0 (String.length i) (i ++ e) = i.
Proof. induction i as [|c i IH]; [destruct e; reflexivity|]. cbn. rewrite IH. reflexivity. Qed.
Lemma length_five i e : String.length e = 5 -> String.length (i ++ e) - 5 = String.length i.
Proof. intros H. assert (String.length (i ++ e) = String.length i + String.length e) as -> by (clear H; induction i as [|c i IH]; [reflexivity|cbn; rewrite IH; reflexivity]). lia. Qed.
Lemma simple_paradigms : paradigms_folder ident script_text simple_path is_desc_file listed_file.
Proof.
  constructor; [apply simple_folder| |].
  - intros t s E. unfold script_text. rewrite E. reflexivity.
  - intros b i _. unfold listed_file, simple_path. rewrite is_desc_app, length_five, substring_whole by (destruct b; reflexivity). destruct b; [|cbn; split; [discriminate|intros [X _]; discriminate]].
    change (String.eqb (ext true) ".desc") with true. cbn [andb]. destruct (parse ident i) as [s|].
    + rewrite negb_true_iff, N.eqb_neq. split; [intros N; split; [reflexivity|eauto]|]. intros [_ (s' & [= <-] & N)]. exact N.
    + split; [discriminate|]. intros [_ (s & X & _)]. discriminate.
Qed.
Definition named (l : list string) : list op := map (fun i => AddDescriptor i "en" "translations" ("name of " ++ i)) l.
Definition history71 : list op := (named ["O:M:."; "M:M:."; "S:M:."] ++ [AddStructure "O:M:." "is_root" "True"; AddStructure "M:M:." "is_root" "True"])%list.
Definition history73 : list op := (history71 ++ [AddStructure "M:M:." "inhibition" "opposed"; AddStructure "M:M:." "inhibition" "twin"; AddStructure "S:M:." "is_root" "False"])%list.
Definition has (c : ascii) (s : string) : bool := existsb (Ascii.eqb c) (list_ascii_of_string s).
Definition plain_b (s : string) : bool := negb (has """" s || has "010" s || has "013" s).
Definition plain_value_b (v : string) : bool := (plain_b v && negb (existsb (String.eqb (normalize_value v)) NA_VALUES))%bool.
Definition plain_op_b (o : op) : bool :=
  match o with
  | AddDescriptor i l d v => match script_text i with Ok n => plain_b n | Err _ => true end && plain_value_b v
  | AddStructure i k v => match script_text i with Ok n => plain_b n | Err _ => true end && negb (String.eqb v "")
  | _ => false
  end%bool.
Lemma has_not c s : has c s = false -> ~ occurs c s.
Proof. unfold has, occurs. intros H C. assert (existsb (Ascii.eqb c) (list_ascii_of_string s) = true); [|congruence]. apply existsb_exists. exists c. split; [exact C|apply Ascii.eqb_refl]. Qed.
Lemma plain_b_ok s : plain_b s = true -> plain s.
Proof. unfold plain_b. intros H. apply negb_true_iff in H. apply orb_false_iff in H as [H H3]. apply orb_false_iff in H as [H1 H2]. repeat split; apply has_not; assumption. Qed.
Lemma plain_value_b_ok v : plain_value_b v = true -> plain v /\ ~ In (normalize_value v) NA_VALUES.
Proof.
  unfold plain_value_b. intros H. apply andb_true_iff in H as [H1 H2]. split; [apply plain_b_ok, H1|]. intros C. apply negb_true_iff in H2.
  assert (existsb (String.eqb (normalize_value v)) NA_VALUES = true); [|congruence]. apply existsb_exists. eexists. split; [exact C|apply String.eqb_refl].
Qed.
Lemma plain_ops_b h : forallb plain_op_b h = true -> Forall (plain_op script_text) h.
Proof.
  intros H. rewrite forallb_forall in H. apply Forall_forall. intros o Ho. apply H in Ho. destruct o as [i l d v| |i k v|]; try discriminate; cbn in Ho; apply andb_true_iff in Ho as [H1 H2].
  - apply plain_value_b_ok in H2 as [H2 H3]. split; [|split; assumption]. split; [|apply H2]. intros n E. rewrite E in H1. apply plain_b_ok, H1.
  - split; [|exact Logic.I]. split; [intros n E; rewrite E in H1; apply plain_b_ok, H1|]. intros ->. discriminate.
Qed.
Lemma history71_plain : Forall (plain_op script_text) history71.
Proof. apply plain_ops_b. vm_compute. reflexivity. Qed.
Lemma history73_plain : Forall (plain_op script_text) history73.
Proof. apply plain_ops_b. vm_compute. reflexivity. Qed.

Definition folder71 : repo := repo_of (run script_text simple_path [] history71).
Definition folder73 : repo := repo_of (run script_text simple_path [] history73).
Notation dict_of q := (dictionary_in ident is_desc_file listed_file (fun l => l) q).
Notation adding q s t c := (add_morpheme_paradigm ident script_text simple_path is_desc_file (fun l => l) listed_file q s (fun l => Some (t l)) (fun l => Some (c l)) NoAccident).
Notation deleting_root q s e := (delete_morpheme_root_paradigm ident script_text simple_path is_desc_file (fun l => l) listed_file q s e NoAccident).
Notation deleting q s := (delete_morpheme_paradigm ident script_text simple_path is_desc_file (fun l => l) listed_file q s NoAccident).
Notation updating q s t := (update_morpheme_paradigm ident script_text simple_path is_desc_file (fun l => l) listed_file q s t NoAccident).
Definition named_en (l : string) : list string := if String.eqb l "en" then [" a name "] else [].
Definition unnamed (l : string) : list string := [].
Definition holds (q : repo) (test : dictionary -> bool) : bool := match dict_of q with Ok d => test d | Err _ => false end.
Definition texts_in (d : dictionary) (s : string) : bool := in_dictionary d (text s).
Definition roots_are (d : dictionary) (l : list string) : bool := if list_eq_dec string_dec (map str (d_root_scripts d)) l then true else false.

Lemma file_order_id : file_order (fun l => l).
Proof. intros l. apply Permutation_refl. Qed.
Lemma folder_dictionary h q : Forall (plain_op script_text) h -> q = repo_of (run script_text simple_path [] h) -> forall d, dict_of q = Ok d -> Forall wf (d_root_scripts d).
Proof.
  intros H -> d E. destruct (dict_state ident set_order_id _ _ _ _ _ simple_paradigms file_order_id _ _ d (history_inv ident _ _ _ _ simple_paradigms h H) E) as (P & rows & M & _).
  destruct (make_spec ident set_order_id _ _ _ M) as (all & A). apply (Wroots ident _ _ _ _ A).
Qed.
(** The hypotheses of C71 are met by U:M:. in the folder with the roots O:M:. and M:M:. *)
Lemma added_b d s : Forall wf (d_root_scripts d) -> constructible s ->
  (match factorize ident false (inl s) with Ok f => String.eqb (str f) (str s) | Err _ => false end && negb (N.eqb (cardinal s) 1) && negb (in_dictionary d s) &&
   existsb (fun q => match script_in s q with Ok b => b | Err _ => false end) (d_root_scripts d))%bool = true -> can_be_added ident d s.
Proof.
  intros W C H. apply andb_true_iff in H as [H H4]. apply andb_true_iff in H as [H H3]. apply andb_true_iff in H as [H1 H2]. split.
  - unfold factorised. destruct (factorize _ _ _) as [f|]; [|discriminate]. exists f. split; [reflexivity|]. now apply String.eqb_eq.
  - split; [apply N.eqb_neq; now apply negb_true_iff|]. split; [intros M; apply (proj2 (memb_text s (d_scripts d))) in M; change (in_dictionary d s = true) in M; rewrite M in H3; discriminate|].
    apply existsb_exists in H4 as (q & Hq & E). exists q. split; [exact Hq|]. rewrite Forall_forall in W. destruct (script_in s q) as [b|] eqn:Es; [|discriminate]. subst b. apply (inside_in s q) in Es; [exact Es|apply constructible_wf, C|auto].
Qed.
Example C71_case : paradigms_folder ident script_text simple_path is_desc_file listed_file /\ Forall (plain_op script_text) history71 /\
  work folder71 = run script_text simple_path [] history71 /\ nothing_to_commit folder71 /\ constructible (text "U:M:.") /\ plain_texts named_en /\ plain_texts unnamed /\
  (exists d, dict_of folder71 = Ok d /\ can_be_added ident d (text "U:M:.")) /\
  let (out, r') := adding folder71 (text "U:M:.") named_en unnamed in
  out = Ok tt /\ head r' = 1 /\ holds r' (fun d => texts_in d "U:M:." && roots_are d ["M:M:."; "O:M:."])%bool = true /\
  fst (adding folder71 (text "U:M:.+M:M:.") named_en unnamed) = Err AssertionError /\ fst (adding folder71 (text "S:M:.") named_en unnamed) = Err ValueError /\ fst (adding folder71 (text "T:.") named_en unnamed) = Err ValueError.
Proof.
  split; [apply simple_paradigms|]. pose proof history71_plain as H. split; [exact H|]. split; [reflexivity|]. split; [apply repo_of_clean|]. split; [text_ok|].
  split; [intros l v; unfold named_en; destruct (String.eqb l "en"); [intros [<-|[]]; split; [plain_tac|vm_compute; intuition discriminate]|intros []]|]. split; [intros l v []|]. split.
  - assert (B : match dict_of folder71 with Ok d => (match factorize ident false (inl (text "U:M:.")) with Ok f => String.eqb (str f) (str (text "U:M:.")) | Err _ => false end && negb (N.eqb (cardinal (text "U:M:.")) 1) && negb (in_dictionary d (text "U:M:.")) &&
       existsb (fun q => match script_in (text "U:M:.") q with Ok b => b | Err _ => false end) (d_root_scripts d))%bool | Err _ => false end = true) by (vm_compute; reflexivity).
    pose proof (folder_dictionary history71 folder71 H eq_refl) as W. destruct (dict_of folder71) as [d|]; [|discriminate]. exists d. split; [reflexivity|]. apply added_b; [apply W; reflexivity|text_ok|exact B].
  - vm_compute. auto 10.
Qed.

Lemma factorised_b s : match factorize ident false (inl s) with Ok f => String.eqb (str f) (str s) | Err _ => false end = true -> factorised ident s.
Proof. unfold factorised. destruct (factorize _ _ _) as [f|]; [|discriminate]. intros E. exists f. split; [reflexivity|now apply String.eqb_eq]. Qed.
Lemma member_b d s : in_dictionary d s = true <-> member d s.
Proof. exact (memb_text s (d_scripts d)). Qed.
Lemma root_b d s : existsb (fun q => String.eqb (str q) (str s)) (d_root_scripts d) = true -> In (str s) (roots_of d).
Proof. intros H. apply existsb_exists in H as (q & Hq & E). apply in_map_iff. exists q. split; [now apply String.eqb_eq|exact Hq]. Qed.

Lemma inside_b s q : constructible s -> wf q -> match script_in s q with Ok b => b | Err _ => false end = true -> included s q.
Proof. intros C W E. destruct (script_in s q) as [b|] eqn:Es; [|discriminate]. subst b. apply (inside_in s q) in Es; [exact Es|apply constructible_wf, C|exact W]. Qed.

Example C74_case : Forall (plain_op script_text) history71 /\ work folder71 = run script_text simple_path [] history71 /\ nothing_to_commit folder71 /\ constructible (text "M:M:.") /\
  (exists d, dict_of folder71 = Ok d /\ can_be_deleted_root ident d (text "M:M:.")) /\
  (let (out, r') := deleting_root folder71 (text "M:M:.") true in
   out = Ok tt /\ head r' = 1 /\ holds r' (fun d => roots_are d ["O:M:."] && negb (texts_in d "M:M:.") && negb (texts_in d "S:M:."))%bool = true) /\
  fst (deleting_root folder71 (text "S:M:.") true) = Err ValueError.
Proof.
  split; [apply history71_plain|]. split; [reflexivity|]. split; [apply repo_of_clean|]. split; [text_ok|]. split.
  - assert (B : match dict_of folder71 with Ok d => existsb (fun q => String.eqb (str q) (str (text "M:M:."))) (d_root_scripts d) | Err _ => false end = true) by (vm_compute; reflexivity).
    destruct (dict_of folder71) as [d|]; [|discriminate]. exists d. split; [reflexivity|]. split; [apply factorised_b; vm_compute; reflexivity|apply root_b, B].
  - vm_compute. auto 10.
Qed.
Example C75_case : Forall (plain_op script_text) history71 /\ work folder71 = run script_text simple_path [] history71 /\ nothing_to_commit folder71 /\ constructible (text "S:M:.") /\
  (exists d, dict_of folder71 = Ok d /\ can_be_deleted ident d (text "S:M:.")) /\
  (let (out, r') := deleting folder71 (text "S:M:.") in
   out = Ok tt /\ head r' = 1 /\ holds r' (fun d => roots_are d ["M:M:."; "O:M:."] && texts_in d "M:M:." && negb (texts_in d "S:M:."))%bool = true) /\
  fst (deleting folder71 (text "U:M:.")) = Err ValueError.
Proof.
  split; [apply history71_plain|]. split; [reflexivity|]. split; [apply repo_of_clean|]. split; [text_ok|]. split.
  - assert (B : match dict_of folder71 with Ok d => in_dictionary d (text "S:M:.") | Err _ => false end = true) by (vm_compute; reflexivity).
    destruct (dict_of folder71) as [d|]; [|discriminate]. exists d. split; [reflexivity|]. split; [apply factorised_b; vm_compute; reflexivity|]. split; [apply member_b, B|vm_compute; discriminate].
  - vm_compute. auto 10.
Qed.
Example C73_case : Forall (plain_op script_text) history73 /\ work folder73 = run script_text simple_path [] history73 /\ nothing_to_commit folder73 /\
  constructible (text "S:M:.") /\ constructible (text "B:M:.") /\ ~ said_root is_desc_file (fun l => l) folder73 (text "S:M:.") /\
  (exists d, dict_of folder73 = Ok d /\ can_be_moved ident is_desc_file (fun l => l) folder73 d (text "S:M:.") (text "B:M:.")) /\
  (let (out, r') := updating folder73 (text "S:M:.") (text "B:M:.") in
   out = Ok tt /\ head r' = 1 /\ holds r' (fun d => roots_are d ["M:M:."; "O:M:."] && texts_in d "B:M:." && negb (texts_in d "S:M:."))%bool = true) /\
  fst (updating folder73 (text "S:M:.") (text "O:M:.")) = Err AssertionError.
Proof.
  assert (R : structure_in is_desc_file (fun l => l) folder73 (str (text "S:M:.")) "is_root" = ["False"]) by (vm_compute; reflexivity).
  assert (NR : ~ said_root is_desc_file (fun l => l) folder73 (text "S:M:.")) by (intros (v & rest & E & T); rewrite R in E; injection E as <- <-; destruct T as (w & [T|T]); discriminate).
  split; [apply history73_plain|]. split; [reflexivity|]. split; [apply repo_of_clean|]. split; [text_ok|]. split; [text_ok|]. split; [exact NR|]. split.
  - assert (B : match dict_of folder73 with Ok d => in_dictionary d (text "S:M:.") && negb (in_dictionary d (text "B:M:.")) && existsb (fun q => match script_in (text "B:M:.") q with Ok b => b | Err _ => false end) (d_root_scripts d) | Err _ => false end%bool = true) by (vm_compute; reflexivity).
    pose proof (folder_dictionary history73 folder73 history73_plain eq_refl) as W. destruct (dict_of folder73) as [d|]; [|discriminate]. exists d. split; [reflexivity|]. specialize (W _ eq_refl).
    apply andb_true_iff in B as [B B3]. apply andb_true_iff in B as [B1 B2].
    split; [apply factorised_b; vm_compute; reflexivity|]. split; [apply factorised_b; vm_compute; reflexivity|]. split; [vm_compute; discriminate|]. split; [left; vm_compute; discriminate|].
    split; [apply member_b, B1|]. split; [intros M; apply member_b in M; rewrite M in B2; discriminate|]. split; [|split; [|intros C; contradiction]].
    + left. apply existsb_exists in B3 as (q & Hq & E). exists q. split; [exact Hq|]. destruct (script_in _ q) as [b|] eqn:Es; [|discriminate]. subst b. rewrite Forall_forall in W. apply inside_in in Es; [exact Es|apply constructible_wf; text_ok|auto].
    + right. exists "M:M:.", "inhibition". vm_compute. auto.
  - vm_compute. auto 10.
Qed.
Example C72_case : constructible (text "F:.") /\ create_root_paradigm ident script_text simple_path is_desc_file (fun l => l) listed_file folder71 (text "F:.") [] (fun l => Some (named_en l)) (fun l => Some (unnamed l)) NoAccident = (Err ValueError, folder71).
Proof. split; [text_ok|]. vm_compute. reflexivity. Qed.

(** * What a success does not mean *)
Definition history_i : list op := (named ["I:"; "F:"; "M:"] ++ [AddStructure "I:" "is_root" "True"])%list.
Definition folder_i : repo := repo_of (run script_text simple_path [] history_i).
(** The dictionary of the folder can be read, the paradigm is accepted and committed, and no dictionary can be
    read from the folder any more. *)
Theorem C71_unreadable_refuted : ~ (forall so parse_ieml path is_desc listed fo ops r d s translations comments r',
  set_order so -> paradigms_folder so parse_ieml path is_desc listed -> file_order fo -> Forall (plain_op parse_ieml) ops ->
  work r = run parse_ieml path [] ops -> nothing_to_commit r -> dictionary_in so is_desc listed fo r = Ok d -> constructible s -> plain_texts translations -> plain_texts comments ->
  add_morpheme_paradigm so parse_ieml path is_desc fo listed r s (fun l => Some (translations l)) (fun l => Some (comments l)) NoAccident = (Ok tt, r') ->
  exists d', dictionary_in so is_desc listed fo r' = Ok d').
Proof.
  intros H. assert (B : holds folder_i (fun _ => true) = true) by (vm_compute; reflexivity). unfold holds in B. destruct (dict_of folder_i) as [d|] eqn:E; [|discriminate].
  assert (Hh : Forall (plain_op script_text) history_i) by (apply plain_ops_b; vm_compute; reflexivity).
  assert (F : fst (adding folder_i (text "S:+B:") named_en unnamed) = Ok tt) by (vm_compute; reflexivity).
  assert (G : dict_of (snd (adding folder_i (text "S:+B:") named_en unnamed)) = Err IndexError) by (vm_compute; reflexivity).
  destruct (adding folder_i (text "S:+B:") named_en unnamed) as [o r'] eqn:A. cbn [fst snd] in F, G. subst o.
  destruct (H ident script_text simple_path is_desc_file listed_file (fun l => l) history_i folder_i d (text "S:+B:") named_en unnamed r') as [d' X];
    [apply set_order_id|apply simple_paradigms|apply file_order_id|exact Hh|reflexivity|apply repo_of_clean|exact E|text_ok| | |exact A|congruence].
  - intros l v. unfold named_en. destruct (String.eqb l "en"); [intros [<-|[]]; apply plain_value_b_ok; vm_compute; reflexivity|intros []].
  - intros l v [].
Qed.
Print Assumptions C71_unreadable_refuted.
(** The paradigm is accepted and committed, the dictionary can be read, and the paradigm is not in it: when the
    paradigm is given no translation and no comment there is no file to list. *)
Theorem C71_lost_refuted : ~ (forall so parse_ieml path is_desc listed fo ops r d s translations comments r' d',
  set_order so -> paradigms_folder so parse_ieml path is_desc listed -> file_order fo -> Forall (plain_op parse_ieml) ops ->
  work r = run parse_ieml path [] ops -> nothing_to_commit r -> dictionary_in so is_desc listed fo r = Ok d -> constructible s -> plain_texts translations -> plain_texts comments ->
  add_morpheme_paradigm so parse_ieml path is_desc fo listed r s (fun l => Some (translations l)) (fun l => Some (comments l)) NoAccident = (Ok tt, r') ->
  dictionary_in so is_desc listed fo r' = Ok d' -> member d' s).
Proof.
  intros H. assert (B : holds folder71 (fun _ => true) = true) by (vm_compute; reflexivity). unfold holds in B. destruct (dict_of folder71) as [d|] eqn:E; [|discriminate].
  assert (F : fst (adding folder71 (text "U:M:.") unnamed unnamed) = Ok tt) by (vm_compute; reflexivity).
  assert (G : match dict_of (snd (adding folder71 (text "U:M:.") unnamed unnamed)) with Ok d => in_dictionary d (text "U:M:.") | Err _ => true end = false) by (vm_compute; reflexivity).
  destruct (adding folder71 (text "U:M:.") unnamed unnamed) as [o r'] eqn:A. cbn [fst snd] in F, G. subst o. destruct (dict_of r') as [d'|] eqn:E'; [|discriminate].
  assert (M : member d' (text "U:M:.")); [|apply member_b in M; congruence].
  apply (H ident script_text simple_path is_desc_file listed_file (fun l => l) history71 folder71 d (text "U:M:.") unnamed unnamed r' d');
    [apply set_order_id|apply simple_paradigms|apply file_order_id|apply history71_plain|reflexivity|apply repo_of_clean|exact E|text_ok|intros l v []|intros l v []|exact A|exact E'].
Qed.
Print Assumptions C71_lost_refuted.
(** Deleting the last root, or a root with an ignored paradigm in it, succeeds and no dictionary can be read any
    more. *)
Theorem C74_unreadable_refuted : ~ (forall so parse_ieml path is_desc listed fo ops r d s r',
  set_order so -> paradigms_folder so parse_ieml path is_desc listed -> file_order fo -> Forall (plain_op parse_ieml) ops ->
  work r = run parse_ieml path [] ops -> nothing_to_commit r -> dictionary_in so is_desc listed fo r = Ok d -> 2 <= List.length (roots_of d) -> constructible s ->
  delete_morpheme_root_paradigm so parse_ieml path is_desc fo listed r s true NoAccident = (Ok tt, r') ->
  exists d', dictionary_in so is_desc listed fo r' = Ok d').
Proof.
  intros H. set (h := (history71 ++ [AddStructure "S:M:." "is_ignored" "True"])%list). set (q := repo_of (run script_text simple_path [] h)).
  assert (B : holds q (fun d => Nat.leb 2 (List.length (roots_of d))) = true) by (vm_compute; reflexivity). unfold holds in B. destruct (dict_of q) as [d|] eqn:E; [|discriminate]. apply Nat.leb_le in B.
  assert (Hh : Forall (plain_op script_text) h) by (apply plain_ops_b; vm_compute; reflexivity).
  assert (F : fst (deleting_root q (text "M:M:.") true) = Ok tt) by (vm_compute; reflexivity).
  assert (G : dict_of (snd (deleting_root q (text "M:M:.") true)) = Err KeyError) by (vm_compute; reflexivity).
  destruct (deleting_root q (text "M:M:.") true) as [o r'] eqn:A. cbn [fst snd] in F, G. subst o.
  destruct (H ident script_text simple_path is_desc_file listed_file (fun l => l) h q d (text "M:M:.") r') as [d' X];
    [apply set_order_id|apply simple_paradigms|apply file_order_id|exact Hh|reflexivity|apply repo_of_clean|exact E|exact B|text_ok|exact A|congruence].
Qed.
Print Assumptions C74_unreadable_refuted.
Example C74_last_root : fst (deleting_root folder_i (text "I:") true) = Ok tt /\ dict_of (snd (deleting_root folder_i (text "I:") true)) = Err ValueError.
Proof. vm_compute. auto. Qed.
(** A paradigm of the dictionary without a table cannot be deleted: an ignored one. *)
Theorem C75_ignored_refuted : ~ (forall so parse_ieml path is_desc listed fo ops r d s,
  set_order so -> paradigms_folder so parse_ieml path is_desc listed -> file_order fo -> Forall (plain_op parse_ieml) ops ->
  work r = run parse_ieml path [] ops -> nothing_to_commit r -> dictionary_in so is_desc listed fo r = Ok d -> constructible s ->
  factorised so s -> cardinal s <> 1%N -> (exists t, descriptors_in parse_ieml is_desc fo r (str s) "en" "translations" = Ok [Some t]) ->
  exists r', delete_morpheme_paradigm so parse_ieml path is_desc fo listed r s NoAccident = (Ok tt, r')).
Proof.
  intros H. set (h := (history71 ++ [AddStructure "S:M:." "is_ignored" "True"])%list). set (q := repo_of (run script_text simple_path [] h)).
  assert (B : holds q (fun d => true) = true) by (vm_compute; reflexivity). unfold holds in B. destruct (dict_of q) as [d|] eqn:E; [|discriminate].
  assert (Hh : Forall (plain_op script_text) h) by (apply plain_ops_b; vm_compute; reflexivity).
  assert (F : fst (deleting q (text "S:M:.")) = Err ValueError) by (vm_compute; reflexivity).
  assert (K : factorised ident (text "S:M:.")) by (apply factorised_b; vm_compute; reflexivity).
  assert (N : cardinal (text "S:M:.") <> 1%N) by (vm_compute; discriminate).
  assert (Z : descriptors_in script_text is_desc_file (fun l => l) q (str (text "S:M:.")) "en" "translations" = Ok [Some "name of S:M:."]) by (vm_compute; reflexivity).
  destruct (H ident script_text simple_path is_desc_file listed_file (fun l => l) h q d (text "S:M:.")) as [r' X];
    [apply set_order_id|apply simple_paradigms|apply file_order_id|exact Hh|reflexivity|apply repo_of_clean|exact E|text_ok|exact K|exact N|eexists; exact Z|].
  assert (Y := f_equal fst X). cbn [fst] in Y. congruence.
Qed.
Print Assumptions C75_ignored_refuted.
(** A paradigm that is not a root is not always updated to a paradigm of the same root that the dictionary does
    not have: the structure must have a key with two values. *)
Theorem C73_accepts_refuted : ~ (forall so parse_ieml path is_desc listed fo ops r d old new,
  set_order so -> paradigms_folder so parse_ieml path is_desc listed -> file_order fo -> Forall (plain_op parse_ieml) ops ->
  work r = run parse_ieml path [] ops -> nothing_to_commit r -> dictionary_in so is_desc listed fo r = Ok d -> constructible old -> constructible new ->
  factorised so old -> factorised so new -> cardinal old <> 1%N -> cardinal new <> 1%N -> member d old -> ~ member d new -> ~ In (str old) (roots_of d) ->
  (exists root, In root (d_root_scripts d) /\ included old root /\ included new root) ->
  exists r', update_morpheme_paradigm so parse_ieml path is_desc fo listed r old new NoAccident = (Ok tt, r')).
Proof.
  intros H. set (h := (history71 ++ [AddStructure "S:M:." "is_root" "False"])%list). set (q := repo_of (run script_text simple_path [] h)).
  assert (Hh : Forall (plain_op script_text) h) by (apply plain_ops_b; vm_compute; reflexivity).
  assert (B : holds q (fun d => in_dictionary d (text "S:M:.") && negb (in_dictionary d (text "B:M:.")) && negb (existsb (String.eqb (str (text "S:M:."))) (roots_of d)) &&
    existsb (fun q => match script_in (text "S:M:.") q with Ok b => b | Err _ => false end && match script_in (text "B:M:.") q with Ok b => b | Err _ => false end)%bool (d_root_scripts d))%bool = true) by (vm_compute; reflexivity).
  pose proof (folder_dictionary h q Hh eq_refl) as W.
  unfold holds in B. destruct (dict_of q) as [d|] eqn:E; [|discriminate]. specialize (W _ eq_refl). rewrite Forall_forall in W.
  apply andb_true_iff in B as [B B4]. apply andb_true_iff in B as [B B3]. apply andb_true_iff in B as [B1 B2].
  assert (F : fst (updating q (text "S:M:.") (text "B:M:.")) = Err TypeError) by (vm_compute; reflexivity).
  assert (K : factorised ident (text "S:M:.")) by (apply factorised_b; vm_compute; reflexivity).
  assert (K' : factorised ident (text "B:M:.")) by (apply factorised_b; vm_compute; reflexivity).
  assert (N : cardinal (text "S:M:.") <> 1%N) by (vm_compute; discriminate).
  assert (N' : cardinal (text "B:M:.") <> 1%N) by (vm_compute; discriminate).
  assert (C : constructible (text "S:M:.")) by text_ok. assert (C' : constructible (text "B:M:.")) by text_ok.
  assert (M1 : member d (text "S:M:.")) by (apply member_b, B1).
  assert (M2 : ~ member d (text "B:M:.")) by (intros M; apply (proj2 (member_b d (text "B:M:."))) in M; apply negb_true_iff in B2; congruence).
  assert (M3 : ~ In (str (text "S:M:.")) (roots_of d)).
  { intros M. apply negb_true_iff in B3. assert (existsb (String.eqb (str (text "S:M:."))) (roots_of d) = true); [|congruence]. apply existsb_exists. eexists. split; [exact M|apply String.eqb_refl]. }
  assert (M4 : exists root, In root (d_root_scripts d) /\ included (text "S:M:.") root /\ included (text "B:M:.") root).
  { apply existsb_exists in B4 as (x & Hx & B4). apply andb_true_iff in B4 as [X1 X2]. exists x. split; [exact Hx|]. split; apply inside_b; auto. }
  destruct (H ident script_text simple_path is_desc_file listed_file (fun l => l) h q d (text "S:M:.") (text "B:M:.")) as [r' X];
    [apply set_order_id|apply simple_paradigms|apply file_order_id|exact Hh|reflexivity|apply repo_of_clean|exact E|assumption..|].
  assert (Y := f_equal fst X). cbn [fst] in Y. congruence.
Qed.
Print Assumptions C73_accepts_refuted.
