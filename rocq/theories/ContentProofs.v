(** Lemmas on the listing of a folder. *)
From Coq Require Import List String Ascii Bool NArith Arith Lia Permutation.
From Verif Require Import Base Script ScriptStrProofs SortProofs Dictionary Database DatabaseSpec DatabaseProofs DatabaseRefine DatabasePath DatabasePathProofs Properties3 Paradigms ParadigmsProofs Query QuerySpec.
Import ListNotations.
Local Open Scope string_scope.

Lemma uniq_cons x l : uniq (x :: l) = match l with y :: _ => if String.eqb x y then uniq l else x :: uniq l | [] => [x] end.
Proof. destruct l; reflexivity. Qed.
(** Lines come in blocks, one per file. *)
Lemma uniq_blocks {A} (f : A -> string) (blocks : string -> list A) is : NoDup is -> (forall j r, In j is -> In r (blocks j) -> f r = j) ->
  NoDup (uniq (map f (flat_map blocks is))).
Proof.
  intros N H. assert (U : forall l, NoDup (uniq l) <-> NoDup (uniq l)) by tauto. clear U.
  assert (K : forall j n l, ~ In j l -> NoDup (uniq l) -> NoDup (uniq (repeat j n ++ l)%list)).
  { intros j n l Nj Nl. induction n as [|n IH]; [exact Nl|]. cbn [repeat app]. rewrite uniq_cons. destruct (repeat j n ++ l)%list as [|y t] eqn:E; [repeat constructor; intros []|].
    destruct (String.eqb_spec j y) as [->|D]; [exact IH|]. constructor; [|exact IH]. rewrite uniq_in, <- E, in_app_iff. destruct n as [|n]; [intros [[]|X]; auto|]. cbn [repeat app] in E. injection E as -> _. now destruct D. }
  induction is as [|j is IH]; [constructor|]. apply NoDup_cons_iff in N. destruct N as [N1 N]. cbn [flat_map]. rewrite map_app.
  assert (E : map f (blocks j) = repeat j (List.length (blocks j))).
  { assert (Hb : forall r, In r (blocks j) -> f r = j) by (intros r; apply H; now left). clear -Hb. induction (blocks j) as [|r b IH]; [reflexivity|]. cbn [map List.length repeat]. rewrite (Hb r (or_introl eq_refl)), IH by (intros; apply Hb; now right). reflexivity. }
  rewrite E. apply K; [|apply IH; auto; intros j' r Hj; apply H; now right].
  intros X. apply in_map_iff in X. destruct X as (r & Er & X). apply in_flat_map in X. destruct X as (j' & Hj & X). rewrite (H j' r (or_intror Hj) X) in Er. subst. contradiction.
Qed.

Section Folder.
  Variable parse_ieml : string -> res string.
  Variable path : bool -> string -> string.
  Variable is_desc : string -> bool.
  Variable fo : fsys -> fsys.
  Hypothesis fok : folder_ok parse_ieml path is_desc.
  Hypothesis Fo : file_order fo.
  Hypothesis stripped : forall n, parse_ieml n = Ok n -> strip byte_space n = n /\ n <> "".

  Lemma listing_spec (listed : string -> bool) (wanted : string -> Prop) fs st : (forall b j, parse_ieml j = Ok j -> listed (path b j) = true <-> b = true /\ wanted j) ->
    Inv parse_ieml path fs st ->
    NoDup (listing (sconcat (map snd (fo (filter (fun f => listed (fst f)) fs))))) /\
    forall i, In i (listing (sconcat (map snd (fo (filter (fun f => listed (fst f)) fs))))) <-> wanted i /\ exists r, In r (fst st) /\ dieml r = i.
  Proof.
    intros HL (Sh & HD & _ & GD & _).
    set (keep := fun r : drecord => listed (path true (dieml r))).
    set (fs' := filter (fun f => listed (fst f)) fs). set (rs := filter keep (fst st)).
    assert (Gp : forall r, In r (fst st) -> parse_ieml (dieml r) = Ok (dieml r)).
    { intros [[[j l] d] v] H. destruct (GD _ H) as (P & _). exact P. }
    assert (Sh' : shape parse_ieml path fs').
    { destruct Sh as [N S]. split.
      - unfold fs'. clear -N. induction fs as [|f fs IH]; [constructor|]. cbn [map] in N. apply NoDup_cons_iff in N as [N1 N2]. cbn [filter]. destruct (listed (fst f)); [|auto]. cbn [map]. constructor; [|auto].
        intros H. apply N1. apply in_map_iff in H as (g & E & H). apply filter_In in H. rewrite <- E. apply in_map. tauto.
      - intros p H. apply S. apply in_map_iff in H as (g & <- & H). apply filter_In in H. apply in_map. tauto. }
    assert (HD' : holds parse_ieml path true dieml dline fs' rs).
    { intros j Hj. specialize (HD j Hj).
      assert (Eg : fs_get fs' (path true j) = if listed (path true j) then fs_get fs (path true j) else None).
      { unfold fs', fs_get. clear. induction fs as [|f fs IH]; [destruct (listed _); reflexivity|]. cbn [filter find]. destruct (listed (fst f)) eqn:L; cbn [find].
        - destruct (String.eqb_spec (path true j) (fst f)) as [E|]; [|exact IH]. rewrite E, L. reflexivity.
        - rewrite IH. destruct (String.eqb_spec (path true j) (fst f)) as [E|]; [|reflexivity]. rewrite E, L. reflexivity. }
      assert (Eo : own dieml rs j = if listed (path true j) then own dieml (fst st) j else []).
      { unfold own, rs. rewrite filter_filter. destruct (listed (path true j)) eqn:L.
        - apply filter_ext_in_. intros r _. unfold keep. destruct (String.eqb_spec j (dieml r)) as [<-|]; [rewrite L; reflexivity|apply andb_false_r].
        - apply filter_none. intros r _. unfold keep. destruct (String.eqb_spec j (dieml r)) as [<-|]; [rewrite L; reflexivity|apply andb_false_r]. }
      rewrite Eg, Eo. destruct (listed (path true j)); [exact HD|reflexivity]. }
    assert (Gp' : forall r, In r rs -> parse_ieml (dieml r) = Ok (dieml r)) by (intros r H; apply filter_In in H; apply Gp; tauto).
    destruct (read_all parse_ieml path is_desc fok true dieml dline fs' rs fo Sh' HD' Fo Gp') as (is & Nd & His & E).
    assert (Ef : filter (fun f => Bool.eqb (is_desc (fst f)) true) fs' = fs').
    { apply filter_all. intros f Hf. destruct Sh' as [_ S]. destruct (S (fst f) (in_map fst _ _ Hf)) as (b & j & Pj & Ep). rewrite Ep.
      rewrite (path_kind _ _ _ fok) by exact Pj. apply filter_In in Hf as [_ Hl]. rewrite Ep in Hl. apply (HL b j Pj) in Hl as [-> _]. reflexivity. }
    rewrite Ef in E. change (filter (fun f => listed (fst f)) fs) with fs'. rewrite E. unfold listing.
    assert (G : forall r, In r (flat_map (own dieml rs) is) <-> In r rs).
    { intros r. rewrite in_flat_map. split; [intros (j & _ & H); apply filter_In in H; tauto|]. intros H. exists (dieml r). split; [apply His, H|]. apply filter_In. split; [exact H|apply String.eqb_refl]. }
    rewrite (listing_lines parse_ieml) by (intros r H; apply G in H; apply filter_In in H; apply GD; tauto).
    assert (K : forall j, In j (map dieml (flat_map (own dieml rs) is)) -> strip byte_space j = j /\ j <> "").
    { intros j H. apply in_map_iff in H as (r & <- & H). apply G in H. apply stripped, Gp', H. }
    assert (Em : map (strip byte_space) (uniq (map dieml (flat_map (own dieml rs) is))) = uniq (map dieml (flat_map (own dieml rs) is))).
    { etransitivity; [|apply map_id]. apply map_ext_in. intros j H. apply (proj1 (uniq_in _ _)) in H. apply K, H. }
    rewrite Em, filter_all by (intros j H; apply (proj1 (uniq_in _ _)) in H; apply K in H as [_ H]; apply negb_true_iff, String.eqb_neq, H).
    split.
    - apply uniq_blocks; [exact Nd|]. intros j r _ Hr. apply filter_In in Hr. destruct Hr as [_ Hr]. apply String.eqb_eq in Hr. congruence.
    - intros i. rewrite uniq_in, in_map_iff. split.
      + intros (r & <- & H). apply G in H. pose proof (Gp' _ H) as P. apply filter_In in H as [H L]. apply (HL true _ P) in L as [_ L]. eauto.
      + intros (Hs & r & Hr & <-). exists r. split; [reflexivity|]. apply G, filter_In. split; [exact Hr|]. apply (HL true _ (Gp _ Hr)). auto.
  Qed.
End Folder.

(** * The files below a directory *)
Definition sep (a : string) : string := if (String.eqb a "" || ends_with_slash a)%bool then a else a ++ "/".
Lemma join_sep a b : ~ occurs "/" b -> os_join a b = sep a ++ b.
Proof. intros H. rewrite os_join_shape by exact H. unfold sep. destruct (_ || _)%bool; [reflexivity|]. now rewrite string_app_assoc. Qed.
Lemma ends_app a b : b <> "" -> ends_with_slash (a ++ b) = ends_with_slash b.
Proof.
  intros N. induction a as [|c a IH]; [reflexivity|]. cbn [append ends_with_slash]. destruct (a ++ b) eqn:E; [destruct a; [now destruct N|discriminate]|exact IH].
Qed.
Lemma no_slash_end b : ~ occurs "/" b -> ends_with_slash b = false.
Proof.
  induction b as [|c b IH]; intros H; [reflexivity|]. rewrite occurs_cons in H. cbn [ends_with_slash]. destruct b as [|c' b]; [|apply IH; tauto]. destruct (Ascii.eqb_spec c "/") as [->|]; [tauto|reflexivity].
Qed.
Lemma sep_join a b : ~ occurs "/" b -> b <> "" -> sep (os_join a b) = sep a ++ b ++ "/".
Proof.
  intros H N. rewrite join_sep by exact H. unfold sep at 1. rewrite ends_app, no_slash_end by auto. assert (String.eqb (sep a ++ b) "" = false) as ->. { apply String.eqb_neq. intros E. destruct (sep a); [cbn in E; congruence|discriminate]. }
  cbn [orb]. now rewrite string_app_assoc.
Qed.
Lemma sep_sep a : sep (sep a) = sep a.
Proof.
  unfold sep at 2. destruct (String.eqb a "" || ends_with_slash a)%bool eqn:E; unfold sep; rewrite ?E; [reflexivity|]. rewrite ends_app by discriminate. cbn. now rewrite orb_true_r.
Qed.
Lemma prefix_same a b c : String.prefix (a ++ b) (a ++ c) = String.prefix b c.
Proof. induction a as [|x a IH]; [reflexivity|]. cbn. destruct (ascii_dec x x); [exact IH|congruence]. Qed.
Lemma prefix_cons a b x y : String.prefix (String a x) (String b y) = (Ascii.eqb a b && String.prefix x y)%bool.
Proof. cbn [String.prefix]. destruct (ascii_dec a b) as [E|E]; [apply Ascii.eqb_eq in E|apply Ascii.eqb_neq in E]; rewrite E; reflexivity. Qed.
Lemma prefix_nil s : String.prefix "" s = true.
Proof. destruct s; reflexivity. Qed.
Lemma prefix_slash t : forall cf r, ~ occurs "/" t -> ~ occurs "/" cf -> String.prefix (t ++ "/") (cf ++ "/" ++ r) = String.eqb t cf.
Proof.
  induction t as [|c t IH]; intros [|c' cf] r H1 H2; cbn [append].
  - rewrite prefix_cons, prefix_nil. reflexivity.
  - rewrite occurs_cons in H2. rewrite prefix_cons. destruct (Ascii.eqb "/" c') eqn:E; [apply Ascii.eqb_eq in E; subst c'; tauto|reflexivity].
  - rewrite occurs_cons in H1. rewrite prefix_cons. destruct (Ascii.eqb c "/") eqn:E; [apply Ascii.eqb_eq in E; subst c; tauto|reflexivity].
  - rewrite occurs_cons in H1, H2. rewrite prefix_cons. change (String "/" r) with ("/" ++ r). rewrite IH by tauto. cbn [String.eqb]. destruct (Ascii.eqb c c'); reflexivity.
Qed.
Lemma class_name c : ~ occurs "/" (fst (class_folder c)) /\ fst (class_folder c) <> "".
Proof. destruct c; split; unfold occurs; cbn; intuition discriminate. Qed.
Definition card_name (b : bool) : string := if b then "singular" else "paradigm".
Lemma card_ok b : ~ occurs "/" (card_name b) /\ card_name b <> "".
Proof. destruct b; split; unfold occurs; cbn; intuition discriminate. Qed.

Section Path.
  Variables (sha : string -> string) (class_of : string -> iclass) (singular : string -> bool) (folder : string).
  Lemma db_path_split b i : nameable sha i -> exists r, db_path sha class_of singular folder b i = sep folder ++ fst (class_folder (class_of i)) ++ "/" ++ card_name (singular i) ++ "/" ++ r.
  Proof.
    intros (H1 & H2 & H3). unfold db_path. destruct (class_name (class_of i)) as [C1 C2]. destruct (class_folder (class_of i)) as [cf size]. cbn [fst] in *.
    assert (F : ~ occurs "/" (filename_of sha i)) by (apply filename_occurs; auto; discriminate).
    rewrite join_sep by (rewrite occurs_app; intros [H|H]; [exact (F H)|exact (ext_slash sha class_of singular folder b H)]).
    set (pre := substring 0 size (filename_of sha i)). assert (P : ~ occurs "/" pre) by (intros X; apply F; eapply substring_occurs; exact X).
    fold (card_name (singular i)). destruct (card_ok (singular i)) as [K1 K2].
    assert (B : sep (os_join (os_join folder cf) (card_name (singular i))) = sep folder ++ cf ++ "/" ++ card_name (singular i) ++ "/") by (rewrite !sep_join by auto; now rewrite !string_app_assoc).
    destruct (String.eqb_spec pre "") as [E|E].
    - rewrite E, (join_sep _ "") by (intros []). rewrite string_app_nil, sep_sep, B. eexists. rewrite !string_app_assoc. reflexivity.
    - rewrite sep_join, B by auto. eexists. rewrite !string_app_assoc. reflexivity.
  Qed.
  Lemma below_spec b i type paradigm : nameable sha i -> (forall t, type = Some t -> ~ occurs "/" t) ->
    below (list_folder folder type paradigm) (db_path sha class_of singular folder b i) = true <-> in_folder class_of singular type paradigm i.
  Proof.
    intros Hn Ht. destruct (db_path_split b i Hn) as [r ->]. destruct (class_name (class_of i)) as [C1 C2]. unfold below, in_folder. rewrite join_sep, string_app_nil by (intros []).
    assert (R : String.prefix (sep folder) (sep folder ++ fst (class_folder (class_of i)) ++ "/" ++ card_name (singular i) ++ "/" ++ r) = true).
    { rewrite <- (string_app_nil (sep folder)) at 1. rewrite prefix_same. apply prefix_nil. }
    destruct type as [t|]; [|split; auto]. unfold list_folder. destruct (String.eqb_spec t "") as [->|N]; [split; auto|]. specialize (Ht t eq_refl).
    destruct paradigm as [p|].
    - replace (if p then "paradigm" else "singular") with (card_name (negb p)) by (destruct p; reflexivity). destruct (card_ok (negb p)) as [K1 K2], (card_ok (singular i)) as [K3 K4].
      rewrite sep_join, sep_join by auto. rewrite !string_app_assoc, prefix_same.
      destruct (String.eqb_spec t (fst (class_folder (class_of i)))) as [<-|D].
      + rewrite (prefix_same t). change ("/" ++ card_name (negb p) ++ "/") with ("/" ++ (card_name (negb p) ++ "/")). rewrite (prefix_same "/"), prefix_slash by auto. rewrite String.eqb_eq. split; [intros E; right; split; auto; destruct p, (singular i); cbn in E; congruence || reflexivity|intros [E|[_ ->]]; [congruence|now rewrite negb_involutive]].
      + split; [|intros [E|[E _]]; congruence]. intros X. exfalso. apply D.
        assert (Y : String.prefix (t ++ "/") (fst (class_folder (class_of i)) ++ "/" ++ card_name (singular i) ++ "/" ++ r) = true).
        { clear -X. revert X. generalize (fst (class_folder (class_of i)) ++ "/" ++ card_name (singular i) ++ "/" ++ r). intros s. rewrite <- (string_app_assoc t "/"). revert s. generalize (t ++ "/"). intros a. induction a as [|c a IH]; intros [|c' s]; cbn; try discriminate; auto. destruct (ascii_dec c c'); [apply IH|discriminate]. }
        rewrite prefix_slash in Y by auto. now apply String.eqb_eq in Y.
    - rewrite sep_join by auto. rewrite prefix_same, prefix_slash, String.eqb_eq by auto. split; [auto|intros [E|[E _]]; congruence].
  Qed.
End Path.
