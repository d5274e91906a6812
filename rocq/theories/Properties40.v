(** C91: the scripts that rename the entries of the database. *)
From Coq Require Import List String Ascii Bool NArith Arith Lia Permutation.
From Verif Require Import Base Script ScriptParser ScriptStrProofs Dictionary Database DatabaseSpec DatabaseProofs DatabaseRefine DatabasePath DatabasePathProofs
  FactorBoxProofs Properties1 Properties3 Properties31 Pull Paradigms Usl Sfun UslParser Listing ContentProofs Query Migrate MigrateSpec MigrateProofs.
Import ListNotations.
Local Open Scope string_scope.

(** The entry has descriptors, and the script wants another text for it. *)
Definition renamed (D : list drecord) (new_text : string -> res string) (t : string) : Prop :=
  described D t /\ exists n, new_text t = Ok n /\ n <> t.
(** The values of the keys in a folder, read again; the structure cannot be read when it is empty. *)
Definition holds_values (parse : string -> res string) (is_desc : string -> bool) (fo : fsys -> fsys) (fs : fsys) (vals : string -> string -> string -> list string) : Prop :=
  forall i l d, In l LANGUAGES -> In d DESCRIPTORS_CLASS -> descriptor_values parse is_desc fo fs i l d = Ok (map Some (vals i l d)).
Definition holds_structure (is_desc : string -> bool) (fo : fsys -> fsys) (fs : fsys) (svals : string -> string -> list string) : Prop :=
  match get_structure is_desc fo fs with
  | Ok rows => forall i k, structure_values rows i k = svals i k
  | Err e => e = ValueError /\ forall i k, svals i k = []
  end.

Lemma read_again parse texts path is_desc fo fs D T : folder_ok (verbatim parse texts) path is_desc -> file_order fo -> Inv (verbatim parse texts) path fs (D, T) ->
  (forall i l d, In l LANGUAGES -> In d DESCRIPTORS_CLASS -> descriptor_values parse is_desc fo fs i l d = Ok (map pandas_cell (values_of D i l d))) /\ holds_structure is_desc fo fs (svalues_of T).
Proof.
  intros ok Fo HI. split.
  - intros i l d Hl Hd. etransitivity; [|exact (lookup_read _ _ _ fo fs (D, T) i l d ok HI Fo Hl Hd)]. unfold descriptor_values, get_values, normalize_key. rewrite !andb_false_r. reflexivity.
  - unfold holds_structure. destruct (read_structure _ _ _ ok fs (D, T) fo HI Fo) as [A B]. cbn [snd] in *. destruct T as [|r T].
    + rewrite A by reflexivity. split; reflexivity.
    + destruct B as (rows & -> & F); [discriminate|]. intros i k. specialize (F i (fun r => String.eqb (snd (fst r)) k)). unfold structure_values, svalues_of. f_equal.
      etransitivity; [|etransitivity; [exact F|]]; apply filter_ext_in_; intros [[j k'] v] _; reflexivity.
Qed.
Lemma holds_ext parse is_desc fo fs (v w : string -> string -> string -> list string) : (forall i l d, v i l d = w i l d) -> (forall i l d x, In x (w i l d) -> ~ In x NA_VALUES) ->
  (forall i l d, In l LANGUAGES -> In d DESCRIPTORS_CLASS -> descriptor_values parse is_desc fo fs i l d = Ok (map pandas_cell (v i l d))) -> holds_values parse is_desc fo fs w.
Proof.
  intros E N H i l d Hl Hd. rewrite (H i l d Hl Hd), E. f_equal. apply map_ext_in. intros x Hx. unfold pandas_cell. rewrite inb_false; [reflexivity|]. exact (N _ _ _ _ Hx).
Qed.
Lemma values_in D i l d x : In x (values_of D i l d) -> In (i, l, d, x) D.
Proof.
  unfold values_of. intros H. apply in_map_iff in H as ([[[j l'] d'] v] & <- & H). apply filter_In in H as [H X]. rewrite !andb_true_iff, !String.eqb_eq in X. destruct X as ((-> & ->) & ->). exact H.
Qed.
Lemma came_readable D {A} (f : A -> string) l d own ms x : readable_values D -> In x (values_of D own l d ++ flat_map (fun m => values_of D (f m) l d) ms)%list -> ~ In x NA_VALUES.
Proof.
  intros Na H. apply in_app_iff in H as [H|H]; [|apply in_flat_map in H as (m & _ & H)]; apply values_in in H; exact (Na _ _ _ _ H).
Qed.
Lemma holds_structure_ext is_desc fo fs v w : (forall i k, v i k = w i k) -> holds_structure is_desc fo fs v -> holds_structure is_desc fo fs w.
Proof. unfold holds_structure. intros E H. destruct (get_structure is_desc fo fs); [intros i k; rewrite <- E; auto|]. destruct H as [-> H]. split; [reflexivity|]. intros i k. rewrite <- E. auto. Qed.

(** * normalize_database.py *)
(** What the script does, exactly: each entry whose text is not the one wanted is copied to the normal form of its
    new text; then all that is stored under the normal forms of the old texts is removed.
    Partial: the values are read back (none is a text that pandas reads as missing), there is some structure, and
    the texts are those of [renaming]. *)
Theorem C91_normalize_exact_partial : forall parse path is_desc fo new_text texts ops D T,
  renaming parse path is_desc new_text texts -> file_order fo -> Forall (op_ok (verbatim parse texts)) ops ->
  records parse texts ops = (D, T) -> T <> [] -> readable_values D ->
  exists olds fs', NoDup olds /\ (forall t, In t olds <-> renamed D new_text t) /\
    normalize_database parse path is_desc fo new_text (run (verbatim parse texts) path [] ops) = Ok fs' /\
    holds_values parse is_desc fo fs' (fun i l d => if existsb (is_form parse i) olds then []
      else values_of D i l d ++ flat_map (fun t => values_of D t l d) (filter (goes_to parse new_text i) olds))%list /\
    holds_structure is_desc fo fs' (fun i k => if existsb (is_form parse i) olds then []
      else svalues_of T i k ++ flat_map (fun t => svalues_of T t k) (filter (goes_to parse new_text i) olds))%list.
Proof.
  intros parse path is_desc fo new_text texts ops D T [ok idem Tx Nw] Fo Ho Er NT Na.
  set (V := verbatim parse texts) in *. set (fs := run V path [] ops).
  pose proof (run_inv V path is_desc ok ops [] ([], []) (Inv_empty V path) Ho) as HI. fold fs in HI. unfold records in Er. fold V in Er. rewrite Er in HI.
  destruct (records_kept V ops ([], []) (Forall_nil _) (Forall_nil _)) as [KD KT]. rewrite Er in KD, KT. cbn [fst snd] in KD, KT.
  destruct (read_d V path is_desc ok fs (D, T) fo HI Fo) as (rows & Er1 & Pr & Rr). cbn [fst] in Pr, Rr.
  destruct (read_structure V path is_desc ok fs (D, T) fo HI Fo) as [_ Rs]. destruct (Rs NT) as (srows & Er2 & Sr). cbn [snd] in Sr.
  assert (Vtext : forall s n, V s = Ok n -> n = s /\ In s texts) by (intros s n; apply (V_ok parse texts)).
  assert (Dt : forall t, described D t -> In t texts).
  { intros t (l & d & v & H). destruct HI as (_ & _ & _ & GD & _). destruct (GD _ H) as (P & _). apply Vtext in P. tauto. }
  destruct (listing_spec V path is_desc fo ok Fo) with (listed := is_desc) (wanted := fun _ : string => True) (fs := fs) (st := (D, T)) as [Nl Ll]; [| |exact HI|].
  { intros n H. apply Vtext in H as [_ H]. split; [apply (Tx n H)|]. intros ->. exact (parse_empty _ _ _ ok _ (V_text parse texts Tx _ H)). }
  { intros b j Hj. rewrite (path_kind _ _ _ ok _ _ Hj). tauto. }
  fold (all_texts is_desc fo fs) in Nl, Ll.
  assert (La : forall t, In t (all_texts is_desc fo fs) <-> described D t).
  { intros t. rewrite Ll. cbn [fst]. split; [intros (_ & [[[i l] d] v] & H & E); unfold dieml in E; cbn in E; subst i; exists l, d, v; exact H|intros (l & d & v & H); split; [tauto|exists (t, l, d, v); auto]]. }
  destruct (plan_spec new_text (all_texts is_desc fo fs) Nl) with (acc := @nil (string * string)) as (ms & Em & Nm & Ms).
  { intros s H. apply La, Dt in H. destruct (Nw s H) as [E|(n & m & E & _)]; [auto|right; eauto]. }
  { intros s _ []. }
  cbn [app] in Em.
  assert (Mo : forall m, In m ms -> In (fst m) texts /\ new_text (fst m) = Ok (snd m) /\ snd m <> "" /\ exists n, parse (snd m) = Ok n /\ In n texts).
  { intros [s n] H. apply Ms in H as (H & E & _). apply La, Dt in H. cbn [fst snd]. split; [exact H|]. split; [exact E|]. destruct (Nw s H) as [X|(n' & m & X & N & P & I)]; [congruence|]. rewrite X in E. injection E as <-. eauto. }
  destruct (copies parse texts path is_desc ok idem Tx fs D T HI KD KT Na rows srows Rr Sr ms) with (fs := fs) (D := D) (T := T) as (fs1 & A & B & E1 & H1 & VA & VB); [|exact HI|].
  { intros m H. destruct (Mo m H) as (_ & _ & N & P). auto. }
  destruct (removals parse texts path is_desc ok idem Tx (map fst ms)) with (fs := fs1) (D := (D ++ A)%list) (T := (T ++ B)%list) as (fs2 & D2 & T2 & E2 & H2 & WA & WB); [|exact H1|].
  { intros t H. apply in_map_iff in H as (m & <- & H). destruct (Mo m H) as (It & _). split; [|destruct (Tx _ It) as (_ & _ & P); exact P]. intros X. apply (text_nonempty parse texts path is_desc ok Tx) in It. rewrite X in It. discriminate. }
  exists (map fst ms), fs2. split; [exact Nm|]. split; [|split; [|split]].
  - intros t. rewrite in_map_iff. unfold renamed. rewrite <- La. split; [intros ([s n] & <- & H); apply Ms in H; cbn; destruct H; eauto|intros (H & n & E & N); exists (t, n); split; [reflexivity|]; apply Ms; auto].
  - unfold normalize_database. rewrite Er1, Er2. cbn [bind]. rewrite Em. cbn [bind]. unfold migrate. rewrite E1. exact E2.
  - destruct (read_again parse texts path is_desc fo fs2 D2 T2 ok Fo H2) as [R _]. eapply holds_ext; [| |exact R]; [|intros i l d x Hx; cbn beta in Hx; destruct (existsb _ _) in Hx; [destruct Hx|exact (came_readable D (fun t => t) l d i _ x Na Hx)]]. intros i l d. cbn beta. rewrite WA, values_app, VA. destruct (existsb _ _); [reflexivity|]. f_equal.
    clear -Mo. induction ms as [|m ms IH]; [reflexivity|]. cbn [map filter]. assert (X : arriving parse i m = goes_to parse new_text i (fst m)) by (unfold arriving, goes_to; destruct (Mo m (or_introl eq_refl)) as (_ & -> & _); reflexivity).
    rewrite X. destruct (goes_to _ _ _ _); cbn [flat_map]; rewrite IH by (intros; apply Mo; now right); reflexivity.
  - destruct (read_again parse texts path is_desc fo fs2 D2 T2 ok Fo H2) as [_ R]. eapply holds_structure_ext; [|exact R]. intros i k. cbn beta. rewrite WB, svalues_app, VB. destruct (existsb _ _); [reflexivity|]. f_equal.
    clear -Mo. induction ms as [|m ms IH]; [reflexivity|]. cbn [map filter]. assert (X : arriving parse i m = goes_to parse new_text i (fst m)) by (unfold arriving, goes_to; destruct (Mo m (or_introl eq_refl)) as (_ & -> & _); reflexivity).
    rewrite X. destruct (goes_to _ _ _ _); cbn [flat_map]; rewrite IH by (intros; apply Mo; now right); reflexivity.
Qed.
Print Assumptions C91_normalize_exact_partial.

(** The conditions on the values are necessary: the script fails on a database without structure, and when the text of a
    value of a renamed entry is one that pandas reads as missing. *)
Theorem C91_fails_refuted : forall parse path is_desc fo new_text texts ops D T,
  renaming parse path is_desc new_text texts -> file_order fo -> Forall (op_ok (verbatim parse texts)) ops -> records parse texts ops = (D, T) ->
  (T = [] -> normalize_database parse path is_desc fo new_text (run (verbatim parse texts) path [] ops) = Err ValueError) /\
  (forall t l d v, renamed D new_text t -> In (t, l, d, v) D -> In v NA_VALUES ->
    exists e, normalize_database parse path is_desc fo new_text (run (verbatim parse texts) path [] ops) = Err e).
Proof.
  intros parse path is_desc fo new_text texts ops D T [ok idem Tx Nw] Fo Ho Er.
  set (V := verbatim parse texts) in *. set (fs := run V path [] ops).
  pose proof (run_inv V path is_desc ok ops [] ([], []) (Inv_empty V path) Ho) as HI. fold fs in HI. unfold records in Er. fold V in Er. rewrite Er in HI.
  destruct (read_d V path is_desc ok fs (D, T) fo HI Fo) as (rows & Er1 & Pr & Rr). cbn [fst] in Pr, Rr.
  destruct (read_structure V path is_desc ok fs (D, T) fo HI Fo) as [Rn _]. cbn [snd] in Rn. split.
  - intros E. unfold normalize_database. rewrite Er1, (Rn E). reflexivity.
  - intros t l d v [Dt (n & En & Nn)] H Hv.
    assert (Vtext : forall s n, V s = Ok n -> n = s /\ In s texts) by (intros s m; apply (V_ok parse texts)).
    assert (Dd : forall t, described D t -> In t texts).
    { intros x (l' & d' & v' & H'). destruct HI as (_ & _ & _ & GD & _). destruct (GD _ H') as (P & _). apply Vtext in P. tauto. }
    destruct (listing_spec V path is_desc fo ok Fo) with (listed := is_desc) (wanted := fun _ : string => True) (fs := fs) (st := (D, T)) as [Nl Ll]; [| |exact HI|].
    { intros m X. apply Vtext in X as [_ X]. split; [apply (Tx m X)|]. intros ->. exact (parse_empty _ _ _ ok _ (V_text parse texts Tx _ X)). }
    { intros b j Hj. rewrite (path_kind _ _ _ ok _ _ Hj). tauto. }
    fold (all_texts is_desc fo fs) in Nl, Ll.
    assert (La : forall t, In t (all_texts is_desc fo fs) <-> described D t).
    { intros x. rewrite Ll. cbn [fst]. split; [intros (_ & [[[i l'] d'] v'] & H' & E); unfold dieml in E; cbn in E; subst i; exists l', d', v'; exact H'|intros (l' & d' & v' & H'); split; [tauto|exists (x, l', d', v'); auto]]. }
    destruct (plan_spec new_text (all_texts is_desc fo fs) Nl) with (acc := @nil (string * string)) as (ms & Em & _ & Ms).
    { intros s X. apply La, Dd in X. destruct (Nw s X) as [E|(m & m' & E & _)]; [auto|right; eauto]. }
    { intros s _ []. }
    cbn [app] in Em. unfold normalize_database. rewrite Er1. cbn [bind]. destruct (get_structure is_desc fo fs) as [srows|e]; [|exists e; reflexivity]. cbn [bind]. rewrite Em. cbn [bind]. unfold migrate.
    destruct (each (copy_entry parse path srows rows) fs ms) as [g|e] eqn:E; [|exists e; reflexivity]. exfalso.
    assert (Im : In (t, n) ms) by (apply Ms; rewrite La; auto).
    destruct (each_ok _ _ _ _ E _ Im) as (a & b & F). unfold copy_entry in F. cbn [fst snd] in F. destruct (copy_structure parse path srows t n a) as [a'|]; [|discriminate]. cbn [bind] in F.
    unfold copy_descriptors, get_values_partial in F.
    assert (X : normalize_key parse false t None None true false = Ok (t, None, None)) by (unfold normalize_key; destruct (String.eqb t ""); reflexivity).
    rewrite X in F. cbn [bind] in F. rewrite (each_nested (copy_value parse path n)) in F.
    match type of F with each _ _ (flat_map _ (group_by _ ?m)) = _ => set (m0 := m) in F; fold (flat dkey_eqb m0) in F end.
    assert (Y : In (t, l, d, None) (flat dkey_eqb m0)).
    { apply (proj2 (flat_in dkey_eqb dkey_eq _ _)). unfold m0. apply in_map_iff. exists (t, l, d, v). split; [unfold pandas_cell; rewrite (proj2 (inb_In _ _)) by exact Hv; reflexivity|].
      apply filter_In. split; [apply FactorBoxProofs.in_sort; apply (rows_in D rows Rr); exact H|]. cbn. now rewrite String.eqb_refl. }
    destruct (each_ok _ _ _ _ F _ Y) as (a1 & b1 & G). unfold copy_value in G. cbn [fst snd] in G. match type of G with context [normalize_key ?a ?b ?c ?d ?e ?f ?g] => destruct (normalize_key a b c d e f g) end; discriminate G.
Qed.
Print Assumptions C91_fails_refuted.

(** [normalize=False] changes nothing: the text was normalised before (ieml_database.py 279-282, 317-319). *)
Theorem C91_normalize_flag : forall parse path fs t, t <> "" -> (forall n, parse t = Ok n -> parse n = Ok n) ->
  remove_entry parse path false fs t = remove_entry parse path true fs t.
Proof.
  intros parse path fs t N H. apply String.eqb_neq in N. unfold remove_entry, remove_structures, remove_descriptors, normalize_key. rewrite N.
  destruct (parse t) as [n|e] eqn:E; [|reflexivity]. cbn [bind fst negb andb orb truthy]. unfold path_of_text. rewrite (H n eq_refl). reflexivity.
Qed.
Print Assumptions C91_normalize_flag.

Lemma described_text parse path is_desc texts ops D T t : folder_ok (verbatim parse texts) path is_desc -> Forall (op_ok (verbatim parse texts)) ops ->
  records parse texts ops = (D, T) -> described D t -> In t texts.
Proof.
  intros ok Ho Er (l & d & v & H). pose proof (run_inv _ path is_desc ok ops [] ([], []) (Inv_empty _ path) Ho) as HI. unfold records in Er. rewrite Er in HI.
  destruct HI as (_ & _ & _ & GD & _). destruct (GD _ H) as (P & _). apply V_ok in P. tauto.
Qed.

(** False: that no descriptor is lost. An entry under a text that is not the normal form is still there afterwards, and
    all that its normal form had, copy included, is gone: [normalize=False] comes too late, since the key is already
    normalised (ieml_database.py 279-282, 317-319). *)
Theorem C91_unnormalised_refuted : forall parse path is_desc fo new_text texts ops D T,
  renaming parse path is_desc new_text texts -> file_order fo -> Forall (op_ok (verbatim parse texts)) ops ->
  records parse texts ops = (D, T) -> T <> [] -> readable_values D ->
  forall t n, described D t -> new_text t = Ok n -> parse t = Ok n -> n <> t ->
  exists fs', normalize_database parse path is_desc fo new_text (run (verbatim parse texts) path [] ops) = Ok fs' /\
    forall l d, In l LANGUAGES -> In d DESCRIPTORS_CLASS ->
      descriptor_values parse is_desc fo fs' n l d = Ok [] /\
      descriptor_values parse is_desc fo fs' t l d = Ok (map Some (values_of D t l d)).
Proof.
  intros parse path is_desc fo new_text texts ops D T Rn Fo Ho Er NT Na t n Dt Et Pt N.
  destruct (C91_normalize_exact_partial parse path is_desc fo new_text texts ops D T Rn Fo Ho Er NT Na) as (olds & fs' & _ & O & E & H & _).
  exists fs'. split; [exact E|]. intros l d Hl Hd. assert (It : In t olds) by (apply O; split; [exact Dt|eauto]). split.
  - rewrite (H n l d Hl Hd). assert (existsb (is_form parse n) olds = true) as ->; [|reflexivity]. apply existsb_exists. exists t. split; [exact It|]. unfold is_form. rewrite Pt. apply String.eqb_refl.
  - rewrite (H t l d Hl Hd). assert (F : forall x, is_form parse t x = false).
    { intros x. unfold is_form. destruct (parse x) as [y|] eqn:Px; [|reflexivity]. destruct (String.eqb_spec y t) as [->|]; [|reflexivity]. apply (rn_idem _ _ _ _ _ Rn) in Px; [congruence|]. apply (described_text parse path is_desc texts ops D T); [apply Rn|assumption..]. }
    assert (existsb (is_form parse t) olds = false) as ->. { destruct (existsb _ _) eqn:X; [|reflexivity]. apply existsb_exists in X as (x & _ & X). rewrite F in X. discriminate. }
    assert (filter (goes_to parse new_text t) olds = []) as ->; [|now rewrite app_nil_r]. apply filter_none. intros x _. unfold goes_to. destruct (new_text x); [apply F|reflexivity].
Qed.
Print Assumptions C91_unnormalised_refuted.

(** When only words that are in normal form are to be simplified, and none into a text to be renamed, nothing is lost:
    the values of the old texts are added to those of the new ones. *)
Theorem C91_simplified_partial : forall parse path is_desc fo new_text texts ops D T,
  renaming parse path is_desc new_text texts -> file_order fo -> Forall (op_ok (verbatim parse texts)) ops ->
  records parse texts ops = (D, T) -> T <> [] -> readable_values D ->
  (forall t, renamed D new_text t -> parse t = Ok t) ->
  (forall t n m, renamed D new_text t -> new_text t = Ok n -> parse n = Ok m -> ~ renamed D new_text m) ->
  exists olds fs', NoDup olds /\ (forall t, In t olds <-> renamed D new_text t) /\
    normalize_database parse path is_desc fo new_text (run (verbatim parse texts) path [] ops) = Ok fs' /\
    forall i l d, In l LANGUAGES -> In d DESCRIPTORS_CLASS ->
      (renamed D new_text i -> descriptor_values parse is_desc fo fs' i l d = Ok []) /\
      (~ renamed D new_text i -> descriptor_values parse is_desc fo fs' i l d =
         Ok (map Some (values_of D i l d ++ flat_map (fun t => values_of D t l d) (filter (goes_to parse new_text i) olds)))%list) /\
      (forall t n m v, renamed D new_text t -> new_text t = Ok n -> parse n = Ok m -> In v (values_of D t l d) ->
         exists vs, descriptor_values parse is_desc fo fs' m l d = Ok vs /\ In (Some v) vs).
Proof.
  intros parse path is_desc fo new_text texts ops D T Rn Fo Ho Er NT Na Nf Nc.
  destruct (C91_normalize_exact_partial parse path is_desc fo new_text texts ops D T Rn Fo Ho Er NT Na) as (olds & fs' & No & O & E & H & _).
  exists olds, fs'. split; [exact No|]. split; [exact O|]. split; [exact E|]. intros i l d Hl Hd.
  assert (X : forall j, existsb (is_form parse j) olds = true <-> renamed D new_text j).
  { intros j. rewrite existsb_exists. split.
    - intros (x & Hx & F). apply O in Hx. unfold is_form in F. rewrite (Nf x Hx) in F. apply String.eqb_eq in F. now subst.
    - intros R. exists j. split; [now apply O|]. unfold is_form. rewrite (Nf j R). apply String.eqb_refl. }
  assert (Y : forall j, ~ renamed D new_text j -> existsb (is_form parse j) olds = false) by (intros j R; destruct (existsb _ _) eqn:Z; [apply X in Z; contradiction|reflexivity]).
  split; [|split].
  - intros R. apply X in R. rewrite (H i l d Hl Hd), R. reflexivity.
  - intros R. rewrite (H i l d Hl Hd), (Y i R). reflexivity.
  - intros t n m v R En Pm Hv. rewrite (H m l d Hl Hd), (Y m (Nc t n m R En Pm)). eexists. split; [reflexivity|]. apply in_map, in_app_iff. right. apply in_flat_map. exists t. split; [|exact Hv].
    apply filter_In. split; [now apply O|]. unfold goes_to, is_form. rewrite En, Pm. apply String.eqb_refl.
Qed.
Print Assumptions C91_simplified_partial.

(** * factorize_db.py *)
(** The scripts moved are in normal form; none is moved to the normal form of a script to be moved. *)
Theorem C91_factorize_partial : forall parse path is_desc fo texts ops D T scripts,
  renaming parse path is_desc (fun _ => Err CannotParse) texts -> file_order fo -> Forall (op_ok (verbatim parse texts)) ops ->
  records parse texts ops = (D, T) -> T <> [] -> readable_values D ->
  (forall old new, In (old, new) scripts -> In old texts /\ parse old = Ok old /\ new <> "" /\ exists n, parse new = Ok n /\ In n texts /\ ~ In n (map fst scripts)) ->
  exists fs', factorize_database parse path is_desc fo scripts (run (verbatim parse texts) path [] ops) = Ok fs' /\
    holds_values parse is_desc fo fs' (fun i l d => if mem i (map fst scripts) then []
      else values_of D i l d ++ flat_map (fun m => values_of D (fst m) l d) (filter (fun m => is_form parse i (snd m)) scripts))%list /\
    holds_structure is_desc fo fs' (fun i k => if mem i (map fst scripts) then []
      else svalues_of T i k ++ flat_map (fun m => svalues_of T (fst m) k) (filter (fun m => is_form parse i (snd m)) scripts))%list.
Proof.
  intros parse path is_desc fo texts ops D T scripts [ok idem Tx _] Fo Ho Er NT Na Hs.
  set (V := verbatim parse texts) in *. set (fs := run V path [] ops).
  pose proof (run_inv V path is_desc ok ops [] ([], []) (Inv_empty V path) Ho) as HI. fold fs in HI. unfold records in Er. fold V in Er. rewrite Er in HI.
  destruct (records_kept V ops ([], []) (Forall_nil _) (Forall_nil _)) as [KD KT]. rewrite Er in KD, KT. cbn [fst snd] in KD, KT.
  destruct (read_d V path is_desc ok fs (D, T) fo HI Fo) as (rows & Er1 & Pr & Rr). cbn [fst] in Pr, Rr.
  destruct (read_structure V path is_desc ok fs (D, T) fo HI Fo) as [_ Rs]. destruct (Rs NT) as (srows & Er2 & Sr). cbn [snd] in Sr.
  assert (M : forall i, existsb (is_form parse i) (map fst scripts) = mem i (map fst scripts)).
  { intros i. unfold mem. assert (P : forall x, In x (map fst scripts) -> parse x = Ok x) by (intros x Hx; apply in_map_iff in Hx as ([o n] & <- & Hx); apply (Hs _ _ Hx)). revert P. generalize (map fst scripts). clear. induction l as [|x l IH]; intros P; [reflexivity|].
    cbn [existsb]. rewrite IH by (intros y Hy; apply P; now right). unfold is_form at 1. rewrite (P x (or_introl eq_refl)), (String.eqb_sym x i). reflexivity. }
  destruct (moves parse texts path is_desc ok idem Tx fs D T HI KD KT Na rows srows Rr Sr scripts) with (fs := fs) (D := D) (T := T) as (fs1 & D1 & T1 & E1 & H1 & VA & VB); [| | |exact HI|].
  - intros [o n] H. destruct (Hs _ _ H) as (Io & Po & _). cbn [fst]. split; [|eauto]. intros X. apply (text_nonempty parse texts path is_desc ok Tx) in Io. rewrite X in Io. discriminate.
  - intros [o n] H. destruct (Hs _ _ H) as (_ & _ & N & m & Pm & Im & _). cbn [snd]. eauto.
  - intros i [o n] [o' n'] H H' Ar. destruct (Hs _ _ H) as (_ & _ & N & m & Pm & Im & Nm). destruct (Hs _ _ H') as (_ & Po & _). unfold arriving, is_form in *. cbn [fst snd] in *. rewrite Pm in Ar. rewrite Po. apply String.eqb_eq in Ar. subst m.
    apply String.eqb_neq. intros ->. apply Nm. now apply (in_map fst) in H'.
  - exists fs1. split; [unfold factorize_database; rewrite Er1, Er2; exact E1|]. destruct (read_again parse texts path is_desc fo fs1 D1 T1 ok Fo H1) as [R R']. split.
    + eapply holds_ext; [| |exact R].
      * intros i l d. rewrite VA, M. reflexivity.
      * intros i l d x Hx. cbn beta in Hx. destruct (mem _ _) in Hx; [destruct Hx|exact (came_readable D fst l d i _ x Na Hx)].
    + eapply holds_structure_ext; [|exact R']. intros i k. rewrite VB, M. reflexivity.
Qed.
Print Assumptions C91_factorize_partial.

(** * Cases *)
Lemma simple_renaming parse new_text texts : (forall s n, parse s = Ok n -> In n texts -> parse n = Ok n) -> ~ In "" texts ->
  (forall s, In s texts -> plain s /\ strip byte_space s = s /\ exists n, parse s = Ok n /\ In n texts) ->
  (forall s, In s texts -> new_text s = Err CannotParse \/ exists n m, new_text s = Ok n /\ n <> "" /\ parse n = Ok m /\ In m texts) ->
  renaming parse simple_path is_desc_file new_text texts.
Proof.
  intros Hi He Ht Hn. constructor; try assumption. constructor.
  - intros s n E. destruct (V_ok parse texts s n E) as [-> _]. exact E.
  - intros n E. apply V_ok in E. tauto.
  - intros b b' i j _ _ E. unfold simple_path in E. apply string_app_eq_r in E; [|destruct b, b'; reflexivity].
    destruct E as [-> E]. split; [|reflexivity]. destruct b, b'; try reflexivity; discriminate.
  - intros b i _. unfold simple_path. rewrite is_desc_app by (destruct b; reflexivity). destruct b; reflexivity.
Qed.
Lemma script_idem s n : script_text s = Ok n -> script_text n = Ok n.
Proof. apply (parse_idem _ _ _ simple_folder). Qed.
Ltac short_texts := intros ? H; repeat (destruct H as [<-|H]); [..|destruct H];
  (split; [plain_tac|split; [vm_compute; reflexivity|eexists; split; [vm_compute; reflexivity|cbn; tauto]]]).
Ltac short_news := intros ? H; repeat (destruct H as [<-|H]); [..|destruct H];
  right; do 2 eexists; (split; [vm_compute; reflexivity|split; [discriminate|split; [vm_compute; reflexivity|cbn; tauto]]]).
Ltac short_ops := repeat (apply Forall_cons; [split; [intros ?; vm_compute; intros [= <-]; plain_tac|first [discriminate|vm_compute; intuition discriminate]]|]); apply Forall_nil.
Definition first_order (fs : fsys) : fsys := fs.

(** The same expression under two texts, and another one. *)
Definition two_texts : list string := ["wa.+wo."; "wo.+wa."; "wa."].
Definition two_ops : list op :=
  [AddDescriptor "wa.+wo." "en" "translations" "early"; AddDescriptor "wo.+wa." "en" "translations" "late";
   AddDescriptor "wa." "en" "translations" "to act"; AddStructure "wa." "is_root" "True"].
Definition two_folder : fsys := run (verbatim script_text two_texts) simple_path [] two_ops.
Definition normalized : res fsys := normalize_database script_text simple_path is_desc_file first_order script_text two_folder.
Definition translations (r : res fsys) (parse : string -> res string) (i : string) : res (list (option string)) :=
  do fs <- r; descriptor_values parse is_desc_file first_order fs i "en" "translations".

Lemma two_renaming : renaming script_text simple_path is_desc_file script_text two_texts.
Proof.
  apply simple_renaming.
  - intros s n H _. exact (script_idem s n H).
  - cbn. intuition discriminate.
  - short_texts.
  - short_news.
Qed.
(** What C91_unnormalised_refuted says of it: late and the copy of early are lost. *)
Example C91_case_unnormalised :
  file_order first_order /\ Forall (op_ok (verbatim script_text two_texts)) two_ops /\
  (let D := fst (records script_text two_texts two_ops) in described D "wa.+wo." /\ readable_values D) /\ snd (records script_text two_texts two_ops) <> [] /\
  script_text "wa.+wo." = Ok "wo.+wa." /\
  translations (Ok two_folder) script_text "wo.+wa." = Ok [Some "late"] /\ translations normalized script_text "wo.+wa." = Ok [] /\
  translations normalized script_text "wa.+wo." = Ok [Some "early"] /\ translations normalized script_text "wa." = Ok [Some "to act"].
Proof.
  split; [intros l; apply Permutation_refl|]. split; [unfold two_ops; short_ops|]. split; [split; [exists "en", "translations", "early"; vm_compute; tauto|intros i l d v; vm_compute; intuition congruence]|].
  split; [vm_compute; discriminate|]. repeat split; vm_compute; reflexivity.
Qed.

(** A word with an empty actant, renamed to the word without it: nothing is lost. *)
Definition no_instance (u : usl) (ds : list (string * string)) : res string := Err NotImplementedError.
Definition word_form : string -> res string := usl_text (usl_parse (fun l => l)) no_instance.
Definition word_wanted : string -> res string := wanted_text (usl_parse (fun l => l)) no_instance.
Definition long_word : string := "[E:T:. (wa.)(b.) > ! E:.n.- () > E:.n.- E:A:. ()]".
Definition short_word : string := "[E:T:. (wa.)(b.) > ! E:.n.- ()]".
Definition word_texts : list string := [long_word; short_word; "wa."].
Definition word_ops : list op :=
  [AddDescriptor long_word "en" "translations" "first"; AddDescriptor short_word "en" "translations" "second";
   AddStructure "wa." "is_root" "True"].
Definition word_folder : fsys := run (verbatim word_form word_texts) simple_path [] word_ops.
Definition word_normalized : res fsys := normalize_database word_form simple_path is_desc_file first_order word_wanted word_folder.
Lemma word_renaming : renaming word_form simple_path is_desc_file word_wanted word_texts.
Proof.
  apply simple_renaming.
  - intros s n _ H. repeat (destruct H as [<-|H]); [vm_compute; reflexivity..|destruct H].
  - cbn. intuition discriminate.
  - short_texts.
  - short_news.
Qed.
Example C91_case_simplified :
  Forall (op_ok (verbatim word_form word_texts)) word_ops /\
  (let D := fst (records word_form word_texts word_ops) in readable_values D /\ (forall t, renamed D word_wanted t -> t = long_word) /\ renamed D word_wanted long_word) /\
  word_form long_word = Ok long_word /\ word_wanted long_word = Ok short_word /\
  translations word_normalized word_form long_word = Ok [] /\ translations word_normalized word_form short_word = Ok [Some "second"; Some "first"].
Proof.
  split; [unfold word_ops; short_ops|]. split; [split; [|split]|repeat split; vm_compute; reflexivity].
  - intros i l d v. vm_compute. intuition congruence.
  - intros t [(l & d & v & H) (n & E & N)]. vm_compute in H. destruct H as [H|[H|[]]]; injection H as <- <- <- <-; [reflexivity|]. vm_compute in E. injection E as <-. now elim N.
  - split; [exists "en", "translations", "first"; vm_compute; tauto|]. exists short_word. split; [vm_compute; reflexivity|discriminate].
Qed.

(** A value that pandas reads as missing stops the script: nothing is committed. *)
Example C91_case_missing :
  normalize_database script_text simple_path is_desc_file first_order script_text
    (run (verbatim script_text two_texts) simple_path [] (two_ops ++ [AddDescriptor "wa.+wo." "en" "comments" "null"])%list) = Err ValueError.
Proof. vm_compute. reflexivity. Qed.
(** ... and so does a database without structure. *)
Example C91_case_no_structure :
  normalize_database script_text simple_path is_desc_file first_order script_text
    (run (verbatim script_text two_texts) simple_path [] [AddDescriptor "wa.+wo." "en" "comments" "early"]) = Err ValueError.
Proof. vm_compute. reflexivity. Qed.

(** factorize_db.py: a sum under its factorized form. *)
Definition factor_texts : list string := ["U:M:.+A:M:."; "O:M:."].
Definition factor_ops : list op :=
  [AddDescriptor "U:M:.+A:M:." "en" "translations" "sum"; AddDescriptor "O:M:." "en" "translations" "product"; AddStructure "U:M:.+A:M:." "is_root" "True"].
Definition factorized : res fsys := factorize_database script_text simple_path is_desc_file first_order [("U:M:.+A:M:.", "O:M:.")]
  (run (verbatim script_text factor_texts) simple_path [] factor_ops).
Lemma factor_renaming : renaming script_text simple_path is_desc_file (fun _ => Err CannotParse) factor_texts.
Proof.
  apply simple_renaming.
  - intros s n H _. exact (script_idem s n H).
  - cbn. intuition discriminate.
  - short_texts.
  - auto.
Qed.
Example C91_case_factorize :
  Forall (op_ok (verbatim script_text factor_texts)) factor_ops /\
  translations factorized script_text "U:M:.+A:M:." = Ok [] /\ translations factorized script_text "O:M:." = Ok [Some "product"; Some "sum"] /\
  (do fs <- factorized; do rows <- get_structure is_desc_file first_order fs; Ok (structure_values rows "O:M:." "is_root", structure_values rows "U:M:.+A:M:." "is_root")) = Ok (["True"], []).
Proof. split; [unfold factor_ops; short_ops|]. repeat split; vm_compute; reflexivity. Qed.
(** False without the condition: a script that arrives where another one leaves is lost if it arrives first. *)
Example C91_case_chain :
  translations (factorize_database script_text simple_path is_desc_file first_order [("U:M:.+A:M:.", "O:M:."); ("O:M:.", "wa.")]
    (run (verbatim script_text ("wa." :: factor_texts)) simple_path [] factor_ops)) script_text "wa." = Ok [Some "product"].
Proof. vm_compute. reflexivity. Qed.
