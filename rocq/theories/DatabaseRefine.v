(** The files of a folder hold the records of the specification. *)
From Coq Require Import List String Ascii Bool NArith Arith Lia Permutation.
From Verif Require Import Base ScriptStrProofs Database DatabaseSpec DatabaseProofs.
Import ListNotations.
Local Open Scope string_scope.

Lemma filter_filter {A} (f g : A -> bool) l : filter f (filter g l) = filter (fun x => (g x && f x)%bool) l.
Proof.
  induction l as [|x l IH]; [reflexivity|]. simpl. destruct (g x); simpl; [|exact IH].
  destruct (f x); rewrite IH; reflexivity.
Qed.

Lemma filter_none {A} (f : A -> bool) l : (forall x, In x l -> f x = false) -> filter f l = [].
Proof.
  induction l as [|x l IH]; [reflexivity|]. simpl. intros H. rewrite (H x) by auto. apply IH. auto.
Qed.

Lemma filter_all {A} (f : A -> bool) l : (forall x, In x l -> f x = true) -> filter f l = l.
Proof.
  induction l as [|x l IH]; [reflexivity|]. simpl. intros H. rewrite (H x) by auto. f_equal. apply IH. auto.
Qed.

Lemma filter_map {A B} (f : B -> bool) (g : A -> B) l : filter f (map g l) = map g (filter (fun x => f (g x)) l).
Proof. induction l as [|x l IH]; [reflexivity|]. simpl. rewrite IH. destruct (f (g x)); reflexivity. Qed.

Lemma filter_ext_in_ {A} (f g : A -> bool) l : (forall x, In x l -> f x = g x) -> filter f l = filter g l.
Proof.
  induction l as [|x l IH]; [reflexivity|]. simpl. intros H. rewrite (H x), IH by auto. reflexivity.
Qed.

Section Store.
  Variable parse : string -> res string.
  Variable path : bool -> string -> string.
  Variable is_desc : string -> bool.
  Hypothesis ok : folder_ok parse path is_desc.

  Definition shape (fs : fsys) : Prop :=
    NoDup (map fst fs) /\ forall p, In p (map fst fs) -> exists b i, parse i = Ok i /\ p = path b i.

  Lemma shape_append fs b i c : parse i = Ok i -> shape fs -> shape (fs_append fs (path b i) c).
  Proof.
    intros Hi [Hnd Hp]. split; [apply fs_append_nodup; auto|].
    intros p Hin. destruct (fs_append_path_in _ _ _ _ Hin) as [->|H]; eauto.
  Qed.
  Lemma shape_set fs b i c : parse i = Ok i -> shape fs -> shape (fs_set fs (path b i) c).
  Proof.
    intros Hi [Hnd Hp]. split; [apply fs_set_nodup; auto|].
    intros p Hin. destruct (fs_set_path_in _ _ _ _ Hin) as [->|H]; eauto.
  Qed.
  Lemma shape_del fs p : shape fs -> shape (fs_del fs p).
  Proof.
    intros [Hnd Hp]. split; [apply fs_del_nodup; auto|]. intros q Hin. eauto using fs_del_path_in.
  Qed.

  Lemma path_eqb b i j : parse i = Ok i -> parse j = Ok j -> String.eqb (path b i) (path b j) = String.eqb i j.
  Proof.
    intros Hi Hj. destruct (String.eqb_spec i j) as [->|H]; [apply String.eqb_refl|].
    apply String.eqb_neq. intros E. destruct (path_inj _ _ _ ok _ _ _ _ Hi Hj E). contradiction.
  Qed.
  Lemma path_kind_neq b i j : parse i = Ok i -> parse j = Ok j -> String.eqb (path (negb b) i) (path b j) = false.
  Proof.
    intros Hi Hj. apply String.eqb_neq. intros E. apply (f_equal is_desc) in E. rewrite !(path_kind _ _ _ ok) in E by auto.
    destruct b; discriminate.
  Qed.

  Section Kind.
    Context {R : Type}.
    Variable b : bool.
    Variable ri : R -> string.
    Variable line : R -> string.

    Definition own (rs : list R) (i : string) : list R := filter (fun r => String.eqb i (ri r)) rs.

    Definition holds (fs : fsys) (rs : list R) : Prop :=
      forall i, parse i = Ok i ->
        match fs_get fs (path b i) with
        | Some c => c = sconcat (map line (own rs i))
        | None => own rs i = []
        end.

    Lemma holds_append fs rs r : parse (ri r) = Ok (ri r) -> holds fs rs ->
      holds (fs_append fs (path b (ri r)) (line r)) (rs ++ [r])%list.
    Proof.
      intros Hr H i Hi. rewrite fs_get_append, path_eqb by auto.
      unfold own. rewrite filter_app, map_app. simpl. rewrite (String.eqb_sym i (ri r)).
      destruct (String.eqb_spec (ri r) i) as [->|Hne].
      - specialize (H i Hi). destruct (fs_get fs (path b i)) as [c|].
        + rewrite H. unfold own. rewrite sconcat_app. simpl. rewrite string_app_nil. reflexivity.
        + unfold own in H. rewrite H. simpl. rewrite string_app_nil. reflexivity.
      - specialize (H i Hi). unfold own in H. simpl. rewrite !app_nil_r. exact H.
    Qed.

    Lemma holds_append_other fs rs i c : parse i = Ok i -> holds fs rs -> holds (fs_append fs (path (negb b) i) c) rs.
    Proof. intros Hi H j Hj. rewrite fs_get_append, path_kind_neq by auto. apply H; auto. Qed.
    Lemma holds_set_other fs rs i c : parse i = Ok i -> holds fs rs -> holds (fs_set fs (path (negb b) i) c) rs.
    Proof. intros Hi H j Hj. rewrite fs_get_set, path_kind_neq by auto. apply H; auto. Qed.
    Lemma holds_del_other fs rs i : parse i = Ok i -> holds fs rs -> holds (fs_del fs (path (negb b) i)) rs.
    Proof. intros Hi H j Hj. rewrite fs_get_del, path_kind_neq by auto. apply H; auto. Qed.

    Lemma holds_del fs rs i : parse i = Ok i -> holds fs rs ->
      holds (fs_del fs (path b i)) (filter (fun r => negb (String.eqb i (ri r))) rs).
    Proof.
      intros Hi H j Hj. rewrite fs_get_del, path_eqb by auto. unfold own. rewrite filter_filter.
      destruct (String.eqb_spec i j) as [->|Hne].
      - apply filter_none. intros x _. destruct (String.eqb j (ri x)); reflexivity.
      - specialize (H j Hj). unfold own in H.
        erewrite filter_ext_in_; [exact H|]. intros x _. simpl.
        destruct (String.eqb_spec i (ri x)); destruct (String.eqb_spec j (ri x)); try reflexivity. congruence.
    Qed.

    Lemma holds_filter fs rs i c (keep : R -> bool) (K : string -> bool) :
      parse i = Ok i -> holds fs rs -> fs_get fs (path b i) = Some c ->
      (forall r, In r rs -> is_line (line r)) ->
      (forall r, In r rs -> ri r = i -> K (line r) = keep r) ->
      (forall r, In r rs -> ri r <> i -> keep r = true) ->
      holds (fs_set fs (path b i) (sconcat (filter K (readlines c)))) (filter keep rs).
    Proof.
      intros Hi H Hc Hl HK Hk j Hj. rewrite fs_get_set, path_eqb by auto. unfold own. rewrite filter_filter.
      destruct (String.eqb_spec i j) as [<-|Hne].
      - specialize (H i Hi). rewrite Hc in H. subst c.
        rewrite readlines_lines.
        + rewrite filter_map. unfold own. rewrite filter_filter. do 2 f_equal. apply filter_ext_in_. intros x Hx.
          destruct (String.eqb_spec i (ri x)) as [Hix|]; simpl; [|destruct (keep x); reflexivity].
          rewrite HK by auto. destruct (keep x); reflexivity.
        + apply Forall_forall. intros s Hs. apply in_map_iff in Hs. destruct Hs as (r & <- & Hr).
          apply filter_In in Hr. apply Hl. tauto.
      - specialize (H j Hj). unfold own in H.
        erewrite filter_ext_in_; [exact H|]. intros x Hx. simpl.
        destruct (String.eqb_spec j (ri x)) as [Hjx|]; [|destruct (keep x); reflexivity].
        rewrite (Hk x Hx) by congruence. reflexivity.
    Qed.

    (** Removing a record of an expression without a file has no effect. *)
    Lemma holds_absent fs rs i : parse i = Ok i -> holds fs rs -> fs_get fs (path b i) = None ->
      forall r, In r rs -> ri r <> i.
    Proof.
      intros Hi H Hn r Hr E. specialize (H i Hi). rewrite Hn in H. unfold own in H.
      assert (In r (filter (fun r => String.eqb i (ri r)) rs)) as C; [|rewrite H in C; exact C].
      apply filter_In. split; [auto|]. rewrite E. apply String.eqb_refl.
    Qed.

    (** What [find | xargs cat] prints, in any order of the files. *)
    Lemma read_all fs rs (fo : fsys -> fsys) :
      shape fs -> holds fs rs -> (forall l, Permutation (fo l) l) ->
      (forall r, In r rs -> parse (ri r) = Ok (ri r)) ->
      exists is, NoDup is /\ (forall r, In r rs -> In (ri r) is) /\
        sconcat (map snd (fo (filter (fun f => Bool.eqb (is_desc (fst f)) b) fs))) =
        sconcat (map line (flat_map (own rs) is)).
    Proof.
      intros [Hnd Hp] H Hfo Hr.
      set (files := filter (fun f => Bool.eqb (is_desc (fst f)) b) fs).
      assert (Hin : forall p c, In (p, c) (fo files) <-> fs_get fs p = Some c /\ is_desc p = b).
      { intros p c. rewrite <- fs_get_in by auto. unfold files. split.
        - intros Hi. apply (Permutation_in _ (Hfo _)) in Hi. apply filter_In in Hi. simpl in Hi.
          rewrite eqb_true_iff in Hi. exact Hi.
        - intros Hi. apply (Permutation_in _ (Permutation_sym (Hfo _))). apply filter_In. simpl.
          rewrite eqb_true_iff. exact Hi. }
      assert (Hnd' : NoDup (map fst (fo files))).
      { apply (Permutation_NoDup (l := map fst files)).
        - apply Permutation_map, Permutation_sym, Hfo.
        - unfold files. clear -Hnd. induction fs as [|[p c] fs IH]; simpl in *; [constructor|].
          inversion_clear Hnd. destruct (Bool.eqb (is_desc p) b); simpl; [|auto]. constructor; [|auto].
          intros C. apply H. apply in_map_iff in C. destruct C as (f & Hf & C). apply filter_In in C.
          apply in_map_iff. exists f. tauto. }
      assert (exists is, Forall2 (fun f i => parse i = Ok i /\ fst f = path b i /\ snd f = sconcat (map line (own rs i))) (fo files) is)
        as [is His].
      { assert (Hall : forall f, In f (fo files) -> exists i, parse i = Ok i /\ fst f = path b i /\ snd f = sconcat (map line (own rs i))).
        { intros [p c] Hf. apply Hin in Hf. destruct Hf as [Hg Hk].
          destruct (Hp p) as (b' & i & Hi & ->).
          { apply fs_get_in in Hg; [|auto]. apply in_map_iff. exists (p, c). auto. }
          rewrite (path_kind _ _ _ ok) in Hk by auto. subst b'. exists i. simpl. split; [auto|]. split; [auto|].
          specialize (H i Hi). rewrite Hg in H. exact H. }
        clear -Hall. induction (fo files) as [|f l IH]; [exists []; constructor|].
        destruct IH as [is His]; [intros; apply Hall; simpl; auto|].
        destruct (Hall f) as [i Hi]; [simpl; auto|]. exists (i :: is). constructor; auto. }
      exists is. split; [|split].
      - clear -His Hnd' ok. induction His as [|f i l is (Hi & Hf & _) His IH]; [constructor|].
        simpl in Hnd'. inversion_clear Hnd'. constructor; [|auto]. intros C. apply H.
        clear -C His Hf. induction His as [|g j l is (Hj & Hg & _) His IH]; [destruct C|].
        destruct C as [<-|C]; [left; congruence|]. right. apply IH. exact C.
      - intros r Hrin. specialize (H (ri r) (Hr r Hrin)).
        destruct (fs_get fs (path b (ri r))) as [c|] eqn:E.
        + assert (In (path b (ri r), c) (fo files)) as C.
          { apply Hin. split; [auto|]. apply (path_kind _ _ _ ok). auto. }
          clear -C His ok Hr Hrin. induction His as [|g j l is (Hj & Hg & _) His IH]; [destruct C|].
          destruct C as [->|C]; [|right; auto]. left. simpl in Hg.
          destruct (path_inj _ _ _ ok _ _ _ _ (Hr r Hrin) Hj Hg). auto.
        + exfalso. assert (In r (own rs (ri r))) as C; [|rewrite H in C; exact C].
          apply filter_In. split; [auto|]. apply String.eqb_refl.
      - clear -His. induction His as [|g j l is (Hj & _ & Hg) His IH]; [reflexivity|].
        simpl. rewrite map_app, sconcat_app, Hg, IH. reflexivity.
    Qed.

    Lemma filter_flat_own rs is k (P : R -> bool) : NoDup is -> (forall r, In r rs -> In (ri r) is) ->
      filter (fun r => (String.eqb (ri r) k && P r)%bool) (flat_map (own rs) is) =
      filter (fun r => (String.eqb (ri r) k && P r)%bool) rs.
    Proof.
      intros Hnd Hall.
      assert (Hgen : forall is, NoDup is ->
        filter (fun r => (String.eqb (ri r) k && P r)%bool) (flat_map (own rs) is) =
        if existsb (String.eqb k) is then filter (fun r => (String.eqb (ri r) k && P r)%bool) rs else []).
      { clear. induction is as [|i is IH]; [reflexivity|]. intros Hnd. inversion_clear Hnd. simpl.
        rewrite filter_app, IH by auto. unfold own. rewrite filter_filter.
        destruct (String.eqb_spec k i) as [->|Hne]; simpl.
        - destruct (existsb (String.eqb i) is) eqn:E.
          { apply existsb_exists in E. destruct E as (x & Hx & Hi). apply String.eqb_eq in Hi. subst. contradiction. }
          rewrite app_nil_r. apply filter_ext_in_. intros x _. rewrite (String.eqb_sym i (ri x)).
          destruct (String.eqb (ri x) i); reflexivity.
        - rewrite filter_none; [reflexivity|]. intros x _.
          destruct (String.eqb_spec i (ri x)); destruct (String.eqb_spec (ri x) k); try reflexivity. congruence. }
      rewrite Hgen by auto. destruct (existsb (String.eqb k) is) eqn:E; [reflexivity|].
      symmetry. apply filter_none. intros x Hx. destruct (String.eqb_spec (ri x) k) as [<-|]; [|reflexivity].
      exfalso. assert (existsb (String.eqb (ri x)) is = true) as C; [|congruence].
      apply existsb_exists. exists (ri x). split; [auto|]. apply String.eqb_refl.
    Qed.
  End Kind.
End Store.

(** ** Each call *)
Definition dieml (r : drecord) : string := fst (fst (fst r)).
Definition dline (r : drecord) : string :=
  let '(i, l, d, v) := r in
  """" ++ quote i ++ """ " ++ l ++ " " ++ d ++ " """ ++ quote v ++ """" ++ nl.
Definition sieml (r : srecord) : string := fst (fst r).
Definition sline (r : srecord) : string :=
  let '(i, k, v) := r in """" ++ quote i ++ """ " ++ k ++ " """ ++ quote v ++ """" ++ nl.

Definition good_d (parse : string -> res string) (r : drecord) : Prop :=
  let '(i, l, d, v) := r in
  parse i = Ok i /\ plain i /\ In l LANGUAGES /\ In d DESCRIPTORS_CLASS /\
  ~ occurs "010" v /\ ~ occurs "013" v.
Definition good_s (parse : string -> res string) (r : srecord) : Prop :=
  let '(i, k, v) := r in parse i = Ok i /\ plain i /\ In k STRUCTURE_KEYS /\ plain v.

Ltac no_occ := unfold word, occurs; simpl; repeat split; intuition discriminate.
Lemma lang_word l : In l LANGUAGES -> word l.
Proof. simpl. intros [<-|[<-|[]]]; no_occ. Qed.
Lemma desc_word d : In d DESCRIPTORS_CLASS -> word d.
Proof. simpl. intros [<-|[<-|[<-|[<-|[]]]]]; no_occ. Qed.
Lemma key_word k : In k STRUCTURE_KEYS -> word k.
Proof. simpl. intros [<-|[<-|[<-|[]]]]; no_occ. Qed.

Lemma inb_In x l : inb x l = true <-> In x l.
Proof.
  unfold inb. rewrite existsb_exists. split.
  - intros (y & Hy & E). apply String.eqb_eq in E. subst. auto.
  - intros H. exists x. split; [auto|]. apply String.eqb_refl.
Qed.

Lemma not_occurs_app c a b : ~ occurs c a -> ~ occurs c b -> ~ occurs c (a ++ b).
Proof. rewrite occurs_app. tauto. Qed.

Lemma dline_is_line parse r : good_d parse r -> is_line (dline r).
Proof.
  destruct r as [[[i l] d] v]. intros (_ & (Hq & Hn & Hr) & Hl & Hd & Hvn & Hvr).
  exists ("""" ++ quote i ++ """ " ++ l ++ " " ++ d ++ " """ ++ quote v ++ """").
  destruct (lang_word _ Hl) as (_ & _ & Hl1 & Hl2 & _). destruct (desc_word _ Hd) as (_ & _ & Hd1 & Hd2 & _).
  split; [unfold dline; rewrite !string_app_assoc; reflexivity|].
  split; repeat apply not_occurs_app; auto; try (intros C; apply quote_occurs in C; auto);
  unfold occurs; simpl; intuition discriminate.
Qed.

Lemma sline_is_line parse r : good_s parse r -> is_line (sline r).
Proof.
  destruct r as [[i k] v]. intros (_ & (Hq & Hn & Hr) & Hk & (Hvq & Hvn & Hvr)).
  exists ("""" ++ quote i ++ """ " ++ k ++ " """ ++ quote v ++ """").
  destruct (key_word _ Hk) as (_ & _ & Hl1 & Hl2 & _).
  split; [unfold sline; rewrite !string_app_assoc; reflexivity|].
  split; repeat apply not_occurs_app; auto; try (intros C; apply quote_occurs in C; auto);
  unfold occurs; simpl; intuition discriminate.
Qed.

Lemma sp_app x : " " ++ x = String " " x.
Proof. reflexivity. Qed.
Lemma spq_app x : " """ ++ x = String " " ("""" ++ x).
Proof. reflexivity. Qed.

(** Which lines start with the prefix looked for. *)
Lemma dprefix parse i l d v r : good_d parse r -> dieml r = i ->
  ~ occurs " " l -> ~ occurs " " d ->
  startswith (dline r) (descriptor_prefix i l d v) =
  let '(_, l', d', v') := r in
  (String.eqb l l' && String.eqb d d' &&
   match v with None => true | Some v => same_or_quoted (one_line v) v' end)%bool.
Proof.
  destruct r as [[[i' l'] d'] v']. intros (_ & (Hq & Hn & Hr) & Hl & Hd & Hvn & Hvr) Hi Hsl Hsd. unfold dieml in Hi. simpl in Hi. subst i'.
  destruct (lang_word _ Hl) as (_ & Hl' & _). destruct (desc_word _ Hd) as (_ & Hd' & _).
  unfold startswith, descriptor_prefix, dline. rewrite (quote_id i) by auto.
  rewrite !prefix_app, !sp_app, !spq_app.
  rewrite (prefix_sep " " l l') by auto. rewrite <- andb_assoc. f_equal.
  rewrite (prefix_sep " " d d') by auto. f_equal.
  destruct v as [v|]; [|apply prefix_nil].
  simpl append. rewrite prefix_cons. simpl andb. rewrite escape_quote. apply prefix_quoted.
Qed.

Lemma sprefix parse i k v r : good_s parse r -> sieml r = i -> ~ occurs " " k ->
  startswith (sline r) (structure_prefix i k v) =
  let '(_, k', v') := r in
  (String.eqb k k' && match v with None => true | Some v => String.eqb v "" || String.eqb v v' end)%bool.
Proof.
  destruct r as [[i' k'] v']. intros (_ & (Hq & Hn & Hr) & Hk & (Hvq & Hvn & Hvr)) Hi Hsk.
  unfold sieml in Hi. simpl in Hi. subst i'. destruct (key_word _ Hk) as (_ & Hk' & _).
  unfold startswith, structure_prefix, sline. rewrite (quote_id i), (quote_id v') by auto.
  rewrite !prefix_app, !sp_app, !spq_app. rewrite (prefix_sep " " k k') by auto. f_equal.
  destruct v as [v|]; [|apply prefix_nil].
  destruct (String.eqb_spec v "") as [->|Hv]; [apply prefix_nil|]. rewrite prefix_app. simpl orb.
  clear -Hvq. revert v' Hvq. induction v as [|c v IH]; intros [|c' v'] Hq; rewrite ?occurs_cons in Hq; simpl append.
  - reflexivity.
  - rewrite prefix_cons. destruct (Ascii.eqb_spec """" c'); [subst; tauto|]. reflexivity.
  - rewrite prefix_cons. destruct (Ascii.eqb_spec c """") as [->|]; [|reflexivity].
    destruct v as [|a v]; simpl append; [reflexivity|]. unfold nl. rewrite !prefix_cons.
    replace (String.prefix (v ++ """") "") with false by (destruct v; reflexivity). rewrite !andb_false_r. reflexivity.
  - rewrite prefix_cons, IH by tauto. simpl. destruct (Ascii.eqb c c'); reflexivity.
Qed.

Lemma strip_sub sp s c : occurs c (strip sp s) -> occurs c s.
Proof.
  unfold strip. intros H.
  assert (Hr : forall t, occurs c (rstrip sp t) -> occurs c t).
  { induction t as [|x t IH]; simpl; [auto|]. destruct (rstrip sp t) as [|y r].
    - destruct (sp x); [intros []|]. rewrite !occurs_cons. intros [H0|[]]; auto.
    - rewrite (occurs_cons c x (String y r)), (occurs_cons c x t). tauto. }
  apply Hr in H. clear Hr. induction s as [|x s IH]; simpl in *; [auto|].
  destruct (sp x); [|exact H]. rewrite occurs_cons. auto.
Qed.

Section Refine.
  Variable parse : string -> res string.
  Variable path : bool -> string -> string.
  Variable is_desc : string -> bool.
  Hypothesis ok : folder_ok parse path is_desc.

  Definition Inv (fs : fsys) (st : state) : Prop :=
    shape parse path fs /\ holds parse path true dieml dline fs (fst st) /\
    holds parse path false sieml sline fs (snd st) /\
    (forall r, In r (fst st) -> good_d parse r) /\ (forall r, In r (snd st) -> good_s parse r).

  Notation sstep := (spec_step parse LANGUAGES DESCRIPTORS_CLASS svalue kept same_or_quoted).

  Lemma kept_empty v : kept v = "" <-> normalize_value v = "".
  Proof. unfold kept. apply one_line_empty. Qed.

  Lemma good_descriptor_line i l d v : plain i -> descriptor_line i l d v = dline (i, l, d, one_line v).
  Proof.
    intros (Hq & Hn & Hr). unfold descriptor_line, dline. rewrite !escape_quote, (one_line_id i) by auto. reflexivity.
  Qed.

  Lemma normalize_parsed i n key value partial structure r :
    parse i = Ok n -> normalize_key parse true i key value partial structure = Ok r -> fst (fst r) = n.
  Proof.
    intros Hn. assert (String.eqb i "" = false) as Hi.
    { apply String.eqb_neq. intros ->. exact (parse_empty _ _ _ ok _ Hn). }
    unfold normalize_key. rewrite Hi, Hn. simpl.
    destruct (negb (partial || truthy key && (structure || truthy value))%bool); [discriminate|].
    repeat match goal with
    | |- (if ?c then _ else _) = _ -> _ => destruct c
    | |- match ?c with _ => _ end = _ -> _ => destruct c
    end; intros [=]; subst; reflexivity.
  Qed.

  Lemma normalize_unparsed i e key value partial structure : parse i = Err e ->
    (exists e', normalize_key parse true i key value partial structure = Err e') \/
    exists k, normalize_key parse true i key value partial structure = Ok k /\ fst (fst k) = i.
  Proof.
    intros He. destruct (normalize_key parse true i key value partial structure) as [k|e'] eqn:E; [|eauto].
    right. exists k. split; [reflexivity|]. revert E. unfold normalize_key. rewrite He.
    destruct (negb (partial || truthy key && (structure || truthy value))%bool); [discriminate|].
    destruct (String.eqb i ""); simpl; [|discriminate].
    repeat match goal with
    | |- (if ?c then _ else _) = _ -> _ => destruct c
    | |- match ?c with _ => _ end = _ -> _ => destruct c
    end; intros [=]; subst; reflexivity.
  Qed.

  Lemma path_of_unparsed b i e : parse i = Err e -> path_of parse path b i = Err e.
  Proof. unfold path_of. intros ->. reflexivity. Qed.

  Lemma path_of_parsed b n : parse n = Ok n -> path_of parse path b n = Ok (path b n).
  Proof. unfold path_of. intros ->. reflexivity. Qed.

  Definition okopt (o : option string) (l : list string) : bool :=
    match o with None => true | Some x => (String.eqb x "" || inb x l)%bool end.

  Lemma nonempty i n : parse i = Ok n -> String.eqb i "" = false.
  Proof. intros Hn. apply String.eqb_neq. intros ->. exact (parse_empty _ _ _ ok _ Hn). Qed.

  Lemma nk_add i n l d : parse i = Ok n ->
    normalize_key parse true i (Some l) (Some d) false false =
    if (inb l LANGUAGES && inb d DESCRIPTORS_CLASS)%bool then Ok (n, Some l, Some d) else Err ValueError.
  Proof.
    intros Hn. unfold normalize_key. rewrite (nonempty _ _ Hn), Hn. cbn [negb andb bind]. unfold truthy.
    destruct (String.eqb_spec l "") as [->|Hl]; [reflexivity|].
    destruct (String.eqb_spec d "") as [->|Hd].
    { replace (inb "" DESCRIPTORS_CLASS) with false by reflexivity. destruct (inb l LANGUAGES); reflexivity. }
    cbn [negb andb orb]. destruct (inb l LANGUAGES); [|reflexivity]. cbn [negb andb].
    destruct (inb d DESCRIPTORS_CLASS); reflexivity.
  Qed.

  Lemma nk_remove i n l d : parse i = Ok n ->
    normalize_key parse true i l d true false =
    if (okopt l LANGUAGES && okopt d DESCRIPTORS_CLASS)%bool then Ok (n, l, d) else Err ValueError.
  Proof.
    intros Hn. unfold normalize_key. rewrite (nonempty _ _ Hn), Hn. cbn [negb andb bind]. cbn [orb negb andb].
    unfold truthy, okopt. destruct l as [l|]; cbn [andb orb negb].
    - destruct (String.eqb_spec l "") as [->|Hl]; cbn [andb orb negb].
      + destruct d as [d|]; [|reflexivity]. destruct (String.eqb d ""); cbn [andb orb negb]; [reflexivity|].
        destruct (inb d DESCRIPTORS_CLASS); reflexivity.
      + destruct (inb l LANGUAGES); [|reflexivity]. cbn [andb orb negb].
        destruct d as [d|]; [|reflexivity]. destruct (String.eqb d ""); cbn [andb orb negb]; [reflexivity|].
        destruct (inb d DESCRIPTORS_CLASS); reflexivity.
    - destruct d as [d|]; [|reflexivity]. destruct (String.eqb d ""); cbn [andb orb negb]; [reflexivity|].
      destruct (inb d DESCRIPTORS_CLASS); reflexivity.
  Qed.

  Lemma okopt_space x l : (forall y, In y l -> word y) -> okopt (Some x) l = true -> ~ occurs " " x.
  Proof.
    simpl. intros Hw H. apply orb_true_iff in H. destruct H as [H|H].
    - apply String.eqb_eq in H. subst. exact (fun x => x).
    - apply inb_In in H. apply Hw in H. destruct H as (_ & H & _). exact H.
  Qed.

  Lemma normalize_nothing : normalize_value "" = "".
  Proof. reflexivity. Qed.

  (** The records left by a removal. *)
  Definition left_by (n : string) (l d v : option string) (D : list drecord) : list drecord :=
    filter (fun r => let '(i', l', d', v') := r in
      negb (String.eqb n i' && selects l l' && selects d d' && selects_value kept same_or_quoted v v')) D.

  Lemma remove_full_inv fs st n l d v c : Inv fs st -> parse n = Ok n ->
    fs_get fs (path true n) = Some c -> ~ occurs " " l -> ~ occurs " " d ->
    Inv (remove_full fs (path true n) n l d v) (left_by n (Some l) (Some d) v (fst st), snd st).
  Proof.
    intros (Hs & HD & HT & GD & GT) Hn Hc Hl Hd. unfold remove_full. rewrite Hc.
    split; [apply shape_set; auto|]. split; [|split; [|split]].
    - apply (holds_filter _ _ _ ok) with (c := c); auto.
      + intros r Hr. apply (dline_is_line parse). auto.
      + intros r Hr Hi. rewrite (dprefix parse) by auto. destruct r as [[[i' l'] d'] v'].
        unfold dieml in Hi. simpl in Hi. subst i'. rewrite String.eqb_refl. simpl selects. rewrite andb_true_l.
        f_equal. f_equal. destruct v as [v|]; [|reflexivity]. simpl.
        destruct (String.eqb_spec v "") as [->|]; reflexivity.
      + intros [[[i' l'] d'] v'] Hr Hi. unfold dieml in Hi. simpl in Hi.
        destruct (String.eqb_spec n i'); [congruence|]. reflexivity.
    - apply (holds_set_other parse path is_desc ok false); [auto|exact HT].
    - intros r Hr. apply filter_In in Hr. apply GD. tauto.
    - exact GT.
  Qed.

  Lemma left_by_absent fs st n l d v : Inv fs st -> parse n = Ok n -> fs_get fs (path true n) = None ->
    left_by n l d v (fst st) = fst st.
  Proof.
    intros (Hs & HD & HT & GD & GT) Hn Hnone. apply filter_all. intros r Hr.
    pose proof (holds_absent _ _ _ _ _ _ _ _ Hn HD Hnone r Hr) as Hi.
    destruct r as [[[i' l'] d'] v']. unfold dieml in Hi. simpl in Hi.
    destruct (String.eqb_spec n i'); [congruence|]. reflexivity.
  Qed.

  Lemma remove_full_get fs p n l d v c : fs_get fs p = Some c ->
    exists c', fs_get (remove_full fs p n l d v) p = Some c'.
  Proof. intros H. unfold remove_full. rewrite H, fs_get_set, String.eqb_refl. eauto. Qed.

  Lemma remove_lang_inv fs st i n l d v : Inv fs st -> parse i = Ok n -> plain n -> (v <> None -> d <> None) ->
    (okopt (Some l) LANGUAGES && okopt d DESCRIPTORS_CLASS)%bool = true ->
    exists fs', remove_lang parse path fs i l d v = Ok fs' /\
      Inv fs' (left_by n (Some l) d v (fst st), snd st) /\
      (fs_get fs (path true n) <> None -> fs_get fs' (path true n) <> None).
  Proof.
    intros HI Hi Hp Hv Hok. pose proof (parse_idem _ _ _ ok _ _ Hi) as Hn.
    unfold remove_lang. rewrite (nk_remove _ _ _ _ Hi), Hok. cbn [bind fst]. rewrite path_of_parsed by auto. cbn [bind].
    apply andb_true_iff in Hok. destruct Hok as [Hl Hd].
    destruct (fs_get fs (path true n)) as [c|] eqn:Hc.
    2:{ exists fs. split; [reflexivity|]. split; [|tauto].
        rewrite (left_by_absent fs) by auto. destruct st; exact HI. }
    destruct d as [d|].
    - eexists. split; [reflexivity|]. split.
      + eapply remove_full_inv; eauto using okopt_space, lang_word, desc_word.
      + intros _. destruct (remove_full_get fs (path true n) n l d v c Hc) as [c' ->]. discriminate.
    - assert (v = None) as -> by (destruct v; [destruct Hv; congruence|reflexivity]).
      assert (Hgen : forall ds fs st c, (forall d, In d ds -> In d DESCRIPTORS_CLASS) -> Inv fs st ->
        fs_get fs (path true n) = Some c ->
        exists fs' c', fold_left (fun acc d =>
          do fs' <- acc;
          do k' <- normalize_key parse true n (Some l) (Some d) true false;
          let i' := fst (fst k') in
          do p' <- path_of parse path true i';
          match fs_get fs' p' with
          | None => Ok fs'
          | Some _ => Ok (remove_full fs' p' i' l d None)
          end) ds (Ok fs) = Ok fs' /\ fs_get fs' (path true n) = Some c' /\
          Inv fs' (filter (fun r => let '(i', l', d', v') := r in
            negb (String.eqb n i' && String.eqb l l' && inb d' ds)) (fst st), snd st)).
      { clear - ok Hn Hl Hp. induction ds as [|d ds IH]; intros fs st c Hds HI Hc.
        - exists fs, c. split; [reflexivity|]. split; [auto|].
          rewrite filter_all; [destruct st; exact HI|]. intros [[[i' l'] d'] v'] _. rewrite andb_false_r. reflexivity.
        - cbn [fold_left bind]. rewrite (nk_remove _ _ _ _ Hn), Hl.
          assert (Hd : In d DESCRIPTORS_CLASS) by (apply Hds; simpl; auto).
          replace (okopt (Some d) DESCRIPTORS_CLASS) with true
            by (symmetry; unfold okopt; apply orb_true_iff; right; apply inb_In; auto).
          cbn [andb bind fst]. rewrite path_of_parsed by auto. cbn [bind]. rewrite Hc.
          destruct (remove_full_get fs (path true n) n l d None c Hc) as [c' Hc'].
          edestruct (IH (remove_full fs (path true n) n l d None)) as (fs' & c'' & E & Hg & HI').
          { intros; apply Hds; simpl; auto. }
          { eapply remove_full_inv; eauto using okopt_space, lang_word. destruct (desc_word _ Hd) as (_ & H & _). exact H. }
          { exact Hc'. }
          exists fs', c''. split; [exact E|]. split; [auto|].
          cbn [fst snd] in HI'. unfold left_by in HI'. rewrite filter_filter in HI'.
          erewrite filter_ext_in_; [exact HI'|]. intros [[[i' l'] d'] v'] _. simpl.
          rewrite (String.eqb_sym d' d).
          destruct (String.eqb n i'); destruct (String.eqb l l'); destruct (String.eqb d d'); simpl; reflexivity. }
      destruct (Hgen DESCRIPTORS_CLASS fs st c) as (fs' & c' & E & Hg & HI'); auto.
      exists fs'. split; [exact E|]. split; [|rewrite Hg; discriminate].
      destruct HI as (_ & _ & _ & GD & _).
      unfold left_by. erewrite filter_ext_in_; [exact HI'|]. intros r Hr. specialize (GD r Hr).
      destruct r as [[[i' l'] d'] v']. destruct GD as (_ & _ & _ & HdC & _).
      apply inb_In in HdC. rewrite HdC. simpl. rewrite !andb_true_r. reflexivity.
  Qed.

  Lemma unparsed fs o i e : parse i = Err e ->
    match o with
    | AddDescriptor j _ _ _ | RemoveDescriptor j _ _ _ | AddStructure j _ _ | RemoveStructure j _ _ => j = i
    end -> exec_step parse path fs o = fs.
  Proof.
    intros He. unfold exec_step, exec. destruct o as [j l d v|j l d v|j k v|j k v]; intros ->.
    - unfold add_descriptor.
      destruct (normalize_unparsed i e (Some l) (Some d) false false He) as [[e' ->]|(k & -> & E)]; [reflexivity|].
      cbn [bind]. rewrite E, (path_of_unparsed _ _ _ He). destruct (String.eqb (normalize_value v) ""); reflexivity.
    - unfold remove_descriptor, remove_lang. destruct l as [l|].
      + destruct (normalize_unparsed i e (Some l) d true false He) as [[e' ->]|(k & -> & E)]; [reflexivity|].
        cbn [bind]. rewrite E, (path_of_unparsed _ _ _ He). reflexivity.
      + destruct (normalize_unparsed i e None d true false He) as [[e' ->]|(k & -> & E)]; [reflexivity|].
        cbn [bind]. rewrite E, (path_of_unparsed _ _ _ He). reflexivity.
    - unfold add_structure.
      destruct (normalize_unparsed i e (Some k) (Some v) false true He) as [[e' ->]|([[i' k'] v'] & -> & E)]; [reflexivity|].
      cbn [bind]. simpl in E. rewrite E, (path_of_unparsed _ _ _ He). reflexivity.
    - unfold remove_structure.
      destruct (normalize_unparsed i e k v true true He) as [[e' ->]|([[i' k'] v'] & -> & E)]; [reflexivity|].
      cbn [bind]. simpl in E. rewrite E, (path_of_unparsed _ _ _ He). reflexivity.
  Qed.

  Lemma left_by_invalid st n l d v fs : Inv fs st ->
    (okopt l LANGUAGES && okopt d DESCRIPTORS_CLASS)%bool = false -> left_by n l d v (fst st) = fst st.
  Proof.
    intros (_ & _ & _ & GD & _) Hok. apply filter_all. intros r Hr. specialize (GD r Hr).
    destruct r as [[[i' l'] d'] v']. destruct GD as (_ & _ & Hl & Hd & _).
    apply andb_false_iff in Hok. destruct Hok as [H|H].
    - destruct l as [l|]; [|discriminate]. unfold okopt in H. apply orb_false_iff in H. destruct H as [_ H].
      cbn [selects]. destruct (String.eqb_spec l l') as [->|]; [apply inb_In in Hl; congruence|].
      rewrite !andb_false_r. reflexivity.
    - destruct d as [d|]; [|discriminate]. unfold okopt in H. apply orb_false_iff in H. destruct H as [_ H].
      cbn [selects]. destruct (String.eqb_spec d d') as [->|]; [apply inb_In in Hd; congruence|].
      rewrite !andb_false_r. reflexivity.
  Qed.

  Lemma step_remove fs st i l d v : Inv fs st -> op_ok parse (RemoveDescriptor i l d v) ->
    Inv (exec_step parse path fs (RemoveDescriptor i l d v)) (sstep st (RemoveDescriptor i l d v)).
  Proof.
    intros HI [Hp Hv]. destruct st as [D T]. cbn [spec_step].
    destruct (parse i) as [n|e] eqn:Hi; [|erewrite unparsed; eauto].
    specialize (Hp n eq_refl). pose proof (parse_idem _ _ _ ok _ _ Hi) as Hn.
    change (Inv (exec_step parse path fs (RemoveDescriptor i l d v)) (left_by n l d v (fst (D, T)), snd (D, T))).
    unfold exec_step, exec, remove_descriptor. destruct l as [l|].
    - destruct (okopt (Some l) LANGUAGES && okopt d DESCRIPTORS_CLASS)%bool eqn:Hok.
      + destruct (remove_lang_inv fs (D, T) i n l d v) as (fs' & -> & H & _); auto.
        intros Hv'. destruct (Hv Hv'). auto.
      + rewrite (left_by_invalid _ _ _ _ _ _ HI Hok). unfold remove_lang.
        rewrite (nk_remove _ _ _ _ Hi), Hok. exact HI.
    - assert (v = None) as -> by (destruct v; [destruct Hv; congruence|reflexivity]).
      rewrite (nk_remove _ _ _ _ Hi).
      destruct (okopt None LANGUAGES && okopt d DESCRIPTORS_CLASS)%bool eqn:Hok.
      2:{ rewrite (left_by_invalid _ _ _ _ _ _ HI Hok). exact HI. }
      cbn [bind fst]. rewrite path_of_parsed by auto. cbn [bind].
      destruct (fs_get fs (path true n)) as [c|] eqn:Hc.
      2:{ pose proof (left_by_absent fs (D, T) n None d None HI Hn Hc) as E. cbn [fst snd] in *. rewrite E. exact HI. }
      destruct d as [d|].
      + cbn [fold_left LANGUAGES].
        assert (Hno : (@None string) <> None -> Some d <> None) by congruence.
        destruct (remove_lang_inv fs (D, T) n n "fr" (Some d) None HI Hn Hp Hno Hok) as (fs1 & E1 & HI1 & _).
        destruct (remove_lang_inv fs1 _ n n "en" (Some d) None HI1 Hn Hp Hno Hok) as (fs2 & E2 & HI2 & _).
        cbn [bind]. rewrite E1. cbn [bind]. rewrite E2.
        cbn [fst snd] in *. unfold left_by in HI2. rewrite filter_filter in HI2.
        unfold left_by. erewrite filter_ext_in_; [exact HI2|].
        destruct HI as (_ & _ & _ & GD & _). intros r Hr. specialize (GD r Hr).
        destruct r as [[[i' l'] d'] v']. destruct GD as (_ & _ & Hl & _).
        destruct Hl as [<-|[<-|[]]]; simpl; destruct (String.eqb n i'); destruct (String.eqb d d'); reflexivity.
      + destruct HI as (Hs & HD & HT & GD & GT). cbn [fst snd] in *.
        split; [apply shape_del; auto|]. cbn [fst snd]. split; [|split; [|split]].
        * pose proof (holds_del parse path is_desc ok true dieml dline fs D n Hn HD) as H.
          unfold left_by. erewrite filter_ext_in_; [exact H|]. intros [[[i' l'] d'] v'] _. unfold dieml. simpl.
          rewrite !andb_true_r. reflexivity.
        * apply (holds_del_other parse path is_desc ok false); [auto|exact HT].
        * intros r Hr. apply filter_In in Hr. apply GD. tauto.
        * exact GT.
  Qed.

  Lemma step_add fs st i l d v : Inv fs st -> op_ok parse (AddDescriptor i l d v) ->
    Inv (exec_step parse path fs (AddDescriptor i l d v)) (sstep st (AddDescriptor i l d v)).
  Proof.
    intros HI [Hp Hv]. destruct st as [D T]. cbn [spec_step].
    destruct (parse i) as [n|e] eqn:Hi; [|erewrite unparsed; eauto].
    specialize (Hp n eq_refl). pose proof (parse_idem _ _ _ ok _ _ Hi) as Hn.
    unfold exec_step, exec, add_descriptor. rewrite (nk_add _ _ _ _ Hi).
    change (mem l LANGUAGES) with (inb l LANGUAGES). change (mem d DESCRIPTORS_CLASS) with (inb d DESCRIPTORS_CLASS).
    destruct (inb l LANGUAGES && inb d DESCRIPTORS_CLASS)%bool eqn:Hok; [|exact HI].
    cbn [bind fst]. simpl andb.
    destruct (String.eqb_spec (normalize_value v) "") as [E|E].
    { apply kept_empty in E. rewrite E. exact HI. }
    destruct (String.eqb_spec (kept v) "") as [E'|_]; [apply kept_empty in E'; contradiction|].
    rewrite path_of_parsed by auto. cbn [bind negb]. rewrite good_descriptor_line by auto.
    apply andb_true_iff in Hok. destruct Hok as [Hl Hd]. apply inb_In in Hl. apply inb_In in Hd.
    destruct HI as (Hs & HD & HT & GD & GT). cbn [fst snd] in *.
    split; [apply shape_append; auto|]. cbn [fst snd]. split; [|split; [|split]].
    - apply (holds_append parse path is_desc ok true dieml dline fs D (n, l, d, kept v)); auto.
    - apply (holds_append_other parse path is_desc ok false); [auto|exact HT].
    - intros r Hr. apply in_app_iff in Hr. destruct Hr as [Hr|[<-|[]]]; [auto|].
      split; [auto|]. split; [auto|]. split; [auto|]. split; [auto|]. split; [apply one_line_no_nl|].
      intros C. apply Hv. apply (strip_sub py_space). apply (one_line_occurs "013"); [discriminate|discriminate|exact C].
    - exact GT.
  Qed.

  Lemma key_cases (k : string) (P : Prop) : inb k STRUCTURE_KEYS = true ->
    (k = "inhibition" -> P) -> (k = "is_root" -> P) -> (k = "is_ignored" -> P) -> P.
  Proof. intros H. apply inb_In in H. destruct H as [<-|[<-|[<-|[]]]]; auto. Qed.

  Lemma svalue_key k v v' : svalue k v = Some v' -> In k STRUCTURE_KEYS /\ plain v'.
  Proof.
    unfold svalue, structure_value. destruct (String.eqb_spec k "inhibition") as [->|H1].
    - destruct (mem v INHIBITABLE_RELATIONS) eqn:E; [|discriminate]. intros [= <-]. split; [simpl; auto|].
      apply inb_In in E. simpl in E.
      repeat (destruct E as [<-|E]; [unfold plain, occurs; simpl; repeat split; intuition discriminate|]). destruct E.
    - destruct (mem k ["is_root"; "is_ignored"]) eqn:E; [|discriminate].
      intros H. split.
      + apply inb_In in E. simpl in *. tauto.
      + destruct (json_bool v) as [[]|]; (discriminate H || injection H as <-);
        unfold plain, occurs; simpl; repeat split; intuition discriminate.
  Qed.

  (** The part of normalize_key about a structure value. *)
  Lemma nk_svalue i n k v partial : parse i = Ok n -> v <> "" -> k <> "" ->
    normalize_key parse true i (Some k) (Some v) partial true =
    match svalue k v with Some v' => Ok (n, Some k, Some v') | None => Err ValueError end.
  Proof.
    intros Hn Hv Hk. unfold normalize_key. rewrite (nonempty _ _ Hn), Hn. cbn [negb andb bind].
    unfold truthy. apply String.eqb_neq in Hv, Hk. rewrite Hv, Hk. cbn [negb andb orb]. rewrite orb_true_r.
    cbn [negb]. unfold svalue, structure_value.
    change (mem v INHIBITABLE_RELATIONS) with (inb v INHIBITABLE_RELATIONS).
    destruct (inb k STRUCTURE_KEYS) eqn:E; cbn [negb].
    - apply (key_cases k _ E); intros ->;
      destruct (inb v INHIBITABLE_RELATIONS); destruct (json_bool v) as [[]|]; reflexivity.
    - destruct (String.eqb_spec k "inhibition") as [->|]; [discriminate|].
      unfold inb in E. cbn [existsb STRUCTURE_KEYS] in E. unfold mem. cbn [existsb].
      destruct (String.eqb_spec k "inhibition"); [contradiction|]. cbn [orb] in E. rewrite E. reflexivity.
  Qed.

  Lemma step_adds fs st i k v : Inv fs st -> op_ok parse (AddStructure i k v) ->
    Inv (exec_step parse path fs (AddStructure i k v)) (sstep st (AddStructure i k v)).
  Proof.
    intros HI [Hp Hv]. destruct st as [D T]. cbn [spec_step].
    destruct (parse i) as [n|e] eqn:Hi; [|erewrite unparsed; eauto].
    specialize (Hp n eq_refl). pose proof (parse_idem _ _ _ ok _ _ Hi) as Hn.
    unfold exec_step, exec, add_structure.
    destruct (string_dec k "") as [->|Hk]; [exact HI|].
    rewrite (nk_svalue _ _ _ _ _ Hi Hv Hk). destruct (svalue k v) as [v'|] eqn:E; [|exact HI].
    cbn [bind]. rewrite path_of_parsed by auto. cbn [bind].
    destruct (svalue_key _ _ _ E) as [Hkey Hpl].
    assert (El : structure_line n k (Some v') = sline (n, k, v')).
    { unfold structure_line, sline. destruct Hp as (Hq & _), Hpl as (Hq' & _). rewrite !quote_id by auto. reflexivity. }
    rewrite El. destruct HI as (Hs & HD & HT & GD & GT). cbn [fst snd] in *.
    split; [apply shape_append; auto|]. cbn [fst snd]. split; [|split; [|split]].
    - apply (holds_append_other parse path is_desc ok true); [auto|exact HD].
    - apply (holds_append parse path is_desc ok false sieml sline fs T (n, k, v')); auto.
    - exact GD.
    - intros r Hr. apply in_app_iff in Hr. destruct Hr as [Hr|[<-|[]]]; [auto|].
      split; [auto|]. split; [auto|]. split; auto.
  Qed.

  Definition left_bys (n : string) (k v : option string) (T : list srecord) : list srecord :=
    filter (fun r => let '(i', k', v') := r in
      negb (String.eqb n i' && selects k k' && selects_svalue svalue k v v')) T.

  Lemma nk_sremove i n k v : parse i = Ok n -> (v <> None -> k <> None /\ v <> Some "") ->
    normalize_key parse true i k v true true =
    match k with
    | None => Ok (n, None, None)
    | Some "" => Ok (n, k, v)
    | Some k0 =>
      match v with
      | None => if inb k0 STRUCTURE_KEYS then Ok (n, k, None) else Err ValueError
      | Some v0 => match svalue k0 v0 with Some v' => Ok (n, k, Some v') | None => Err ValueError end
      end
    end.
  Proof.
    intros Hn Hg. destruct k as [k|].
    - destruct (string_dec k "") as [->|Hk].
      + unfold normalize_key. rewrite (nonempty _ _ Hn), Hn. cbn [negb andb bind orb truthy]. cbn.
        destruct v as [v|]; [|reflexivity]. destruct (truthy (Some v)); reflexivity.
      + destruct v as [v|].
        * rewrite (nk_svalue i n) by (auto; intros ->; destruct Hg; congruence).
          destruct k; [congruence|]. reflexivity.
        * unfold normalize_key. rewrite (nonempty _ _ Hn), Hn. cbn [negb andb bind orb].
          unfold truthy. destruct (String.eqb_spec k ""); [congruence|]. cbn [negb andb].
          destruct (inb k STRUCTURE_KEYS); destruct k; congruence || reflexivity.
    - assert (v = None) as -> by (destruct v; [destruct Hg; congruence|reflexivity]).
      unfold normalize_key. rewrite (nonempty _ _ Hn), Hn. reflexivity.
  Qed.

  Lemma step_removes fs st i k v : Inv fs st -> op_ok parse (RemoveStructure i k v) ->
    Inv (exec_step parse path fs (RemoveStructure i k v)) (sstep st (RemoveStructure i k v)).
  Proof.
    intros HI [Hp Hg]. destruct st as [D T]. cbn [spec_step].
    destruct (parse i) as [n|e] eqn:Hi; [|erewrite unparsed; eauto].
    specialize (Hp n eq_refl). pose proof (parse_idem _ _ _ ok _ _ Hi) as Hn.
    change (Inv (exec_step parse path fs (RemoveStructure i k v)) (D, left_bys n k v T)).
    unfold exec_step, exec, remove_structure. rewrite (nk_sremove _ _ _ _ Hi Hg).
    assert (Habs : fs_get fs (path false n) = None -> left_bys n k v T = T).
    { intros Hnone. destruct HI as (_ & _ & HT & _ & _). apply filter_all. intros r Hr.
      pose proof (holds_absent _ _ _ _ _ _ _ _ Hn HT Hnone r Hr) as Hi'.
      destruct r as [[i' k'] v']. unfold sieml in Hi'. simpl in Hi'.
      destruct (String.eqb_spec n i'); [congruence|]. reflexivity. }
    destruct k as [k|].
    - assert (Hfilter : forall v1 c, fs_get fs (path false n) = Some c -> ~ occurs " " k ->
        (forall x k', In k' STRUCTURE_KEYS -> k = k' ->
           match v1 with None => true | Some v => (String.eqb v "" || String.eqb v x)%bool end
           = selects_svalue svalue (Some k) v x) ->
        Inv (fs_set fs (path false n) (sconcat (filter (fun l => negb (startswith l (structure_prefix n k v1))) (readlines c))))
            (D, left_bys n (Some k) v T)).
      { intros v1 c Hc Hsp Hv1. destruct HI as (Hs & HD & HT & GD & GT). cbn [fst snd] in *.
        split; [apply shape_set; auto|]. cbn [fst snd]. split; [|split; [|split]].
        - apply (holds_set_other parse path is_desc ok true); [auto|exact HD].
        - apply (holds_filter _ _ _ ok) with (c := c); auto.
          + intros r Hr. apply (sline_is_line parse). auto.
          + intros r Hr Hi'. rewrite (sprefix parse) by auto. specialize (GT r Hr). destruct r as [[i' k'] v'].
            unfold sieml in Hi'. simpl in Hi'. subst i'. rewrite String.eqb_refl.
            f_equal. cbn [selects andb]. destruct (String.eqb_spec k k') as [E|]; [|reflexivity].
            cbn [andb]. destruct GT as (_ & _ & Hk' & _). apply (Hv1 v' k' Hk' E).
          + intros [[i' k'] v'] Hr Hi'. unfold sieml in Hi'. simpl in Hi'.
            destruct (String.eqb_spec n i'); [congruence|]. reflexivity.
        - exact GD.
        - intros r Hr. apply filter_In in Hr. apply GT. tauto. }
      assert (Hbad : ~ In k STRUCTURE_KEYS -> left_bys n (Some k) v T = T).
      { intros Hk. apply filter_all. destruct HI as (_ & _ & _ & _ & GT). intros r Hr. specialize (GT r Hr).
        destruct r as [[i' k'] v']. destruct GT as (_ & _ & Hk' & _). cbn [selects].
        destruct (String.eqb_spec k k') as [->|]; [contradiction|]. rewrite andb_false_r. reflexivity. }
      destruct (string_dec k "") as [->|Hk].
      + cbn [bind]. rewrite path_of_parsed by auto. cbn [bind].
        destruct (fs_get fs (path false n)) as [c|] eqn:Hc; [|rewrite Habs by auto; exact HI].
        apply Hfilter; auto. intros x k' Hk' <-. simpl in Hk'. intuition discriminate.
      + assert (Ek : forall A (a b : A), match k with "" => a | _ => b end = b) by (destruct k; [congruence|reflexivity]).
        rewrite Ek. destruct v as [v|].
        * destruct (svalue k v) as [v'|] eqn:E.
          -- cbn [bind]. rewrite path_of_parsed by auto. cbn [bind].
             destruct (fs_get fs (path false n)) as [c|] eqn:Hc; [|rewrite Habs by auto; exact HI].
             destruct (svalue_key _ _ _ E) as [Hkey _].
             apply Hfilter; [auto|apply key_word; auto|]. intros x k' _ _. unfold selects_svalue. rewrite E.
             destruct (String.eqb_spec v' "") as [->|]; [|reflexivity]. exfalso. clear - E.
             unfold svalue, structure_value in E. destruct (String.eqb k "inhibition").
             ++ destruct (mem v INHIBITABLE_RELATIONS) eqn:F; [|discriminate]. injection E as ->. discriminate.
             ++ destruct (mem k ["is_root"; "is_ignored"]); [|discriminate]. destruct (json_bool v) as [[]|]; discriminate.
          -- cbn [bind]. replace (left_bys n (Some k) (Some v) T) with T; [exact HI|]. symmetry. apply filter_all.
             intros [[i' k'] v'] _. unfold selects_svalue. rewrite E, andb_false_r. reflexivity.
        * destruct (inb k STRUCTURE_KEYS) eqn:E.
          -- cbn [bind]. rewrite path_of_parsed by auto. cbn [bind].
             destruct (fs_get fs (path false n)) as [c|] eqn:Hc; [|rewrite Habs by auto; exact HI].
             apply Hfilter; [auto|apply key_word, inb_In; auto|]. reflexivity.
          -- cbn [bind]. rewrite Hbad; [exact HI|]. intros C. apply inb_In in C. congruence.
    - cbn [bind]. rewrite path_of_parsed by auto. cbn [bind].
      destruct (fs_get fs (path false n)) as [c|] eqn:Hc; [|rewrite Habs by auto; exact HI].
      destruct HI as (Hs & HD & HT & GD & GT). cbn [fst snd] in *.
      split; [apply shape_del; auto|]. cbn [fst snd]. split; [|split; [|split]].
      + apply (holds_del_other parse path is_desc ok true); [auto|exact HD].
      + pose proof (holds_del parse path is_desc ok false sieml sline fs T n Hn HT) as H.
        unfold left_bys. erewrite filter_ext_in_; [exact H|]. intros [[i' k'] v'] _. unfold sieml. simpl.
        rewrite !andb_true_r. reflexivity.
      + exact GD.
      + intros r Hr. apply filter_In in Hr. apply GT. tauto.
  Qed.

  Lemma step_inv fs st o : Inv fs st -> op_ok parse o -> Inv (exec_step parse path fs o) (sstep st o).
  Proof. destruct o; eauto using step_add, step_remove, step_adds, step_removes. Qed.

  Lemma run_inv ops fs st : Inv fs st -> Forall (op_ok parse) ops ->
    Inv (run parse path fs ops) (spec_run parse LANGUAGES DESCRIPTORS_CLASS svalue kept same_or_quoted st ops).
  Proof.
    intros HI Hops. revert fs st HI. induction Hops as [|o ops Ho _ IH]; intros fs st HI; [exact HI|].
    apply IH. apply step_inv; auto.
  Qed.

  Lemma Inv_empty : Inv [] ([], []).
  Proof.
    split; [split; [constructor|intros ? []]|]. split; [intros i _; reflexivity|]. split; [intros i _; reflexivity|].
    split; intros ? [].
  Qed.

  Lemma mapM_rows {A B} (f : list string -> res B) (g : A -> list string) (h : A -> B) l :
    (forall x, f (g x) = Ok (h x)) -> mapM f (map g l) = Ok (map h l).
  Proof. intros H. induction l as [|x l IH]; [reflexivity|]. simpl. rewrite H. simpl. rewrite IH. reflexivity. Qed.

  Lemma read_d fs st fo : Inv fs st -> (forall l, Permutation (fo l) l) ->
    exists rows, get_descriptors is_desc fo fs = Ok rows /\ Permutation rows (fst st) /\
      forall i (P : drecord -> bool),
        filter (fun r => (String.eqb (dieml r) i && P r)%bool) rows =
        filter (fun r => (String.eqb (dieml r) i && P r)%bool) (fst st).
  Proof.
    intros (Hs & HD & _ & GD & _) Hfo.
    assert (Hr : forall r, In r (fst st) -> parse (dieml r) = Ok (dieml r)).
    { intros r Hr. specialize (GD r Hr). destruct r as [[[i l] d] v]. destruct GD as (H & _). exact H. }
    destruct (read_all parse path is_desc ok true dieml dline fs (fst st) fo Hs HD Hfo Hr) as (is & Hnd & His & E).
    exists (flat_map (own dieml (fst st)) is). split; [|split].
    - unfold get_descriptors.
      rewrite (filter_ext_in_ _ (fun f => Bool.eqb (is_desc (fst f)) true)), E
        by (intros x _; destruct (is_desc (fst x)); reflexivity).
      assert (Hc : forall l, (forall r, In r l -> good_d parse r) ->
         csv_rows (sconcat (map dline l)) = map (fun r => let '(i, l, d, v) := r in [i; l; d; v]) l).
      { clear. induction l as [|[[[i l0] d] v] l IH]; intros Hl; [reflexivity|].
        destruct (Hl (i, l0, d, v)) as (_ & _ & Hla & Hde & _); [simpl; auto|].
        cbn [map sconcat dline]. rewrite csv_dline by auto using lang_word, desc_word.
        rewrite IH by (intros; apply Hl; simpl; auto). reflexivity. }
      rewrite Hc.
      + rewrite (mapM_rows row4 _ (fun r => r)); [rewrite map_id; reflexivity|].
        intros [[[i l] d] v]. reflexivity.
      + intros r Hin. apply in_flat_map in Hin. destruct Hin as (i & _ & Hin). apply filter_In in Hin. apply GD. tauto.
    - clear -His Hnd. revert His. generalize (fst st) as rs.
      induction is as [|i is IH]; intros rs His.
      + destruct rs as [|r rs]; [constructor|]. destruct (His r). simpl. auto.
      + simpl. inversion_clear Hnd.
        set (rest := filter (fun r => negb (String.eqb i (dieml r))) rs).
        assert (Hrest : flat_map (own dieml rs) is = flat_map (own dieml rest) is).
        { assert (Hg : forall js, ~ In i js -> flat_map (own dieml rs) js = flat_map (own dieml rest) js).
          { clear. induction js as [|j js IH]; [reflexivity|]. simpl. intros Hn. rewrite IH by tauto. f_equal.
            unfold own, rest. rewrite filter_filter. apply filter_ext_in_. intros x _.
            destruct (String.eqb_spec j (dieml x)) as [->|]; [|rewrite andb_false_r; reflexivity].
            destruct (String.eqb_spec i (dieml x)); [subst; tauto|]. reflexivity. }
          apply Hg; auto. }
        rewrite Hrest, IH; auto.
        * clear. unfold own, rest. induction rs as [|r rs IH]; [constructor|]. simpl.
          destruct (String.eqb i (dieml r)); simpl; [constructor; exact IH|].
          rewrite <- Permutation_middle. constructor. exact IH.
        * intros r Hr. apply filter_In in Hr. destruct Hr as [Hr Hne]. destruct (His r Hr) as [->|]; [|auto].
          rewrite String.eqb_refl in Hne. discriminate.
    - intros i P. apply filter_flat_own; auto.
  Qed.

  Lemma read_s fs st fo : Inv fs st -> (forall l, Permutation (fo l) l) ->
    exists rows, structure_rows is_desc fo fs = Ok rows /\
      forall i (P : srecord -> bool),
        filter (fun r => (String.eqb (sieml r) i && P r)%bool) rows =
        filter (fun r => (String.eqb (sieml r) i && P r)%bool) (snd st).
  Proof.
    intros (Hs & _ & HT & _ & GT) Hfo.
    assert (Hr : forall r, In r (snd st) -> parse (sieml r) = Ok (sieml r)).
    { intros r Hr. specialize (GT r Hr). destruct r as [[i k] v]. destruct GT as (H & _). exact H. }
    destruct (read_all parse path is_desc ok false sieml sline fs (snd st) fo Hs HT Hfo Hr) as (is & Hnd & His & E).
    exists (flat_map (own sieml (snd st)) is). split.
    - unfold structure_rows.
      rewrite (filter_ext_in_ _ (fun f => Bool.eqb (is_desc (fst f)) false)), E
        by (intros x _; destruct (is_desc (fst x)); reflexivity).
      assert (Hc : forall l, (forall r, In r l -> good_s parse r) ->
         csv_rows (sconcat (map sline l)) = map (fun r => let '(i, k, v) := r in [i; k; v]) l).
      { clear. induction l as [|[[i k] v] l IH]; intros Hl; [reflexivity|].
        destruct (Hl (i, k, v)) as (_ & _ & Hla & _); [simpl; auto|].
        cbn [map sconcat sline]. rewrite csv_sline by auto using key_word.
        rewrite IH by (intros; apply Hl; simpl; auto). reflexivity. }
      rewrite Hc.
      + rewrite (mapM_rows row3 _ (fun r => r)); [rewrite map_id; reflexivity|].
        intros [[i k] v]. reflexivity.
      + intros r Hin. apply in_flat_map in Hin. destruct Hin as (i & _ & Hin). apply filter_In in Hin. apply GT. tauto.
    - intros i P. apply filter_flat_own; auto.
  Qed.

  Lemma read_structure fs st fo : Inv fs st -> (forall l, Permutation (fo l) l) ->
    (snd st = [] -> get_structure is_desc fo fs = Err ValueError) /\
    (snd st <> [] -> exists rows, get_structure is_desc fo fs = Ok rows /\
      forall i (P : srecord -> bool),
        filter (fun r => (String.eqb (sieml r) i && P r)%bool) rows =
        filter (fun r => (String.eqb (sieml r) i && P r)%bool) (snd st)).
  Proof.
    intros HI Hfo. destruct (read_s fs st fo HI Hfo) as (rows & E & F). unfold get_structure. rewrite E. cbn [bind]. split.
    - intros H0. destruct rows as [|r rows]; [reflexivity|]. exfalso. specialize (F (sieml r) (fun _ => true)).
      rewrite H0 in F. simpl in F. rewrite String.eqb_refl in F. discriminate.
    - intros H0. exists rows. split; [|exact F]. destruct rows as [|r rows]; [|reflexivity]. exfalso.
      destruct (snd st) as [|r T]; [auto|]. specialize (F (sieml r) (fun _ => true)). simpl in F.
      rewrite String.eqb_refl in F. discriminate.
  Qed.
End Refine.
