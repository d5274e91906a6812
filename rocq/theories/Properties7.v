(** Properties of pull: C46. *)
From Coq Require Import List String Ascii Bool NArith Arith Lia Permutation.
From Verif Require Import Base Database DatabasePath DatabaseSpec DatabaseProofs Git GitProofs Pull Properties4.
Import ListNotations.
Local Open Scope string_scope.

(** * Specification *)
(** What becomes of one path, from its content in the common ancestor, locally and
    remotely; the last argument tells whether it is a conflict. *)
Inductive resolves (merge_file : option string -> string -> string -> option string) (b o t : option string)
  : option string -> bool -> Prop :=
| resolves_same : o = t -> resolves merge_file b o t o false
| resolves_remote_change : b = o -> resolves merge_file b o t t false
| resolves_local_change : b = t -> resolves merge_file b o t o false
| resolves_merged x y c : o <> t -> b <> o -> b <> t -> o = Some x -> t = Some y -> merge_file b x y = Some c ->
    resolves merge_file b o t (Some c) false
| resolves_conflict : o <> t -> b <> o -> b <> t ->
    (forall x y, o = Some x -> t = Some y -> merge_file b x y = None) -> resolves merge_file b o t t true.

Section P.
  Variable merge_file : option string -> string -> string -> option string.
  Notation m3 := (merge3 merge_file).
  Definition result_of (b o t : option string) : option string := match m3 b o t with Clean x => x | Conflict => t end.
  Definition conflict_of (b o t : option string) : bool := match m3 b o t with Conflict => true | _ => false end.

  Lemma opt_eqb_neq a b : opt_eqb a b = false -> a <> b.
  Proof. intros H ->. assert (opt_eqb b b = true) by (apply opt_eqb_eq; reflexivity). congruence. Qed.

  Lemma merge3_resolves b o t : resolves merge_file b o t (result_of b o t) (conflict_of b o t).
  Proof.
    unfold result_of, conflict_of, merge3.
    destruct (opt_eqb o t) eqn:E1; [constructor 1; apply opt_eqb_eq; auto|]. apply opt_eqb_neq in E1.
    destruct (opt_eqb b o) eqn:E2; [constructor 2; apply opt_eqb_eq; auto|]. apply opt_eqb_neq in E2.
    destruct (opt_eqb b t) eqn:E3; [constructor 3; apply opt_eqb_eq; auto|]. apply opt_eqb_neq in E3.
    destruct o as [x|], t as [y|]; try (apply resolves_conflict; auto; congruence).
    destruct (merge_file b x y) as [c|] eqn:E; [eapply resolves_merged; eauto|].
    apply resolves_conflict; auto. intros x' y' [= <-] [= <-]. exact E.
  Qed.
  Lemma resolves_unique b o t r c : resolves merge_file b o t r c -> r = result_of b o t /\ c = conflict_of b o t.
  Proof.
    unfold result_of, conflict_of, merge3.
    destruct (opt_eqb o t) eqn:E1; [apply opt_eqb_eq in E1|apply opt_eqb_neq in E1].
    { intros []; subst; auto; congruence. }
    destruct (opt_eqb b o) eqn:E2; [apply opt_eqb_eq in E2|apply opt_eqb_neq in E2].
    { intros []; subst; auto; congruence. }
    destruct (opt_eqb b t) eqn:E3; [apply opt_eqb_eq in E3|apply opt_eqb_neq in E3].
    { intros []; subst; auto; congruence. }
    intros [H|H|H|x y c' _ _ _ -> -> H|_ _ _ H]; try congruence.
    - rewrite H. auto.
    - destruct o as [x|], t as [y|]; auto. rewrite (H x y eq_refl eq_refl). auto.
  Qed.
End P.

(** The descriptors of a file, as read from its lines: the values of each class and language. *)
Definition descriptors_in (c : string) (i : string) (e : descriptor) : Prop :=
  exists rows, mapM row4 (csv_rows c) = Ok rows /\
    (forall r, In r rows -> fst (fst (fst r)) = i) /\ rows <> [] /\
    forall cl l, In cl DESCRIPTORS_CLASS -> In l LANGUAGES ->
      exists ls, dict_get e cl = Some ls /\ dict_get ls l = Some (values_of rows i l cl).

Lemma dict_get_map {V} (f : string -> V) L k : In k L -> dict_get (map (fun x => (x, f x)) L) k = Some (f k).
Proof.
  unfold dict_get. induction L as [|x L IH]; [intros []|]. simpl. destruct (String.eqb_spec k x) as [->|]; [reflexivity|].
  intros [->|H]; [congruence|auto].
Qed.
Lemma dedup_one (l : list string) i : dedup String.eqb l = [i] -> l <> [] /\ forall x, In x l -> x = i.
Proof.
  intros E. split; [intros ->; discriminate|]. intros x Hx. apply in_dedup in Hx. rewrite E in Hx. destruct Hx as [->|[]]. reflexivity.
Qed.
Lemma from_csv_spec c i e : from_csv_string c = Ok (i, e) -> descriptors_in c i e.
Proof.
  unfold from_csv_string. destruct (mapM row4 (csv_rows c)) as [rows|] eqn:E; [|discriminate]. cbn [bind].
  destruct (forallb _ rows); [|discriminate]. cbn [negb]. destruct (dedup _ _) as [|j [|? ?]] eqn:Ed; try discriminate.
  intros [= -> <-]. apply dedup_one in Ed. destruct Ed as [Hn Hi]. exists rows. split; [exact E|]. split.
  - intros r Hr. apply Hi. apply in_map_iff. exists r. auto.
  - split; [intros ->; apply Hn; reflexivity|]. intros cl l Hc Hl. unfold descriptor_of.
    rewrite (dict_get_map (fun d => map (fun l => (l, map snd (filter (fun r => let '(i', l', d', _) := r in
        (String.eqb i' i && String.eqb l' l && String.eqb d' d)%bool) rows))) LANGUAGES) DESCRIPTORS_CLASS cl Hc).
    eexists. split; [reflexivity|].
    rewrite (dict_get_map (fun l => map snd (filter (fun r => let '(i', l', d', _) := r in
        (String.eqb i' i && String.eqb l' l && String.eqb d' cl)%bool) rows)) LANGUAGES l Hl). reflexivity.
Qed.

Lemma dict_get_set {V} (d : list (string * V)) k v k' : dict_get (dict_set d k v) k' = if String.eqb k k' then Some v else dict_get d k'.
Proof.
  unfold dict_set. destruct (existsb _ d) eqn:E.
  - unfold dict_get. induction d as [|[x y] d IH]; [discriminate|]. simpl in *. destruct (String.eqb_spec k x) as [<-|N].
    + simpl. rewrite (String.eqb_sym k' k). destruct (String.eqb_spec k k') as [<-|N]; [reflexivity|].
      clear IH E. induction d as [|[x y'] d IH]; [reflexivity|]. simpl. destruct (String.eqb_spec k x) as [<-|N'].
      * simpl. apply not_eq_sym in N. apply String.eqb_neq in N. rewrite N. exact IH.
      * simpl. destruct (String.eqb k' x); [reflexivity|exact IH].
    + simpl. destruct (String.eqb_spec k' x) as [->|N']; [apply String.eqb_neq in N; rewrite N; reflexivity|]. apply IH. exact E.
  - unfold dict_get. induction d as [|[x y] d IH]; simpl in *.
    + rewrite (String.eqb_sym k' k). destruct (String.eqb k k'); reflexivity.
    + apply orb_false_iff in E. destruct E as [E1 E2]. destruct (String.eqb_spec k' x) as [->|N']; [rewrite E1; reflexivity|].
      apply IH. exact E2.
Qed.

Lemma fs_get_put fs p o q : fs_get (fs_put fs p o) q = if String.eqb p q then o else fs_get fs q.
Proof.
  destruct o as [c|]; simpl.
  - rewrite fs_get_set. destruct (String.eqb p q); reflexivity.
  - rewrite fs_get_del. destruct (String.eqb p q); reflexivity.
Qed.
Lemma fold_put (f : string -> option string) (skip : string -> bool) L q : forall t,
  fs_get (fold_left (fun t p => if skip p then t else fs_put t p (f p)) L t) q =
  if (existsb (String.eqb q) L && negb (skip q))%bool then f q else fs_get t q.
Proof.
  induction L as [|p L IH]; intros t; [reflexivity|]. cbn [fold_left existsb]. rewrite IH.
  destruct (String.eqb_spec q p) as [<-|N]; cbn [orb].
  - destruct (skip q) eqn:E; rewrite ?andb_false_r, ?andb_true_r; cbn [negb andb]; [reflexivity|].
    destruct (existsb _ L); [reflexivity|]. rewrite fs_get_put, String.eqb_refl. reflexivity.
  - destruct (existsb (String.eqb q) L && negb (skip q))%bool; [reflexivity|]. destruct (skip p); [reflexivity|].
    rewrite fs_get_put. apply not_eq_sym in N. apply String.eqb_neq in N. rewrite N. reflexivity.
Qed.

Section Loop.
  Variables ours theirs : fsys.
  Notation loop := (fold_left (fun acc p => do a <- acc; conflict_step ours theirs a p)).

  Lemma loop_err cs e : loop cs (Err e) = Err e.
  Proof. induction cs; simpl; auto. Qed.

  (** The local descriptors of a path. *)
  Definition local_descriptors (p i : string) (e : descriptor) : Prop :=
    exists c, fs_get ours p = Some c /\ from_csv_string c = Ok (i, e).

  Lemma loop_ok cs : forall d v d' v', loop cs (Ok (d, v)) = Ok (d', v') ->
    (forall p, In p cs -> is_desc_file p = true -> exists i e, local_descriptors p i e /\ exists e', dict_get d' i = Some e') /\
    (forall i e, dict_get d' i = Some e -> dict_get d i = Some e \/
       exists p, In p cs /\ is_desc_file p = true /\ local_descriptors p i e) /\
    (forall i e, dict_get d i = Some e -> exists e', dict_get d' i = Some e') /\
    (v' = None <-> v = None /\ forall p, In p cs -> is_desc_file p = false).
  Proof.
    induction cs as [|p cs IH]; intros d v d' v' H.
    - simpl in H. injection H as <- <-. split; [intros ? []|]. split; [auto|]. split; [eauto|]. split; [intros ->; split; [auto|intros ? []]|tauto].
    - cbn [fold_left bind] in H. unfold conflict_step in H at 2. cbn [fst snd] in H.
      destruct (is_desc_file p) eqn:Ep.
      + destruct (fs_get ours p) as [c|] eqn:Ec.
        * destruct (from_csv_string c) as [[i e]|x] eqn:Ecsv; [|cbn [bind] in H; rewrite loop_err in H; discriminate].
          cbn [bind fst snd] in H. apply IH in H. destruct H as (H1 & H2 & H3 & H4).
          assert (Hp : local_descriptors p i e) by (exists c; auto).
          split; [|split; [|split]].
          -- intros q [<-|Hq] Hd; [|auto]. exists i, e. split; [exact Hp|]. apply (H3 i e). rewrite dict_get_set, String.eqb_refl. reflexivity.
          -- intros j f Hj. destruct (H2 j f Hj) as [Hd|(q & Hq & Hq')].
             ++ rewrite dict_get_set in Hd. destruct (String.eqb_spec i j) as [<-|]; [|auto]. injection Hd as <-. right. exists p. simpl. auto.
             ++ right. exists q. simpl. auto.
          -- intros j f Hj. destruct (string_dec i j) as [<-|N].
             ++ apply (H3 i e). rewrite dict_get_set, String.eqb_refl. reflexivity.
             ++ apply (H3 j f). rewrite dict_get_set. apply String.eqb_neq in N. rewrite N. exact Hj.
          -- split.
             ++ intros Hv. apply H4 in Hv. destruct Hv; discriminate.
             ++ intros [_ Hv]. specialize (Hv p (or_introl eq_refl)). congruence.
        * exfalso. destruct (fs_get theirs p) as [c|]; [destruct (from_csv_string c)|]; cbn [bind] in H; rewrite loop_err in H; discriminate.
      + apply IH in H. destruct H as (H1 & H2 & H3 & H4). split; [|split; [|split]].
        * intros q [<-|Hq] Hd; [congruence|auto].
        * intros j f Hj. destruct (H2 j f Hj) as [Hd|(q & Hq & Hq')]; [auto|]. right. exists q. simpl. auto.
        * exact H3.
        * rewrite H4. split; intros [Hv Hf]; (split; [exact Hv|]); [intros q [<-|Hq]; auto|intros q Hq; apply Hf; simpl; auto].
  Qed.

  Lemma loop_succeeds cs : (forall p, In p cs -> is_desc_file p = true -> exists i e, local_descriptors p i e) ->
    forall d v, exists a, loop cs (Ok (d, v)) = Ok a.
  Proof.
    induction cs as [|p cs IH]; intros H d v; [simpl; eauto|]. cbn [fold_left bind]. unfold conflict_step at 2. cbn [fst snd].
    destruct (is_desc_file p) eqn:Ep; [|apply IH; intros q Hq; apply H; simpl; auto].
    destruct (H p (or_introl eq_refl) Ep) as (i & e & c & Ec & Ecsv). rewrite Ec, Ecsv. cbn [bind fst snd].
    apply IH. intros q Hq. apply H. simpl. auto.
  Qed.
End Loop.

(** * C46 *)
(** The state of a path of a diverged history, and whether it is a conflict. *)
Definition resolved merge_file (base ours theirs : fsys) (p : string) (o : option string) (conflict : bool) : Prop :=
  resolves merge_file (fs_get base p) (fs_get ours p) (fs_get theirs p) o conflict.

Definition paths_of (base ours theirs : fsys) : list string :=
  dedup String.eqb (map fst base ++ map fst ours ++ map fst theirs)%list.
Lemma in_paths base ours theirs p : In p (paths_of base ours theirs) \/
  fs_get base p = None /\ fs_get ours p = None /\ fs_get theirs p = None.
Proof.
  unfold paths_of. rewrite in_dedup, !in_app_iff.
  destruct (in_dec string_dec p (map fst base)); [auto|]. destruct (in_dec string_dec p (map fst ours)); [auto|].
  destruct (in_dec string_dec p (map fst theirs)); [auto|]. right. rewrite !fs_get_none. auto.
Qed.

(** If a pull of a diverged history succeeds, HEAD is a merge of the two heads; each path is
    resolved as specified: the changes of one side are kept, and conflicts take the remote
    content. The working directory has these contents and is clean. The mapping returned
    has, for every expression of a conflicting descriptor file, local descriptors of that
    expression, and nothing else. *)
Theorem C46_pull_partial : forall merge_file order r base target conflicts r',
  (forall l, Permutation (order l) l) -> nothing_to_commit r -> target < List.length (commits r) ->
  let ours := tree_of r (head r) in
  let theirs := tree_of r target in
  pull merge_file order r base target Normal = Ok (conflicts, r') ->
  (exists t, commits r' = (commits r ++ [{| c_tree := t; c_parents := [head r; target] |}])%list /\
     head r' = List.length (commits r)) /\
  (forall p, exists o c, resolved merge_file base ours theirs p o c /\ fs_get (tree_of r' (head r')) p = o) /\
  nothing_to_commit r' /\
  (forall p, is_desc_file p = true -> (exists o, resolved merge_file base ours theirs p o true) ->
     exists i e, local_descriptors ours p i e /\ exists e', dict_get conflicts i = Some e') /\
  (forall i e, dict_get conflicts i = Some e ->
     exists p o, is_desc_file p = true /\ resolved merge_file base ours theirs p o true /\ local_descriptors ours p i e).
Proof.
  intros mf order r base target conflicts r' Hord Hc Ht ours theirs H. cbn [pull] in H. unfold pull_merge in H.
  fold ours theirs in H. change (dedup String.eqb (map fst base ++ map fst ours ++ map fst theirs)%list) with (paths_of base ours theirs) in H.
  set (paths := paths_of base ours theirs) in *.
  set (res p := result_of mf (fs_get base p) (fs_get ours p) (fs_get theirs p)).
  set (conf p := conflict_of mf (fs_get base p) (fs_get ours p) (fs_get theirs p)).
  change (fun p => match merge3 mf (fs_get base p) (fs_get ours p) (fs_get theirs p) with Conflict => true | Clean _ => false end) with conf in H.
  change (fun t p => fs_put t p match merge3 mf (fs_get base p) (fs_get ours p) (fs_get theirs p) with Clean o => o | Conflict => fs_get theirs p end)
    with (fun t p => fs_put t p (res p)) in H.
  change (fun t p => if opt_eqb match merge3 mf (fs_get base p) (fs_get ours p) (fs_get theirs p) with Clean o => o | Conflict => fs_get theirs p end (fs_get ours p)
            then t else fs_put t p match merge3 mf (fs_get base p) (fs_get ours p) (fs_get theirs p) with Clean o => o | Conflict => fs_get theirs p end)
    with (fun t p => if opt_eqb (res p) (fs_get ours p) then t else fs_put t p (res p)) in H.
  set (tree := fold_left (fun t p => fs_put t p (res p)) paths ours) in *.
  set (w := fold_left _ paths (work r)) in H.
  set (cs := order (filter conf paths)) in *.
  assert (Hcs : forall p, In p cs <-> conf p = true).
  { intros p. unfold cs. split; intros Hp.
    - apply (Permutation_in _ (Hord _)) in Hp. apply filter_In in Hp. tauto.
    - apply (Permutation_in _ (Permutation_sym (Hord _))). apply filter_In. split; [|exact Hp].
      destruct (in_paths base ours theirs p) as [Hi|(E1 & E2 & E3)]; [exact Hi|]. unfold conf in Hp. rewrite E1, E2, E3 in Hp. discriminate. }
  assert (Hres : forall p, resolved mf base ours theirs p (res p) (conf p)) by (intros p; apply merge3_resolves).
  assert (Hconf : forall p o, resolved mf base ours theirs p o true -> conf p = true).
  { intros p o Hp. apply resolves_unique in Hp. destruct Hp as [_ Hp]. symmetry. exact Hp. }
  assert (Htree : forall p, fs_get tree p = res p).
  { intros p. unfold tree. pose proof (fold_put res (fun _ => false) paths p ours) as E. cbn [negb] in E. etransitivity; [exact E|].
    rewrite andb_true_r. destruct (in_paths base ours theirs p) as [Hi|(E1 & E2 & E3)].
    - assert (existsb (String.eqb p) paths = true) as ->; [|reflexivity]. apply existsb_exists. exists p. split; [exact Hi|apply String.eqb_refl].
    - unfold res. rewrite E1, E2, E3. destruct (existsb _ _); reflexivity. }
  assert (Hwork : forall p, dotted p = false -> fs_get w p = res p).
  { intros p Hp. unfold w. rewrite (fold_put res (fun p => opt_eqb (res p) (fs_get ours p)) paths p (work r)).
    destruct Hc as [Hc1 Hc2]. specialize (Hc1 p Hp). specialize (Hc2 p Hp). fold ours in Hc2. rewrite Hc1, Hc2.
    destruct (opt_eqb (res p) (fs_get ours p)) eqn:E.
    - apply opt_eqb_eq in E. rewrite andb_false_r. auto.
    - rewrite andb_true_r. destruct (in_paths base ours theirs p) as [Hi|(E1 & E2 & E3)].
      + assert (existsb (String.eqb p) paths = true) as ->; [|reflexivity]. apply existsb_exists. exists p. split; [exact Hi|apply String.eqb_refl].
      + unfold res. rewrite E1, E2, E3. destruct (existsb _ _); reflexivity. }
  destruct (fold_left _ cs (Ok ([], None))) as [[d v]|] eqn:El; [|discriminate]. cbn [bind fst snd] in H.
  apply loop_ok in El. destruct El as (L1 & L2 & _ & L4).
  assert (H' : (d, {| commits := (commits r ++ [{| c_tree := tree; c_parents := [head r; target] |}])%list;
                      head := List.length (commits r); index := tree; work := w |}) = (conflicts, r')).
  { destruct cs as [|p cs']; [|destruct v]; try discriminate; injection H as H1 H2; congruence. }
  injection H' as <- <-. clear H. split; [exists tree; split; reflexivity|].
  assert (Et : tree_of {| commits := (commits r ++ [{| c_tree := tree; c_parents := [head r; target] |}])%list;
                      head := List.length (commits r); index := tree; work := w |} (List.length (commits r)) = tree).
  { unfold tree_of. cbn [commits]. rewrite nth_error_app2, Nat.sub_diag by lia. reflexivity. }
  cbn [head]. rewrite Et. split; [|split; [|split]].
  - intros p. exists (res p), (conf p). auto.
  - split; intros p Hp; cbn [work index head].
    + rewrite Htree, Hwork by exact Hp. reflexivity.
    + rewrite Et. reflexivity.
  - intros p Hd [o Hp]. apply L1; [|exact Hd]. apply Hcs. eapply Hconf. exact Hp.
  - intros i e Hi. destruct (L2 i e Hi) as [C|(p & Hp & Hd & Hl)]; [discriminate|]. exists p, (res p).
    apply Hcs in Hp. specialize (Hres p). rewrite Hp in Hres. auto.
Qed.
Print Assumptions C46_pull_partial.

(** If each expression has one descriptor file, as in a database folder, the mapping has
    exactly the local descriptors of each conflicting file. *)
Theorem C46_reported_descriptors : forall merge_file order r base target conflicts r',
  (forall l, Permutation (order l) l) -> nothing_to_commit r -> target < List.length (commits r) ->
  let ours := tree_of r (head r) in
  let theirs := tree_of r target in
  (forall p p' i e e', local_descriptors ours p i e -> local_descriptors ours p' i e' -> p = p') ->
  pull merge_file order r base target Normal = Ok (conflicts, r') ->
  forall p, is_desc_file p = true -> (exists o, resolved merge_file base ours theirs p o true) ->
  exists c i e, fs_get ours p = Some c /\ descriptors_in c i e /\ dict_get conflicts i = Some e.
Proof.
  intros mf order r base target conflicts r' Hord Hc Ht ours theirs Hinj H p Hd Hp.
  destruct (C46_pull_partial mf order r base target conflicts r' Hord Hc Ht H) as (_ & _ & _ & H4 & H5).
  destruct (H4 p Hd Hp) as (i & e & Hl & e' & He'). destruct (H5 i e' He') as (p' & o' & Hd' & _ & Hl').
  assert (p = p') as <- by (eapply Hinj; eauto). destruct Hl as (c & Ec & Es), Hl' as (c' & Ec' & Es').
  fold ours in Ec, Ec'. assert (c = c') as <- by congruence. assert (e = e') as <- by congruence.
  exists c, i, e. split; [exact Ec|]. split; [apply from_csv_spec; exact Es|exact He'].
Qed.
Print Assumptions C46_reported_descriptors.

(** A pull succeeds when every conflicting descriptor file exists locally and is a
    descriptor file of one expression, and some conflict, if there are any, is one. *)
Theorem C46_pull_succeeds : forall merge_file order r base target,
  (forall l, Permutation (order l) l) ->
  let ours := tree_of r (head r) in
  let theirs := tree_of r target in
  (forall p o, is_desc_file p = true -> resolved merge_file base ours theirs p o true -> exists i e, local_descriptors ours p i e) ->
  (forall p o, resolved merge_file base ours theirs p o true ->
     exists p' o', is_desc_file p' = true /\ resolved merge_file base ours theirs p' o' true) ->
  exists conflicts r', pull merge_file order r base target Normal = Ok (conflicts, r').
Proof.
  intros mf order r base target Hord ours theirs H1 H2. cbn [pull]. unfold pull_merge. fold ours theirs.
  change (dedup String.eqb (map fst base ++ map fst ours ++ map fst theirs)%list) with (paths_of base ours theirs).
  set (conf p := conflict_of mf (fs_get base p) (fs_get ours p) (fs_get theirs p)).
  change (fun p => match merge3 mf (fs_get base p) (fs_get ours p) (fs_get theirs p) with Conflict => true | Clean _ => false end) with conf.
  set (cs := order (filter conf (paths_of base ours theirs))).
  assert (Hcs : forall p, In p cs <-> conf p = true).
  { intros p. unfold cs. split; intros Hp.
    - apply (Permutation_in _ (Hord _)) in Hp. apply filter_In in Hp. tauto.
    - apply (Permutation_in _ (Permutation_sym (Hord _))). apply filter_In. split; [|exact Hp].
      destruct (in_paths base ours theirs p) as [Hi|(E1 & E2 & E3)]; [exact Hi|]. unfold conf in Hp. rewrite E1, E2, E3 in Hp. discriminate. }
  assert (Hres : forall p, In p cs -> resolved mf base ours theirs p (result_of mf (fs_get base p) (fs_get ours p) (fs_get theirs p)) true).
  { intros p Hp. apply Hcs in Hp. pose proof (merge3_resolves mf (fs_get base p) (fs_get ours p) (fs_get theirs p)) as E. fold (conf p) in E. rewrite Hp in E. exact E. }
  destruct (loop_succeeds ours theirs cs) with (d := @nil (string * descriptor)) (v := @None string) as [[d v] El].
  { intros p Hp Hd. eapply H1; eauto. }
  cbv zeta. rewrite El. cbn [bind fst snd]. apply loop_ok in El. destruct El as (_ & _ & _ & L4).
  destruct cs as [|p cs'] eqn:Ecs; [eauto|]. destruct v as [v|]; [eauto|]. exfalso.
  destruct (H2 p _ (Hres p (or_introl eq_refl))) as (p' & o' & Hd' & Hr').
  assert (In p' (p :: cs')) as Hin.
  { apply Hcs. apply resolves_unique in Hr'. destruct Hr' as [_ E]. symmetry. exact E. }
  destruct (proj1 L4 eq_refl) as [_ L]. rewrite (L p' Hin) in Hd'. discriminate.
Qed.
Print Assumptions C46_pull_succeeds.

(** Up to date: nothing happens. Fast-forward: HEAD and the visible files are the target's. *)
Theorem C46_fast_forward : forall merge_file order r base target,
  pull merge_file order r base target UpToDate = Ok ([], r) /\
  exists r', pull merge_file order r base target FastForward = Ok ([], r') /\ commits r' = commits r /\ head r' = target /\
    same_visible (work r') (tree_of r target) /\ nothing_to_commit r'.
Proof.
  intros mf order r base target. split; [reflexivity|]. cbn [pull]. eexists. split; [reflexivity|]. unfold checkout_commit.
  destruct (reset_spec r (head r)) as (C1 & _ & _ & _). destruct (reset_spec (reset r (head r)) target) as (C2 & H2 & I2 & W2).
  assert (Et : tree_of (reset r (head r)) target = tree_of r target) by (unfold tree_of; rewrite C1; reflexivity). rewrite Et in *.
  split; [congruence|]. split; [exact H2|]. split; [exact W2|]. split; intros p Hp.
  - rewrite W2, I2 by exact Hp. reflexivity.
  - rewrite I2, H2. unfold tree_of. rewrite C2, C1. reflexivity.
Qed.
Print Assumptions C46_fast_forward.

(** A diverged repository: commit 0 is the ancestor, 1 the local head, 2 the remote one. *)
Definition dline (i v : string) : string := """" ++ i ++ """ en tags """ ++ v ++ """" ++ nl.
Definition diverged (base ours theirs : fsys) : repo :=
  {| commits := [{| c_tree := base; c_parents := [] |}; {| c_tree := ours; c_parents := [0] |}; {| c_tree := theirs; c_parents := [0] |}];
     head := 1; index := ours; work := ours |}.
Definition never (_ : option string) (_ _ : string) : option string := None.
Definition b0 : fsys := [("a.desc", dline "a." "x"); ("b.desc", dline "b." "x"); ("c.desc", dline "c." "x"); ("d.desc", dline "d." "x")].
Definition o0 : fsys := [("a.desc", dline "a." "local"); ("b.desc", dline "b." "local"); ("c.desc", dline "c." "x"); ("d.desc", dline "d." "mine")].
Definition t0 : fsys := [("a.desc", dline "a." "remote"); ("b.desc", dline "b." "x"); ("c.desc", dline "c." "remote")].
Example C46_case : exists conflicts r', pull never (@rev _) (diverged b0 o0 t0) b0 2 Normal = Ok (conflicts, r') /\
  map (fs_get (work r')) ["a.desc"; "b.desc"; "c.desc"; "d.desc"] =
    [Some (dline "a." "remote"); Some (dline "b." "local"); Some (dline "c." "remote"); None] /\
  map fst conflicts = ["d."; "a."] /\
  (exists e ls, dict_get conflicts "a." = Some e /\ dict_get e "tags" = Some ls /\ dict_get ls "en" = Some ["local"]) /\
  resolved never b0 o0 t0 "a.desc" (Some (dline "a." "remote")) true.
Proof.
  eexists. eexists. split; [vm_compute; reflexivity|]. split; [vm_compute; reflexivity|]. split; [vm_compute; reflexivity|]. split.
  - eexists. eexists. split; [vm_compute; reflexivity|]. split; vm_compute; reflexivity.
  - apply resolves_conflict; [vm_compute; discriminate|vm_compute; discriminate|vm_compute; discriminate|reflexivity].
Qed.

(** A descriptor file removed locally and changed remotely makes pull raise NameError. *)
Theorem C46_locally_deleted_refuted : exists base ours theirs,
  pull never (fun l => l) (diverged base ours theirs) base 2 Normal = Err NameError /\
  resolved never base ours theirs "a.desc" (Some (dline "a." "remote")) true.
Proof.
  exists [("a.desc", dline "a." "x")], [], [("a.desc", dline "a." "remote")]. split; [vm_compute; reflexivity|].
  apply resolves_conflict; [vm_compute; discriminate|vm_compute; discriminate|vm_compute; discriminate|intros; discriminate].
Qed.
Print Assumptions C46_locally_deleted_refuted.

(** Conflicts in structure files only make pull raise UnboundLocalError. *)
Theorem C46_structure_conflict_refuted : exists base ours theirs,
  pull never (fun l => l) (diverged base ours theirs) base 2 Normal = Err UnboundLocalError /\
  resolved never base ours theirs "a.ieml" (Some "remote") true.
Proof.
  exists [("a.ieml", "x")], [("a.ieml", "local")], [("a.ieml", "remote")]. split; [vm_compute; reflexivity|].
  apply resolves_conflict; [vm_compute; discriminate|vm_compute; discriminate|vm_compute; discriminate|reflexivity].
Qed.
Print Assumptions C46_structure_conflict_refuted.
