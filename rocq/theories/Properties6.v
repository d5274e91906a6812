(** Properties of updates of descriptors and inhibitions: C48, C49. *)
From Coq Require Import List String Ascii Bool NArith Arith Lia Permutation.
From Verif Require Import Base Script ScriptParser Database DatabasePath DatabaseSpec DatabaseProofs DatabaseRefine
  Git GitProofs Cache Transactions TransactionsProofs Properties1 Properties3 Properties4.
Import ListNotations.
Local Open Scope string_scope.

(** * Transactions in general *)
Lemma transaction_error r b a e : nothing_to_commit r -> fst (transaction r b a) = Err e ->
  rolled_back r (snd (transaction r b a)).
Proof.
  intros H E. destruct (b (work r)) as [out w] eqn:Eb. destruct out as [[]|e'].
  - unfold transaction in *. pose proof H as H'. apply status_nothing in H'. rewrite H', Eb in *. unfold exit_ok in *.
    set (r1 := {| commits := commits r; head := head r; index := index r; work := w |}) in *.
    destruct (status r1); [discriminate|]. destruct a; [discriminate|]. exact (reset_rolled_back r _ _ H).
  - apply (C45_failure_is_rolled_back r b a e' w H Eb).
Qed.

Lemma transaction_ok r b w : nothing_to_commit r -> b (work r) = (Ok tt, w) ->
  exists r', transaction r b NoAccident = (Ok tt, r') /\ work r' = w /\ nothing_to_commit r' /\
    (commits r' = commits r /\ head r' = head r \/
     exists t, commits r' = (commits r ++ [{| c_tree := t; c_parents := [head r] |}])%list /\ head r' = List.length (commits r)).
Proof.
  intros H Eb. set (r1 := {| commits := commits r; head := head r; index := index r; work := w |}).
  destruct (status r1) as [|f st] eqn:E.
  - exists r1. assert (same_visible w (work r)) as D.
    { apply status_nothing in E. destruct E as [E _], H as [H _]. intros p Hp. specialize (E p Hp). specialize (H p Hp). simpl in E. congruence. }
    rewrite (C45_no_change_no_commit r b NoAccident w H Eb D). split; [reflexivity|]. split; [reflexivity|].
    apply status_nothing in E. auto.
  - assert (~ same_visible w (work r)) as D.
    { intros C. assert (status r1 = []) as N; [|congruence]. apply status_nothing. destruct H as [H1 H2]. split; [|exact H2].
      intros q Hq. simpl. rewrite C, H1 by exact Hq. reflexivity. }
    destruct (C45_commit r b w H Eb D) as (t & r' & Er & C & Hh & Hw & _ & _ & N). exists r'. eauto 10.
Qed.

(** * C48 *)
(** Texts are kept without the blanks around them, and blank texts are not kept. *)
Definition clean_texts (vs : list string) : list string :=
  filter (fun v => negb (String.eqb v "")) (map normalize_value vs).

Notation mstep parse := (spec_step parse LANGUAGES DESCRIPTORS_CLASS svalue normalize_value String.eqb).

Lemma adds_spec parse i l d vs : forall D T, parse i = Ok i -> In l LANGUAGES -> In d DESCRIPTORS_CLASS ->
  fold_left (mstep parse) (map (AddDescriptor i l d) vs) (D, T)
  = ((D ++ map (fun v => (i, l, d, v)) (clean_texts vs))%list, T).
Proof.
  intros D T Hi Hl Hd. revert D. induction vs as [|v vs IH]; intros D; cbn [map fold_left spec_step].
  - unfold clean_texts. simpl. rewrite app_nil_r. reflexivity.
  - rewrite Hi. change (mem l LANGUAGES) with (inb l LANGUAGES). change (mem d DESCRIPTORS_CLASS) with (inb d DESCRIPTORS_CLASS).
    apply inb_In in Hl, Hd. rewrite Hl, Hd. cbn [andb]. unfold clean_texts. cbn [map filter].
    destruct (String.eqb (normalize_value v) ""); cbn [negb].
    + apply IH.
    + rewrite IH. cbn [map]. rewrite <- app_assoc. reflexivity.
Qed.
Lemma values_of_app A B i l d : values_of (A ++ B)%list i l d = (values_of A i l d ++ values_of B i l d)%list.
Proof. unfold values_of. rewrite filter_app, map_app. reflexivity. Qed.
Lemma values_of_block i l d vs i' l' d' : values_of (map (fun v => (i, l, d, v)) vs) i' l' d' =
  if (String.eqb i i' && String.eqb l l' && String.eqb d d')%bool then vs else [].
Proof.
  unfold values_of. induction vs as [|v vs IH]; simpl; [destruct (_ && _)%bool; reflexivity|].
  destruct (String.eqb i i' && String.eqb l l' && String.eqb d d')%bool; simpl; [f_equal|]; exact IH.
Qed.
Lemma multimap_app parse ops new : multimap parse (ops ++ new) = fold_left (mstep parse) new (multimap parse ops).
Proof. unfold multimap, spec_run. apply fold_left_app. Qed.

(** The calls of the plan. *)
Definition update_calls (i d : string) (value : string -> list string) : list op :=
  (RemoveDescriptor i None (Some d) None :: flat_map (fun l => map (AddDescriptor i l d) (value l)) LANGUAGES)%list.
Lemma update_values parse ops i d value i' l' d' : parse i = Ok i -> In d DESCRIPTORS_CLASS -> In l' LANGUAGES ->
  values_of (fst (multimap parse (ops ++ update_calls i d value))) i' l' d' =
  if (String.eqb i i' && String.eqb d d')%bool then clean_texts (value l') else values_of (fst (multimap parse ops)) i' l' d'.
Proof.
  intros Hi Hd Hl. rewrite multimap_app. destruct (multimap parse ops) as [D T]. unfold update_calls.
  cbn [fold_left spec_step]. rewrite Hi. 
  change (flat_map (fun l => map (AddDescriptor i l d) (value l)) LANGUAGES)
    with (map (AddDescriptor i "fr" d) (value "fr") ++ (map (AddDescriptor i "en" d) (value "en") ++ []))%list.
  rewrite app_nil_r, fold_left_app, !adds_spec by (auto; simpl; auto).
  cbn [fst]. rewrite !values_of_app, !values_of_block.
  rewrite (values_of_filter D i' l' d' (fun i0 l0 d0 v0 => negb (String.eqb i i0 && selects None l0 && selects (Some d) d0 &&
                                           selects_value normalize_value String.eqb None v0))).
  cbn [selects selects_value]. rewrite !andb_true_r.
  destruct (String.eqb i i' && String.eqb d d')%bool eqn:E.
  - apply andb_true_iff in E. destruct E as [-> ->]. cbn [andb negb]. rewrite filter_none by (intros; reflexivity).
    destruct Hl as [<-|[<-|[]]]; simpl; rewrite ?app_nil_r; reflexivity.
  - rewrite filter_all by (intros; reflexivity).
    destruct (String.eqb i i'); cbn [andb] in *; [rewrite E, !andb_false_r|]; rewrite !app_nil_r; reflexivity.
Qed.
Lemma remove_values parse ops i i' l' d' : parse i = Ok i ->
  values_of (fst (multimap parse (ops ++ [RemoveDescriptor i None None None]))) i' l' d' =
  if String.eqb i i' then [] else values_of (fst (multimap parse ops)) i' l' d'.
Proof.
  intros Hi. rewrite multimap_app. destruct (multimap parse ops) as [D T]. cbn [fold_left spec_step]. rewrite Hi. cbn [fst].
  rewrite (values_of_filter D i' l' d' (fun i0 l0 d0 v0 => negb (String.eqb i i0 && selects None l0 && selects None d0 &&
                                           selects_value normalize_value String.eqb None v0))).
  cbn [selects selects_value]. rewrite !andb_true_r. destruct (String.eqb i i'); cbn [negb].
  - apply filter_none. reflexivity.
  - apply filter_all. reflexivity.
Qed.

(** After set_descriptors(i, d, value) the values of (i, l, d) are the texts of value[l]
    for each language, and every other key has the values it had, in one commit on top of
    HEAD; or the values were already these up to order, and the repository is untouched.
    Partial: the folder was made by plain calls, and the texts are plain (one line, no
    quotes, not read as missing). *)
Theorem C48_set_descriptors_partial : forall parse path is_desc fo ops r i d value out r',
  folder_ok parse path is_desc -> file_order fo -> Forall (plain_op parse) ops ->
  work r = run parse path [] ops -> nothing_to_commit r ->
  parse i = Ok i -> plain i -> In d DESCRIPTORS_CLASS ->
  (forall l v, In v (value l) -> plain v /\ ~ In (normalize_value v) NA_VALUES) ->
  set_descriptors parse path is_desc fo r i d value NoAccident = (out, r') ->
  let before := descriptor_values parse is_desc fo (work r) in
  let after := descriptor_values parse is_desc fo (work r') in
  (out = Ok false /\ r' = r /\
   forall l, In l LANGUAGES -> exists old, before i l d = Ok (map Some old) /\ Permutation (value l) old) \/
  (out = Ok true /\
   (exists l old, In l LANGUAGES /\ before i l d = Ok (map Some old) /\ ~ Permutation (value l) old) /\
   (forall l, In l LANGUAGES -> after i l d = Ok (map Some (clean_texts (value l)))) /\
   (forall i' l' d', In l' LANGUAGES -> In d' DESCRIPTORS_CLASS -> i' <> i \/ d' <> d -> after i' l' d' = before i' l' d') /\
   nothing_to_commit r' /\
   (commits r' = commits r /\ head r' = head r \/
    exists t, commits r' = (commits r ++ [{| c_tree := t; c_parents := [head r] |}])%list /\ head r' = List.length (commits r))).
Proof.
  intros parse path is_desc fo ops r i d value out r' ok Hfo Hops Hw Hc Hi Hp Hd Hv Hset before after.
  assert (Hbefore : forall i l d, In l LANGUAGES -> In d DESCRIPTORS_CLASS ->
            before i l d = Ok (map Some (values_of (fst (multimap parse ops)) i l d))).
  { intros. subst before. cbv beta. rewrite Hw. apply (C40_database_is_a_multimap_partial parse path is_desc fo ops); auto. }
  assert (Hok : Forall (op_ok parse) ops) by (eapply Forall_impl; [|exact Hops]; intros o [H _]; exact H).
  pose proof (run_inv parse path is_desc ok ops [] ([], []) (Inv_empty parse path) Hok) as HI. rewrite <- Hw in HI.
  assert (Hplain : forall n, parse i = Ok n -> plain n) by (intros n E; congruence).
  (* running calls that succeed *)
  assert (Hrun : forall new, Forall (plain_op parse) new ->
     (forall o fs st, In o new -> Inv parse path fs st -> exists fs', exec parse path fs o = Ok fs') ->
     forall q, transaction r (body parse path new) NoAccident = q ->
     exists r1, q = (Ok tt, r1) /\ nothing_to_commit r1 /\
      (forall i l d, In l LANGUAGES -> In d DESCRIPTORS_CLASS ->
         descriptor_values parse is_desc fo (work r1) i l d = Ok (map Some (values_of (fst (multimap parse (ops ++ new))) i l d))) /\
      (commits r1 = commits r /\ head r1 = head r \/
       exists t, commits r1 = (commits r ++ [{| c_tree := t; c_parents := [head r] |}])%list /\ head r1 = List.length (commits r))).
  { intros new Hnew Hex q Hq. assert (Hnok : Forall (op_ok parse) new) by (eapply Forall_impl; [|exact Hnew]; intros o [H _]; exact H).
    destruct (transaction_ok r (body parse path new) (run parse path (work r) new) Hc) as (r1 & E1 & W1 & N1 & C1).
    - apply (body_run parse path is_desc ok new _ _ HI Hnok Hex).
    - exists r1. rewrite <- Hq, E1. split; [reflexivity|]. split; [exact N1|]. split; [|exact C1].
      intros i0 l0 d0 H1 H2. rewrite W1, Hw. unfold run. rewrite <- fold_left_app. apply (C40_database_is_a_multimap_partial parse path is_desc fo (ops ++ new)); auto.
      apply Forall_app. auto. }
  unfold set_descriptors in Hset.
  assert (mapM (fun l => descriptor_values parse is_desc fo (work r) i l d) LANGUAGES =
          Ok (map (fun l => map Some (values_of (fst (multimap parse ops)) i l d)) LANGUAGES)) as Em.
  { unfold LANGUAGES. cbn [mapM map]. change (descriptor_values parse is_desc fo (work r)) with before. rewrite !Hbefore by (auto; simpl; auto). reflexivity. }
  rewrite Em in Hset. cbn [bind] in Hset. clear Em. unfold plan_descriptors in Hset.
  change (descriptor_values parse is_desc fo (work r)) with before in Hset.
  destruct (allM_ok (fun l => do old <- before i l d; same_sorted (value l) old)
              (fun l => Permutation (value l) (values_of (fst (multimap parse ops)) i l d)) LANGUAGES) as (b & Eb & Hb & Hb').
  { intros l Hl. rewrite Hbefore by auto. cbn [bind]. apply same_sorted_texts. }
  rewrite Eb in Hset. cbn [bind] in Hset. destruct b.
  { left. injection Hset as <- <-. split; [reflexivity|]. split; [reflexivity|]. intros l Hl. eexists. split; [apply Hbefore; auto|].
    apply (proj1 Hb) in Eb || idtac. rewrite Forall_forall in Hb. apply (proj1 Hb eq_refl l Hl). }
  right. destruct (Hb' eq_refl) as (l0 & Hl0 & Hn0).
  assert (Hdiff : exists l old, In l LANGUAGES /\ before i l d = Ok (map Some old) /\ ~ Permutation (value l) old).
  { exists l0. eexists. split; [exact Hl0|]. split; [apply Hbefore; auto|exact Hn0]. }
  match type of Hset with context [allM ?f (list_prod LANGUAGES DESCRIPTORS_CLASS)] =>
    destruct (allM_ok f (fun ld => if String.eqb (snd ld) d then value (fst ld) = [] else values_of (fst (multimap parse ops)) i (fst ld) (snd ld) = [])
                (list_prod LANGUAGES DESCRIPTORS_CLASS)) as (e & Ee & He & _) end.
  { intros [l d'] Hin. apply in_prod_iff in Hin. destruct Hin as [Hl Hd']. cbn [fst snd]. destruct (String.eqb d' d).
    - eexists. split; [reflexivity|]. destruct (value l); split; congruence.
    - rewrite Hbefore by auto. cbn [bind]. eexists. split; [reflexivity|]. destruct (values_of (fst (multimap parse ops)) i l d'); cbn [map]; split; congruence. }
  rewrite Ee in Hset. cbn [bind] in Hset. destruct e.
  - (* the file is removed *)
    destruct (Hrun [RemoveDescriptor i None None None]) with (q := transaction r (body parse path [RemoveDescriptor i None None None]) NoAccident)
      as (r1 & Eq & N1 & V1 & C1); [| |reflexivity|].
    + constructor; [|constructor]. split; [|exact Logic.I]. split; [exact Hplain|congruence].
    + intros o fs st [<-|[]] _. apply (exec_remove_all parse path is_desc ok); auto.
    + rewrite Eq in Hset. injection Hset as <- <-. rewrite Forall_forall in He. pose proof (proj1 He eq_refl) as He'.
      split; [reflexivity|]. split; [exact Hdiff|]. split; [|split; [|split; [exact N1|exact C1]]].
      * intros l Hl. subst after. cbv beta. rewrite V1 by auto. rewrite remove_values, String.eqb_refl by auto.
        specialize (He' (l, d) (proj2 (in_prod_iff _ _ _ _) (conj Hl Hd))). cbn [fst snd] in He'. rewrite String.eqb_refl in He'. rewrite He'. reflexivity.
      * intros i' l' d' Hl' Hd' Hne. subst after. cbv beta. rewrite V1, Hbefore by auto. rewrite remove_values by auto.
        destruct (String.eqb_spec i i') as [<-|]; [|reflexivity]. destruct Hne as [Hne|Hne]; [congruence|].
        specialize (He' (l', d') (proj2 (in_prod_iff _ _ _ _) (conj Hl' Hd'))). cbn [fst snd] in He'.
        apply String.eqb_neq in Hne. rewrite Hne in He'. rewrite He'. reflexivity.
  - (* the class is rewritten *)
    destruct (Hrun (update_calls i d value)) with (q := transaction r (body parse path (update_calls i d value)) NoAccident)
      as (r1 & Eq & N1 & V1 & C1); [| |reflexivity|].
    + unfold update_calls. constructor; [split; [split; [exact Hplain|congruence]|exact Logic.I]|].
      apply Forall_forall. intros o Ho. apply in_flat_map in Ho. destruct Ho as (l & _ & Ho). apply in_map_iff in Ho.
      destruct Ho as (v & <- & Hin). destruct (Hv l v Hin) as [Hpv Hna]. split; [|auto]. split; [exact Hplain|]. apply Hpv.
    + intros o fs st Ho HI'. destruct Ho as [<-|Ho].
      * apply (exec_remove_class parse path is_desc ok fs st); auto.
      * apply in_flat_map in Ho. destruct Ho as (l & Hl & Ho). apply in_map_iff in Ho. destruct Ho as (v & <- & _).
        apply (exec_add parse path is_desc ok); auto.
    + unfold update_calls in Eq at 1. rewrite Eq in Hset. injection Hset as <- <-.
      split; [reflexivity|]. split; [exact Hdiff|]. split; [|split; [|split; [exact N1|exact C1]]].
      * intros l Hl. subst after. cbv beta. rewrite V1 by auto. rewrite update_values, !String.eqb_refl by auto. reflexivity.
      * intros i' l' d' Hl' Hd' Hne. subst after. cbv beta. rewrite V1, Hbefore by auto. rewrite update_values by auto.
        destruct (String.eqb_spec i i') as [<-|]; [|reflexivity]. destruct (String.eqb_spec d d') as [<-|]; [|reflexivity].
        destruct Hne; congruence.
Qed.
Print Assumptions C48_set_descriptors_partial.

(** Whatever goes wrong, everything is as before. *)
Theorem C48_failure_changes_nothing : forall parse path is_desc fo r i d value a e r',
  nothing_to_commit r -> set_descriptors parse path is_desc fo r i d value a = (Err e, r') -> rolled_back r r'.
Proof.
  intros parse path is_desc fo r i d value a e r' H. unfold set_descriptors.
  assert (R : rolled_back r r) by (split; [reflexivity|]; split; [reflexivity|]; split; [intros ? ?; reflexivity|exact H]).
  destruct (bind _ _) as [[ops|]|e']; [|discriminate|].
  - pose proof (transaction_error r (body parse path ops) a) as K. destruct (transaction r _ a) as [[[]|e'] r1]; [discriminate|].
    intros [= <- <-]. exact (K e' H eq_refl).
  - intros [= <- <-]. exact R.
Qed.
Print Assumptions C48_failure_changes_nothing.

Definition repo_of (fs : fsys) : repo := {| commits := [{| c_tree := fs; c_parents := [] |}]; head := 0; index := fs; work := fs |}.
Lemma repo_of_clean fs : nothing_to_commit (repo_of fs).
Proof. split; intros p _; reflexivity. Qed.
Definition some_value (l : string) : list string := if String.eqb l "en" then [" to do"; "to act"] else ["agir"].
Example C48_case : let r := repo_of (run script_text simple_path [] history) in
  Forall (plain_op script_text) history /\ script_text "wa." = Ok "wa." /\ plain "wa." /\
  (forall l v, In v (some_value l) -> plain v /\ ~ In (normalize_value v) NA_VALUES) /\
  let set value := set_descriptors script_text simple_path is_desc_file (fun l => l) r "wa." "translations" value NoAccident in
  let r' := snd (set some_value) in
  let after := descriptor_values script_text is_desc_file (fun l => l) (work r') in
  fst (set some_value) = Ok true /\ head r' = 1 /\
  after "wa." "en" "translations" = Ok [Some "to do"; Some "to act"] /\
  after "wa." "fr" "translations" = Ok [Some "agir"] /\
  after "wa." "fr" "tags" = Ok [Some "agir"] /\
  after "wo.+wa." "en" "translations" = Ok [Some "third"] /\
  set (fun l => if String.eqb l "en" then ["to act"] else []) = (Ok false, r).
Proof.
  split; [apply C40_case|]. split; [vm_compute; reflexivity|]. split; [plain_tac|]. split.
  - intros l v. unfold some_value. destruct (String.eqb l "en"); simpl; intros H; repeat destruct H as [<-|H]; try destruct H;
    (split; [plain_tac|vm_compute; intuition discriminate]).
  - vm_compute. repeat split.
Qed.

(** With a text that pandas reads as missing beside another one, no update is possible. *)
Theorem C48_missing_value_refuted : exists ops, let r := repo_of (run script_text simple_path [] ops) in
  Forall (op_ok script_text) ops /\
  set_descriptors script_text simple_path is_desc_file (fun l => l) r "wa." "tags" (fun _ => ["x"]) NoAccident = (Err TypeError, r).
Proof.
  exists [AddDescriptor "wa." "fr" "tags" "x"; AddDescriptor "wa." "fr" "tags" "null"]. cbv zeta. split; [|vm_compute; reflexivity].
  assert (Hw : forall n, script_text "wa." = Ok n -> plain n) by (intros n; vm_compute; intros [= <-]; plain_tac).
  repeat (apply Forall_cons; [split; [assumption|unfold occurs; simpl; intuition discriminate]|]). constructor.
Qed.
Print Assumptions C48_missing_value_refuted.

(** * C49 *)
(** The structure values of a key; an empty structure has none. *)
Definition stored_structure (is_desc : string -> bool) (fo : fsys -> fsys) (fs : fsys) (i k : string) : list string :=
  match get_structure is_desc fo fs with Ok rows => structure_values rows i k | Err _ => [] end.

Lemma stored_structure_spec parse path is_desc fo ops i k : folder_ok parse path is_desc -> file_order fo ->
  Forall (plain_op parse) ops ->
  stored_structure is_desc fo (run parse path [] ops) i k = svalues_of (snd (multimap parse ops)) i k.
Proof.
  intros ok Hfo Hops. pose proof (C40_structure_is_a_multimap parse path is_desc fo ops ok Hfo Hops) as H.
  unfold stored_structure. destruct (get_structure _ _ _) as [rows|e]; [apply H|]. destruct H as [-> _]. reflexivity.
Qed.

Lemma svalue_inhibition v : svalue "inhibition" v = if inb v INHIBITABLE_RELATIONS then Some v else None.
Proof. reflexivity. Qed.
Lemma inhibitions_known parse ops i v : In (i, "inhibition", v) (snd (multimap parse ops)) -> In v INHIBITABLE_RELATIONS.
Proof.
  unfold multimap, spec_run. rewrite <- (rev_involutive ops). induction (rev ops) as [|o l IH]; cbn [rev]; [intros []|].
  rewrite fold_left_app. cbn [fold_left]. destruct (fold_left _ (rev l) _) as [D T]. cbn [snd] in IH.
  destruct o as [j ln d w|j ln d w|j k w|j k w]; cbn [spec_step].
  - destruct (parse j); [destruct (_ && _)%bool|]; cbn [snd]; exact IH.
  - destruct (parse j); cbn [snd]; exact IH.
  - destruct (parse j) as [n|]; [|exact IH]. destruct (svalue k w) as [w'|] eqn:E; [|exact IH]. cbn [snd]. intros H.
    apply in_app_or in H. destruct H as [H|[H|[]]]; [auto|]. assert (k = "inhibition") as -> by congruence. assert (w' = v) as -> by congruence.
    rewrite svalue_inhibition in E. destruct (inb w INHIBITABLE_RELATIONS) eqn:E'; [|discriminate]. injection E as <-.
    apply inb_In. exact E'.
  - destruct (parse j) as [n|]; [|exact IH]. cbn [snd]. intros H. apply filter_In in H. tauto.
Qed.

Definition inhibition_calls (i : string) (A R : list string) : list op :=
  (map (AddStructure i "inhibition") A ++ map (fun e => RemoveStructure i (Some "inhibition") (Some e)) R)%list.
Lemma svalues_of_app A B i k : svalues_of (A ++ B)%list i k = (svalues_of A i k ++ svalues_of B i k)%list.
Proof. unfold svalues_of. rewrite filter_app, map_app. reflexivity. Qed.
Lemma svalues_of_block i k vs i' k' : svalues_of (map (fun v => (i, k, v)) vs) i' k' =
  if (String.eqb i i' && String.eqb k k')%bool then vs else [].
Proof.
  unfold svalues_of. induction vs as [|v vs IH]; simpl; [destruct (_ && _)%bool; reflexivity|].
  destruct (String.eqb i i' && String.eqb k k')%bool; simpl; [f_equal|]; exact IH.
Qed.
Lemma svalues_of_filter T i k (P : string -> string -> string -> bool) :
  svalues_of (filter (fun r => let '(i', k', v') := r in P i' k' v') T) i k = filter (P i k) (svalues_of T i k).
Proof.
  unfold svalues_of. rewrite filter_map, !filter_filter. f_equal. apply filter_ext_in_.
  intros [[i' k'] v'] _. simpl.
  destruct (String.eqb_spec i' i) as [->|]; [|rewrite !andb_false_r; reflexivity].
  destruct (String.eqb_spec k' k) as [->|]; [|rewrite !andb_false_r; reflexivity].
  simpl. rewrite andb_true_r. reflexivity.
Qed.

Lemma inhibition_values parse ops i A R i' k' : parse i = Ok i -> incl A INHIBITABLE_RELATIONS -> incl R INHIBITABLE_RELATIONS ->
  svalues_of (snd (multimap parse (ops ++ inhibition_calls i A R))) i' k' =
  if (String.eqb i i' && String.eqb "inhibition" k')%bool
  then filter (fun v => negb (inb v R)) (svalues_of (snd (multimap parse ops)) i' k' ++ A)%list
  else svalues_of (snd (multimap parse ops)) i' k'.
Proof.
  intros Hi HA HR. rewrite multimap_app. destruct (multimap parse ops) as [D T]. unfold inhibition_calls. rewrite fold_left_app.
  assert (EA : forall T, fold_left (mstep parse) (map (AddStructure i "inhibition") A) (D, T) =
                (D, (T ++ map (fun v => (i, "inhibition", v)) A)%list)).
  { clear T. induction A as [|v A IH]; intros T; cbn [map fold_left spec_step]; [rewrite app_nil_r; reflexivity|].
    rewrite Hi, svalue_inhibition. assert (In v INHIBITABLE_RELATIONS) as Hv by (apply HA; simpl; auto). apply inb_In in Hv. rewrite Hv.
    rewrite IH by (intros x Hx; apply HA; simpl; auto). rewrite <- app_assoc. reflexivity. }
  rewrite EA. clear EA. cbn [snd].
  assert (ER : forall T, svalues_of (snd (fold_left (mstep parse) (map (fun e => RemoveStructure i (Some "inhibition") (Some e)) R) (D, T))) i' k'
     = if (String.eqb i i' && String.eqb "inhibition" k')%bool then filter (fun v => negb (inb v R)) (svalues_of T i' k') else svalues_of T i' k').
  { clear T. induction R as [|e R IH]; intros T; cbn [map fold_left spec_step].
    - cbn [snd]. rewrite filter_all by (intros; reflexivity). destruct (_ && _)%bool; reflexivity.
    - rewrite Hi. rewrite IH by (intros x Hx; apply HR; simpl; auto).
      rewrite (svalues_of_filter T i' k' (fun i0 k0 v0 => negb (String.eqb i i0 && selects (Some "inhibition") k0 &&
                 selects_svalue svalue (Some "inhibition") (Some e) v0))).
      cbn [selects selects_svalue]. rewrite svalue_inhibition.
      assert (In e INHIBITABLE_RELATIONS) as He by (apply HR; simpl; auto). apply inb_In in He. rewrite He.
      destruct (String.eqb i i' && String.eqb "inhibition" k')%bool; cbn [andb negb].
      + rewrite filter_filter. apply filter_ext_in_. intros v _. unfold inb. cbn [existsb]. rewrite negb_orb, (String.eqb_sym v e). reflexivity.
      + rewrite filter_all by (intros; reflexivity). reflexivity. }
  rewrite ER, svalues_of_app, svalues_of_block. destruct (_ && _)%bool; [reflexivity|rewrite app_nil_r; reflexivity].
Qed.

Lemma negb_inb x l : negb (inb x l) = true <-> ~ In x l.
Proof. rewrite negb_true_iff. split; [intros E C; apply inb_In in C; congruence|apply inb_false]. Qed.

(** After set_inhibitions(i, inhibitions) the inhibitions of i are those given (the ones it
    already had come first), every other key of the structure has the values it had, in one
    commit on top of HEAD; if the set was already that one the repository is untouched.
    Partial: the call raises TypeError, changing nothing, when no key of the structure has
    two values; the folder was made by plain calls. *)
Theorem C49_set_inhibitions_partial : forall parse path is_desc fo is_root ops r i inhibitions out r',
  folder_ok parse path is_desc -> file_order fo -> Forall (plain_op parse) ops ->
  work r = run parse path [] ops -> nothing_to_commit r ->
  parse i = Ok i -> plain i -> is_root (work r) i = true -> incl inhibitions INHIBITABLE_RELATIONS ->
  (exists i k, stored_structure is_desc fo (work r) i k <> []) ->
  set_inhibitions parse path is_desc fo is_root r i inhibitions NoAccident = (out, r') ->
  let before := stored_structure is_desc fo (work r) in
  let after := stored_structure is_desc fo (work r') in
  let old := before i "inhibition" in
  (out = Err TypeError /\ r' = r /\ old <> []) \/
  (out = Ok tt /\
   after i "inhibition" = (filter (fun e => inb e inhibitions) old ++ filter (fun e => negb (inb e old)) inhibitions)%list /\
   (forall e, In e (after i "inhibition") <-> In e inhibitions) /\
   (forall i' k', i' <> i \/ k' <> "inhibition" -> after i' k' = before i' k') /\
   nothing_to_commit r' /\
   ((forall e, In e old <-> In e inhibitions) -> r' = r) /\
   (commits r' = commits r /\ head r' = head r \/
    exists t, commits r' = (commits r ++ [{| c_tree := t; c_parents := [head r] |}])%list /\ head r' = List.length (commits r))).
Proof.
  intros parse path is_desc fo is_root ops r i inh out r' ok Hfo Hops Hw Hc Hi Hp Hroot Hinh Hne Hset before after old.
  assert (Hb : forall i k, before i k = svalues_of (snd (multimap parse ops)) i k).
  { intros. subst before. cbv beta. rewrite Hw. apply (stored_structure_spec parse path is_desc fo ops); auto. }
  assert (Hold : incl old INHIBITABLE_RELATIONS).
  { intros v Hv. subst old. rewrite Hb in Hv. unfold svalues_of in Hv. apply in_map_iff in Hv. destruct Hv as ([[i' k'] v'] & <- & H).
    apply filter_In in H. destruct H as [H E]. apply andb_true_iff in E. destruct E as [_ E]. apply String.eqb_eq in E. subst k'.
    apply (inhibitions_known parse ops i' v' H). }
  unfold set_inhibitions in Hset. rewrite Hroot in Hset. cbn [negb] in Hset.
  assert (forallb (fun i => inb i INHIBITABLE_RELATIONS) inh = true) as Ei.
  { apply forallb_forall. intros x Hx. apply inb_In. apply Hinh. exact Hx. }
  rewrite Ei in Hset. cbn [negb] in Hset. clear Ei.
  destruct (get_structure is_desc fo (work r)) as [rows|e] eqn:Erows.
  2: { exfalso. destruct Hne as (i0 & k0 & Hne). unfold stored_structure in Hne. rewrite Erows in Hne. auto. }
  assert (Eold : old = structure_values rows i "inhibition") by (subst old before; cbv beta; unfold stored_structure; rewrite Erows; reflexivity).
  cbn [bind] in Hset. unfold structure_get_values in Hset. rewrite <- Eold in Hset.
  set (single := forallb _ rows) in Hset.
  assert (Hset' : (old <> [] /\ out = Err TypeError /\ r' = r) \/
     (if (forallb (fun e => inb e inh) old && forallb (fun e => inb e old) inh)%bool then (Ok tt, r)
      else transaction r (body parse path (inhibition_calls i (filter (fun e => negb (inb e old)) inh) (filter (fun e => negb (inb e inh)) old))) NoAccident)
     = (out, r')).
  { destruct old as [|o old']; [right; exact Hset|]. destruct single; [left; injection Hset as <- <-; split; [discriminate|]; auto|right; exact Hset]. }
  clear Hset. destruct Hset' as [(H1 & H2 & H3)|Hset]; [left; auto|right].
  set (A := filter (fun e => negb (inb e old)) inh) in *. set (R := filter (fun e => negb (inb e inh)) old) in *.
  assert (Hres : filter (fun v => negb (inb v R)) (old ++ A)%list = (filter (fun e => inb e inh) old ++ A)%list).
  { rewrite filter_app. f_equal.
    - apply filter_ext_in_. intros v Hv. apply eq_true_iff_eq. rewrite negb_inb, inb_In. unfold R. rewrite filter_In, negb_inb.
      destruct (in_dec string_dec v inh); tauto.
    - apply filter_all. intros v Hv. apply negb_inb. unfold R. rewrite filter_In, negb_inb. unfold A in Hv. apply filter_In in Hv. tauto. }
  assert (Hset_in : forall e, In e (filter (fun e => inb e inh) old ++ A)%list <-> In e inh).
  { intros e. rewrite in_app_iff. unfold A. rewrite !filter_In, negb_inb, inb_In. destruct (in_dec string_dec e old); tauto. }
  destruct (forallb (fun e => inb e inh) old && forallb (fun e => inb e old) inh)%bool eqn:Esame.
  - injection Hset as <- <-. apply andb_true_iff in Esame. destruct Esame as [E1 E2].
    rewrite forallb_forall in E1, E2.
    assert (EA : A = []).
    { unfold A. apply filter_none. intros x Hx. rewrite (E2 x Hx). reflexivity. }
    assert (Ef : filter (fun e => inb e inh) old = old).
    { apply filter_all. exact E1. }
    split; [reflexivity|]. split; [|split; [|split; [|split; [exact Hc|]]]].
    + rewrite EA, Ef, app_nil_r. reflexivity.
    + intros e. change (after i "inhibition") with old. split; intros H; [apply inb_In; auto|apply inb_In; auto].
    + reflexivity.
    + split; auto.
  - assert (HA : incl A INHIBITABLE_RELATIONS) by (intros x Hx; unfold A in Hx; apply filter_In in Hx; apply Hinh; tauto).
    assert (HR : incl R INHIBITABLE_RELATIONS) by (intros x Hx; unfold R in Hx; apply filter_In in Hx; apply Hold; tauto).
    assert (Hplain : forall n, parse i = Ok n -> plain n) by (intros n E; congruence).
    assert (Hempty : forall x, In x INHIBITABLE_RELATIONS -> x <> "") by (intros x Hx ->; simpl in Hx; intuition discriminate).
    set (new := inhibition_calls i A R) in *.
    assert (Hnew : Forall (plain_op parse) new).
    { unfold new, inhibition_calls. apply Forall_app. split; apply Forall_forall; intros o Ho; apply in_map_iff in Ho;
      destruct Ho as (x & <- & Hx); (split; [|exact Logic.I]); (split; [exact Hplain|]).
      - apply Hempty. auto.
      - intros _. split; [discriminate|]. intros [= E]. apply (Hempty x); auto. }
    assert (Hok : Forall (op_ok parse) ops) by (eapply Forall_impl; [|exact Hops]; intros o [H _]; exact H).
    assert (Hnok : Forall (op_ok parse) new) by (eapply Forall_impl; [|exact Hnew]; intros o [H _]; exact H).
    pose proof (run_inv parse path is_desc ok ops [] ([], []) (Inv_empty parse path) Hok) as HI. rewrite <- Hw in HI.
    destruct (transaction_ok r (body parse path new) (run parse path (work r) new) Hc) as (r1 & E1 & W1 & N1 & C1).
    { apply (body_run parse path is_desc ok new _ _ HI Hnok). intros o fs st Ho _. unfold new, inhibition_calls in Ho.
      apply in_app_or in Ho. destruct Ho as [Ho|Ho]; apply in_map_iff in Ho; destruct Ho as (x & <- & Hx).
      - apply (exec_adds parse path is_desc ok); auto.
      - apply (exec_removes parse path is_desc ok); auto. }
    rewrite E1 in Hset. injection Hset as <- <-.
    assert (Ha : forall i' k', after i' k' = svalues_of (snd (multimap parse (ops ++ new))) i' k').
    { intros i' k'. subst after. cbv beta. rewrite W1, Hw. unfold run. rewrite <- fold_left_app.
      apply (stored_structure_spec parse path is_desc fo (ops ++ new)); auto. apply Forall_app. auto. }
    assert (Hai : after i "inhibition" = (filter (fun e => inb e inh) old ++ A)%list).
    { rewrite Ha. unfold new. rewrite inhibition_values, !String.eqb_refl by auto. cbn [andb]. rewrite <- Hb. exact Hres. }
    split; [reflexivity|]. split; [exact Hai|]. split; [intros e; rewrite Hai; apply Hset_in|].
    split; [|split; [exact N1|split; [|exact C1]]].
    + intros i' k' Hn. rewrite Ha, Hb. unfold new. rewrite inhibition_values by auto.
      destruct (String.eqb_spec i i') as [<-|]; [|reflexivity]. destruct (String.eqb_spec "inhibition" k') as [<-|]; [|reflexivity].
      destruct Hn; congruence.
    + intros H. exfalso. apply andb_false_iff in Esame.
      assert (forallb (fun e => inb e inh) old = true) by (apply forallb_forall; intros x Hx; apply inb_In, H, Hx).
      assert (forallb (fun e => inb e old) inh = true) by (apply forallb_forall; intros x Hx; apply inb_In, H, Hx).
      destruct Esame; congruence.
Qed.
Print Assumptions C49_set_inhibitions_partial.

(** A root with a single inhibition, when no other key has two values, cannot be changed. *)
Theorem C49_unique_keys_refuted : exists ops, let r := repo_of (run script_text simple_path [] ops) in
  stored_structure is_desc_file (fun l => l) (work r) "wa." "inhibition" = ["twin"] /\
  set_inhibitions script_text simple_path is_desc_file (fun l => l) (fun _ _ => true) r "wa." [] NoAccident = (Err TypeError, r).
Proof.
  exists [AddStructure "wa." "is_root" "true"; AddStructure "wa." "inhibition" "twin"]. vm_compute. split; reflexivity.
Qed.
Print Assumptions C49_unique_keys_refuted.

Definition structure_history : list op :=
  [AddStructure "wa." "is_root" "true"; AddStructure "wa." "inhibition" "twin"; AddStructure "wa." "inhibition" "crossed";
   AddStructure "wo." "inhibition" "twin"].
Example C49_case : let r := repo_of (run script_text simple_path [] structure_history) in
  let set inh := set_inhibitions script_text simple_path is_desc_file (fun l => l) (fun _ _ => true) r "wa." inh NoAccident in
  let after inh := stored_structure is_desc_file (fun l => l) (work (snd (set inh))) in
  Forall (plain_op script_text) structure_history /\
  fst (set ["crossed"; "associated"]) = Ok tt /\ head (snd (set ["crossed"; "associated"])) = 1 /\
  after ["crossed"; "associated"] "wa." "inhibition" = ["crossed"; "associated"] /\
  after ["crossed"; "associated"] "wo." "inhibition" = ["twin"] /\
  set ["crossed"; "twin"] = (Ok tt, r).
Proof.
  split.
  - assert (Hw : forall n, script_text "wa." = Ok n -> plain n) by (intros n; vm_compute; intros [= <-]; plain_tac).
    assert (Hw2 : forall n, script_text "wo." = Ok n -> plain n) by (intros n; vm_compute; intros [= <-]; plain_tac).
    unfold structure_history. repeat (apply Forall_cons; [split; [split; [assumption|discriminate]|exact Logic.I]|]). constructor.
  - vm_compute. repeat split.
Qed.
