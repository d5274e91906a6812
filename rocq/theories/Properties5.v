(** Properties of the file watching cache: C47. *)
From Coq Require Import List String Ascii Bool NArith Arith Lia Permutation.
From Verif Require Import Base Script ScriptParser Database DatabasePath DatabaseSpec DatabaseProofs DatabaseRefine
  Cache CacheProofs Properties3.
Import ListNotations.
Local Open Scope string_scope.

(** The folders in which the function is called during a history. *)
Fixpoint folders (fs : fsys) (es : list event) : list fsys :=
  match es with
  | [] => []
  | Edit fs' :: es => folders fs' es
  | Call _ :: es => fs :: folders fs es
  end.

(** The watched files are as the database writes them: their names have no quote, and
    their content is lines that start with a quote. *)
Definition written_by_database (g : list glob) (fs : fsys) : Prop :=
  forall p c, In (p, c) fs -> glob_match g (segments p) = true -> ~ occurs """" p /\ database_file c.

Lemma watched_folder y s fs : written_by_database [Name "morpheme"; y; s] fs ->
  database_folder (watched [Name "morpheme"; y; s] fs).
Proof.
  intros H. unfold database_folder. apply Forall_forall. intros [p c] Hin. unfold watched in Hin. apply in_sort in Hin.
  apply filter_In in Hin. destruct Hin as [Hin Hm]. simpl in Hm. destruct (H p c Hin Hm) as [Hq Hc].
  simpl. split; [|auto]. apply morpheme_match in Hm. exact Hm.
Qed.

(** Every call returns what the function computes on the folder as it is then, for any
    history of edits and calls. The function may only depend on the watched files, and the
    digests of the folders of the history do not collide. A call may also fail because its
    result cannot be pickled. Partial: the files are as the database writes them. *)
Theorem C47_cached_results_are_fresh_partial : forall V md5 y s (f : fsys -> V) truth fs0 es,
  let g := [Name "morpheme"; y; s] in
  (forall a b, watched g a = watched g b -> f a = f b) ->
  (forall a, In a (folders fs0 es) -> written_by_database g a) ->
  (forall a b, In a (folders fs0 es) -> In b (folders fs0 es) ->
     md5 (digest_text (watched g a)) = md5 (digest_text (watched g b)) ->
     digest_text (watched g a) = digest_text (watched g b)) ->
  map fst (history_results md5 g f truth fs0 [] es) = folders fs0 es /\
  forall fs r, In (fs, r) (history_results md5 g f truth fs0 [] es) ->
    r = Ok (f fs) \/ r = Err TypeError /\ In (Call false) es.
Proof.
  intros V md5 y s f truth fs0 es g Hf Hw Hmd.
  assert (K : forall es fs cd (old : list fsys),
    (forall h v, In (h, Some v) cd -> exists a, In a old /\ h = fingerprint md5 g a /\ v = f a) ->
    (forall a, In a (old ++ folders fs es)%list -> written_by_database g a) ->
    (forall a b, In a (old ++ folders fs es)%list -> In b (old ++ folders fs es)%list ->
       md5 (digest_text (watched g a)) = md5 (digest_text (watched g b)) ->
       digest_text (watched g a) = digest_text (watched g b)) ->
    map fst (history_results md5 g f truth fs cd es) = folders fs es /\
    forall fs' r, In (fs', r) (history_results md5 g f truth fs cd es) -> r = Ok (f fs') \/ r = Err TypeError /\ In (Call false) es).
  { clear es Hw Hmd fs0. induction es as [|[fs'|w] es IH]; intros fs cd old Hcd Hw Hmd.
    - split; [reflexivity|intros ? ? []].
    - cbn [history_results folders] in *. destruct (IH fs' cd old Hcd Hw Hmd) as [H1 H2]. split; [exact H1|].
      intros a r Ha. destruct (H2 a r Ha) as [H|[H H']]; [auto|right; simpl; auto].
    - cbn [history_results folders] in *.
      assert (Hcall : let (r, cd') := call md5 g f truth cd fs w in
        (r = Ok (f fs) \/ r = Err TypeError /\ w = false) /\
        (forall h v, In (h, Some v) cd' -> exists a, In a (old ++ [fs])%list /\ h = fingerprint md5 g a /\ v = f a)).
      { assert (Hfresh : let (r, cd') := (if w then (Ok (f fs), [(fingerprint md5 g fs, Some (f fs))])
                                          else (Err TypeError, [(fingerprint md5 g fs, None)])) in
          (r = Ok (f fs) \/ r = Err TypeError /\ w = false) /\
          (forall h v, In (h, Some v) cd' -> exists a, In a (old ++ [fs])%list /\ h = fingerprint md5 g a /\ v = f a)).
        { destruct w; (split; [auto|]); intros h v; simpl; intros [E|[]]; [|discriminate]. injection E as <- <-.
          exists fs. split; [apply in_or_app; right; left; reflexivity|]. auto. }
        unfold call. destruct (is_pruned md5 g cd fs) eqn:Ep; [exact Hfresh|].
        destruct (cached md5 g cd fs) as [v|] eqn:Ec; [|exact Hfresh]. destruct (truth v); [|exact Hfresh].
        unfold cached in Ec. destruct (find _ cd) as [[h o]|] eqn:Ef; [|discriminate]. subst o. apply find_some in Ef.
        destruct Ef as [Hin Eh]. simpl in Eh. apply String.eqb_eq in Eh. destruct (Hcd h v Hin) as (a & Ha & Ea & ->).
        split.
        - left. f_equal. apply Hf. rewrite Ea in Eh. unfold fingerprint in Eh. symmetry in Eh. apply Hmd in Eh.
          + apply digest_inj in Eh; [exact Eh| |]; apply watched_folder; apply Hw; apply in_or_app; [auto|right; left; reflexivity].
          + apply in_or_app. auto.
          + apply in_or_app. right. left. reflexivity.
        - intros h' v' H'. destruct (Hcd h' v' H') as (b & Hb & E). exists b. split; [apply in_or_app; auto|exact E]. }
      destruct (call md5 g f truth cd fs w) as [r cd'] eqn:Ecall. destruct Hcall as [Hr Hcd'].
      destruct (IH fs cd' (old ++ [fs])%list Hcd') as [H1 H2].
      { intros a Ha. apply Hw. rewrite <- app_assoc in Ha. exact Ha. }
      { intros a b Ha Hb. rewrite <- app_assoc in Ha, Hb. apply Hmd; auto. }
      simpl. split; [f_equal; exact H1|].
      intros a r' [[= <- <-]|Ha].
      + destruct Hr as [Hr|[Hr ->]]; auto.
      + destruct (H2 a r' Ha) as [H|[H H']]; auto. }
  apply (K es fs0 [] []); auto. intros h v [].
Qed.
Print Assumptions C47_cached_results_are_fresh_partial.

(** The files the database writes are such lines, after any history of calls. *)
Theorem C47_database_writes_such_files : forall parse path is_desc ops,
  folder_ok parse path is_desc -> Forall (op_ok parse) ops ->
  forall p c, In (p, c) (run parse path [] ops) -> database_file c.
Proof.
  intros parse path is_desc ops ok Hops p c Hin.
  pose proof (run_inv parse path is_desc ok ops [] ([], []) (Inv_empty parse path) Hops) as (Hs & Hd & Ht & Gd & Gs).
  set (st := spec_run _ _ _ _ _ _ _ _) in *. destruct Hs as [Hnd Hp].
  destruct (Hp p) as (b & i & Hi & ->); [apply in_map_iff; exists (p, c); auto|].
  apply (proj1 (fs_get_in _ _ _ Hnd)) in Hin.
  assert (K : forall {R} (line : R -> string) (rs : list R), (forall r, In r rs -> is_line (line r) /\ head_is """" (line r)) ->
             database_file (sconcat (map line rs))).
  { intros R line rs. induction rs as [|r rs IH]; intros H.
    - exists []. split; [reflexivity|constructor].
    - destruct IH as (ls & E & F); [intros; apply H; right; auto|].
      destruct (H r (or_introl eq_refl)) as [(x & Ex & Hn & _) [y Ey]].
      destruct x as [|a x]; [rewrite Ex in Ey; discriminate|]. rewrite Ex in Ey. injection Ey as -> _.
      exists (x :: ls). split.
      + simpl. rewrite Ex, E. reflexivity.
      + constructor; [|exact F]. intros C. apply Hn. right. exact C. }
  destruct b.
  - specialize (Hd i Hi). rewrite Hin in Hd. subst c. apply K. intros r Hr. unfold own in Hr. apply filter_In in Hr.
    split; [apply (dline_is_line parse); apply Gd; tauto|]. destruct r as [[[? ?] ?] ?]. eexists. reflexivity.
  - specialize (Ht i Hi). rewrite Hin in Ht. subst c. apply K. intros r Hr. unfold own in Hr. apply filter_In in Hr.
    split; [apply (sline_is_line parse); apply Gs; tauto|]. destruct r as [[? ?] ?]. eexists. reflexivity.
Qed.
Print Assumptions C47_database_writes_such_files.

(** Both watched patterns have the shape of the theorem. *)
Example C47_patterns : DICTIONARY_PATTERN = [Name "morpheme"; Name "paradigm"; Star ""] /\
  LIST_PATTERN = [Name "morpheme"; Star ""; Star ".desc"].
Proof. split; reflexivity. Qed.

Definition folder_a : fsys := [("morpheme/paradigm/wa..desc", """wa."" en tags ""x""" ++ nl); (".dictionary-cache.0", "z")].
Definition folder_b : fsys := fs_set folder_a "morpheme/paradigm/b..desc" "".
Example C47_case :
  (forall a, In a (folders folder_a [Call true; Edit folder_b; Call true; Call true]) -> written_by_database DICTIONARY_PATTERN a) /\
  history_results (fun s => s) DICTIONARY_PATTERN (fun fs => List.length (watched DICTIONARY_PATTERN fs)) (fun _ => true)
    folder_a [] [Call true; Edit folder_b; Call true; Call true]
  = [(folder_a, Ok 1); (folder_b, Ok 2); (folder_b, Ok 2)].
Proof.
  split; [|vm_compute; reflexivity]. intros a Ha. assert (a = folder_a \/ a = folder_b) as [-> | ->] by (simpl in Ha; intuition auto);
  intros p c Hp Hm; vm_compute in Hp; repeat destruct Hp as [Hp|Hp]; try (injection Hp as <- <-); try destruct Hp; try discriminate Hm;
  (split; [unfold occurs; simpl; intuition discriminate|]).
  - exists ["wa."" en tags ""x"""]. split; [reflexivity|]. constructor; [|constructor]. unfold occurs. simpl. intuition discriminate.
  - exists ["wa."" en tags ""x"""]. split; [reflexivity|]. constructor; [|constructor]. unfold occurs. simpl. intuition discriminate.
  - exists []. split; [reflexivity|constructor].
Qed.

(** With other contents two folders may have the same digested text, so the restriction is
    needed: the result of the first folder is returned for the second one. *)
Theorem C47_ambiguous_text_refuted : exists a b : fsys,
  watched DICTIONARY_PATTERN a <> watched DICTIONARY_PATTERN b /\
  forall md5, history_results md5 DICTIONARY_PATTERN (fun fs => watched DICTIONARY_PATTERN fs) (fun _ => true) a []
       [Call true; Edit b; Call true] = [(a, Ok (watched DICTIONARY_PATTERN a)); (b, Ok (watched DICTIONARY_PATTERN a))].
Proof.
  exists [("morpheme/paradigm/a", "xmorpheme/paradigm/b:y")], [("morpheme/paradigm/a", "x"); ("morpheme/paradigm/b", "y")].
  split; [vm_compute; discriminate|]. intros md5. unfold history_results, call, is_pruned, cached. cbn [find fst].
  match goal with |- context [fingerprint md5 _ ?x] => assert (forall y, fingerprint md5 DICTIONARY_PATTERN y = fingerprint md5 DICTIONARY_PATTERN x ->
     String.eqb (fingerprint md5 DICTIONARY_PATTERN y) (fingerprint md5 DICTIONARY_PATTERN x) = true) as K by
     (intros y ->; apply String.eqb_refl) end.
  rewrite K; [reflexivity|]. reflexivity.
Qed.
Print Assumptions C47_ambiguous_text_refuted.

(** get_list reads the descriptors of every class but only watches the morphemes: after a
    descriptor is added to a word the previous list is returned. *)
Theorem C47_unwatched_files_refuted : exists parse class_of fs fs' i l d v,
  let path := db_path (fun _ => "") class_of (fun _ => true) "" in
  let get_list fs := get_descriptors is_desc_file (fun x => x) fs in
  add_descriptor parse path fs i l d v = Ok fs' /\ get_list fs <> get_list fs' /\
  forall md5, history_results md5 LIST_PATTERN get_list (fun _ => true) fs [] [Call true; Edit fs'; Call true]
              = [(fs, Ok (get_list fs)); (fs', Ok (get_list fs))].
Proof.
  exists (fun i => Ok i), (fun _ => CWord), [("morpheme/singular/wa..desc", """wa."" en tags ""x""" ++ nl)].
  eexists. exists "[! E:A:.]", "en", "tags", "y". cbv zeta. split; [vm_compute; reflexivity|]. split; [vm_compute; discriminate|].
  intros md5. unfold history_results, call, is_pruned, cached. cbn [find fst].
  match goal with |- context [fingerprint md5 _ ?x] => assert (forall y, fingerprint md5 LIST_PATTERN y = fingerprint md5 LIST_PATTERN x ->
     String.eqb (fingerprint md5 LIST_PATTERN y) (fingerprint md5 LIST_PATTERN x) = true) as K by
     (intros y ->; apply String.eqb_refl) end.
  rewrite K; reflexivity.
Qed.
Print Assumptions C47_unwatched_files_refuted.
