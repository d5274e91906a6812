(** Lemmas on the transactions model. *)
From Coq Require Import List String Ascii Bool NArith Arith Lia Permutation Sorted.
From Verif Require Import Base SortProofs Script ScriptOrderProofs Database DatabaseSpec DatabaseProofs DatabaseRefine Git Cache Transactions.
Import ListNotations.
Local Open Scope string_scope.

Definition codes (a : string) : list N := map N_of_ascii (list_ascii_of_string a).
Lemma codes_inj a b : codes a = codes b -> a = b.
Proof.
  unfold codes. revert b. induction a as [|x a IH]; intros [|y b]; simpl; try discriminate; [reflexivity|].
  intros [= E1 E2]. f_equal; [|auto]. rewrite <- (ascii_N_embedding x), <- (ascii_N_embedding y), E1. reflexivity.
Qed.
Lemma string_lt_cmp a b : string_lt a b = match bcmp (codes a) (codes b) with Lt => true | _ => false end.
Proof. apply bytes_lt_cmp. Qed.
Lemma string_lt_irrefl a : string_lt a a = false.
Proof. rewrite string_lt_cmp. rewrite (proj2 (good_eq _ good_bytes _ _) eq_refl). reflexivity. Qed.
Lemma string_lt_total a b : string_lt a b = false -> string_lt b a = false -> a = b.
Proof.
  rewrite !string_lt_cmp, (good_opp _ good_bytes (codes a) (codes b)). intros H1 H2. apply codes_inj. apply (good_eq _ good_bytes).
  destruct (bcmp (codes a) (codes b)); simpl in *; congruence.
Qed.
Lemma string_lt_trans a b c : string_lt a b = true -> string_lt b c = true -> string_lt a c = true.
Proof.
  rewrite !string_lt_cmp. intros H1 H2. rewrite (good_trans _ good_bytes (codes a) (codes b) (codes c)); [reflexivity| |];
  [destruct (bcmp (codes a) (codes b))|destruct (bcmp (codes b) (codes c))]; congruence.
Qed.
Lemma string_le_trans a b c : string_lt b a = false -> string_lt c b = false -> string_lt c a = false.
Proof.
  intros H1 H2. destruct (string_lt c a) eqn:E; [|reflexivity]. destruct (string_lt a b) eqn:F.
  - rewrite (string_lt_trans c a b E F) in H2. discriminate.
  - assert (a = b) by (apply string_lt_total; auto). subst. congruence.
Qed.

Lemma weak_sorted_unique l1 : forall l2, weak_sorted string_lt l1 -> weak_sorted string_lt l2 -> Permutation l1 l2 -> l1 = l2.
Proof.
  induction l1 as [|a l1 IH]; intros l2 S1 S2 P.
  - apply Permutation_nil in P. congruence.
  - destruct l2 as [|b l2]; [symmetry in P; apply Permutation_nil in P; discriminate|].
    inversion S1 as [|? ? S1' F1]; subst. inversion S2 as [|? ? S2' F2]; subst.
    assert (a = b) as <-.
    { assert (In a (b :: l2)) as Ha by (apply (Permutation_in _ P); simpl; auto).
      assert (In b (a :: l1)) as Hb by (apply (Permutation_in _ (Permutation_sym P)); simpl; auto).
      destruct Ha as [Ha|Ha]; [auto|]. destruct Hb as [Hb|Hb]; [auto|].
      rewrite Forall_forall in F1, F2. apply string_lt_total; auto. }
    f_equal. apply IH; auto. apply Permutation_cons_inv in P. exact P.
Qed.
Lemma sorted_texts_perm a b : sorted_texts a = sorted_texts b <-> Permutation a b.
Proof.
  unfold sorted_texts. split.
  - intros E. rewrite <- (sort_perm string_lt a), E. apply sort_perm.
  - intros P. assert (S : forall l, weak_sorted string_lt (sort string_lt l)).
    { intros l. apply (sort_sorted string_lt (fun _ => True)); eauto using string_lt_trans, string_lt_irrefl, string_le_trans.
      apply Forall_forall. auto. }
    apply weak_sorted_unique; auto. rewrite !sort_perm. exact P.
Qed.
Lemma texts_eqb_eq a : forall b, texts_eqb a b = true <-> a = b.
Proof.
  induction a as [|x a IH]; intros [|y b]; simpl; try (split; congruence).
  rewrite andb_true_iff, String.eqb_eq, IH. split; [intros [-> ->]|intros [= -> ->]]; auto.
Qed.
Lemma same_sorted_texts new old : exists b, same_sorted new (map Some old) = Ok b /\ (b = true <-> Permutation new old).
Proof.
  unfold same_sorted. assert (flat_map (fun o : option string => match o with Some x => [x] | None => [] end) (map Some old) = old) as ->.
  { induction old; simpl; congruence. }
  assert (existsb (fun o : option string => match o with Some _ => false | None => true end) (map Some old) = false) as ->.
  { induction old; simpl; auto. }
  eexists. split; [reflexivity|]. rewrite texts_eqb_eq. apply sorted_texts_perm.
Qed.

Lemma allM_ok {A} (f : A -> res bool) (P : A -> Prop) l :
  (forall x, In x l -> exists b, f x = Ok b /\ (b = true <-> P x)) ->
  exists b, allM f l = Ok b /\ (b = true <-> Forall P l) /\ (b = false -> exists x, In x l /\ ~ P x).
Proof.
  induction l as [|x l IH]; intros H.
  - exists true. simpl. split; [reflexivity|]. split; [split; auto|discriminate].
  - destruct (H x) as (b & E & Hb); [simpl; auto|]. simpl. rewrite E. cbn [bind]. destruct b.
    + destruct IH as (b & El & Hl & Hf); [intros; apply H; simpl; auto|]. exists b. split; [exact El|]. split.
      * rewrite Hl. split; intros F; [constructor; tauto|inversion F; auto].
      * intros Eb. destruct (Hf Eb) as (y & Hy & Hn). exists y. simpl. auto.
    + exists false. split; [reflexivity|]. assert (~ P x) by (intros C; apply Hb in C; discriminate). split.
      * split; [discriminate|]. intros F. inversion F; subst. contradiction.
      * intros _. exists x. simpl. auto.
Qed.

Section T.
  Variable parse : string -> res string.
  Variable path : bool -> string -> string.
  Variable is_desc : string -> bool.
  Hypothesis ok : folder_ok parse path is_desc.
  Notation sstep := (spec_step parse LANGUAGES DESCRIPTORS_CLASS svalue kept same_or_quoted).

  Lemma exec_add fs i l d v : parse i = Ok i -> In l LANGUAGES -> In d DESCRIPTORS_CLASS ->
    exists fs', exec parse path fs (AddDescriptor i l d v) = Ok fs'.
  Proof.
    intros Hi Hl Hd. unfold exec, add_descriptor. rewrite (nk_add parse path is_desc ok _ _ _ _ Hi).
    apply inb_In in Hl, Hd. rewrite Hl, Hd. cbn [andb bind fst]. destruct (String.eqb _ _); [eauto|].
    rewrite path_of_parsed by auto. cbn [bind]. eauto.
  Qed.
  Lemma exec_remove_all fs i : parse i = Ok i -> exists fs', exec parse path fs (RemoveDescriptor i None None None) = Ok fs'.
  Proof.
    intros Hi. unfold exec, remove_descriptor. rewrite (nk_remove parse path is_desc ok _ _ _ _ Hi). cbn [okopt andb bind fst].
    rewrite path_of_parsed by auto. cbn [bind]. destruct (fs_get _ _); eauto.
  Qed.
  Lemma exec_remove_class fs st i d : Inv parse path fs st -> parse i = Ok i -> plain i -> In d DESCRIPTORS_CLASS ->
    exists fs', exec parse path fs (RemoveDescriptor i None (Some d) None) = Ok fs'.
  Proof.
    intros HI Hi Hp Hd. unfold exec, remove_descriptor. rewrite (nk_remove parse path is_desc ok _ _ _ _ Hi).
    apply inb_In in Hd. cbn [okopt]. rewrite Hd, orb_true_r. cbn [andb bind fst].
    rewrite path_of_parsed by auto. cbn [bind]. destruct (fs_get _ _); [|eauto].
    assert (K : forall L fs st, incl L LANGUAGES -> Inv parse path fs st ->
      exists fs', fold_left (fun acc l => do fs' <- acc; remove_lang parse path fs' i l (Some d) None) L (Ok fs) = Ok fs').
    { clear fs st HI. induction L as [|l L IH]; intros fs st HL HI; [simpl; eauto|]. cbn [fold_left bind].
      destruct (remove_lang_inv parse path is_desc ok fs st i i l (Some d) None HI Hi Hp) as (fs' & E & HI' & _).
      - congruence.
      - cbn [okopt]. rewrite Hd. assert (In l LANGUAGES) as Hl by (apply HL; simpl; auto). apply inb_In in Hl. rewrite Hl, !orb_true_r. reflexivity.
      - rewrite E. refine (IH fs' _ _ HI'). intros x Hx. apply HL. simpl. auto. }
    apply (K LANGUAGES fs st); [apply incl_refl|exact HI].
  Qed.

  Lemma exec_adds fs i e : parse i = Ok i -> In e INHIBITABLE_RELATIONS ->
    exists fs', exec parse path fs (AddStructure i "inhibition" e) = Ok fs'.
  Proof.
    intros Hi He. unfold exec, add_structure. rewrite (nk_svalue parse path is_desc ok _ _ _ _ _ Hi).
    - unfold svalue, structure_value. change (mem e INHIBITABLE_RELATIONS) with (inb e INHIBITABLE_RELATIONS).
      apply inb_In in He. rewrite He, String.eqb_refl. cbn [bind].
      rewrite path_of_parsed by auto. cbn [bind]. eauto.
    - intros ->. simpl in He. intuition discriminate.
    - discriminate.
  Qed.
  Lemma exec_removes fs i e : parse i = Ok i -> In e INHIBITABLE_RELATIONS ->
    exists fs', exec parse path fs (RemoveStructure i (Some "inhibition") (Some e)) = Ok fs'.
  Proof.
    intros Hi He. unfold exec, remove_structure.
    rewrite (nk_svalue parse path is_desc ok _ _ _ _ _ Hi).
    - unfold svalue, structure_value. change (mem e INHIBITABLE_RELATIONS) with (inb e INHIBITABLE_RELATIONS).
      apply inb_In in He. rewrite He. rewrite String.eqb_refl. cbn [bind].
      rewrite path_of_parsed by auto. cbn [bind]. destruct (fs_get _ _); eauto.
    - intros ->. simpl in He. intuition discriminate.
    - discriminate.
  Qed.

  (** A body whose calls all succeed does what the calls do. *)
  Lemma body_run ops : forall fs st, Inv parse path fs st -> Forall (op_ok parse) ops ->
    (forall o fs st, In o ops -> Inv parse path fs st -> exists fs', exec parse path fs o = Ok fs') ->
    body parse path ops fs = (Ok tt, run parse path fs ops).
  Proof.
    induction ops as [|o ops IH]; intros fs st HI Hops H; [reflexivity|]. inversion_clear Hops as [|? ? Ho Hops'].
    destruct (H o fs st (or_introl eq_refl) HI) as [fs' E]. cbn [body]. rewrite E.
    unfold run. cbn [fold_left]. assert (exec_step parse path fs o = fs') as Es by (unfold exec_step; rewrite E; reflexivity). rewrite Es.
    apply (IH fs' (sstep st o)).
    - rewrite <- Es. apply (step_inv parse path is_desc ok); auto.
    - auto.
    - intros o' f s Ho' HI'. apply (H o' f s); simpl; auto.
  Qed.
End T.
