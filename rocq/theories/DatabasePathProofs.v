(** Distinct expressions have distinct files. *)
From Coq Require Import List String Ascii Bool NArith Arith Lia.
From Verif Require Import Base ScriptStrProofs Database DatabasePath DatabaseSpec DatabaseProofs.
Import ListNotations.
Local Open Scope string_scope.

Lemma string_app_inj_l (a b c : string) : a ++ b = a ++ c -> b = c.
Proof. induction a as [|x a IH]; simpl; [auto|]. intros [=]. auto. Qed.

Lemma length_app a b : String.length (a ++ b) = String.length a + String.length b.
Proof. induction a as [|x a IH]; simpl; [reflexivity|]. rewrite IH. reflexivity. Qed.

Lemma string_app_eq a b c d : String.length a = String.length c -> a ++ b = c ++ d -> a = c /\ b = d.
Proof.
  revert c. induction a as [|x a IH]; intros [|y c]; simpl; try discriminate; [auto|].
  intros [=] [=]. subst. destruct (IH c) as [-> ->]; auto.
Qed.

Lemma string_app_eq_r a b c d : String.length b = String.length d -> a ++ b = c ++ d -> a = c /\ b = d.
Proof.
  intros H E. apply string_app_eq; [|exact E].
  apply (f_equal String.length) in E. rewrite !length_app in E. lia.
Qed.

(** The part after the last separator. *)
Fixpoint basename (s : string) : string :=
  match s with
  | EmptyString => ""
  | String c r => if existsb (Ascii.eqb "/") (list_ascii_of_string r) then basename r
                  else if Ascii.eqb c "/" then r else s
  end.

Lemma existsb_occurs c s : existsb (Ascii.eqb c) (list_ascii_of_string s) = true <-> occurs c s.
Proof.
  rewrite existsb_exists. unfold occurs. split.
  - intros (x & Hx & E). apply Ascii.eqb_eq in E. subst. auto.
  - intros H. exists c. split; [auto|]. apply Ascii.eqb_refl.
Qed.

Lemma basename_plain f : ~ occurs "/" f -> basename f = f.
Proof.
  induction f as [|c f IH]; [reflexivity|]. rewrite occurs_cons. intros H. cbn [basename].
  destruct (existsb (Ascii.eqb "/") (list_ascii_of_string f)) eqn:E; [apply existsb_occurs in E; tauto|].
  destruct (Ascii.eqb_spec c "/"); [subst; tauto|]. reflexivity.
Qed.

Lemma basename_slash x f : ~ occurs "/" f -> basename (x ++ "/" ++ f) = f.
Proof.
  intros H. induction x as [|c x IH].
  - cbn [append basename]. destruct (existsb (Ascii.eqb "/") (list_ascii_of_string f)) eqn:E; [apply existsb_occurs in E; tauto|].
    reflexivity.
  - cbn [append basename]. replace (existsb (Ascii.eqb "/") (list_ascii_of_string (x ++ String "/" f))) with true.
    + exact IH.
    + symmetry. apply existsb_occurs. apply occurs_app. right. apply occurs_cons. auto.
Qed.

Lemma ends_with_slash_split s : ends_with_slash s = true -> exists x, s = x ++ "/".
Proof.
  induction s as [|c s IH]; [discriminate|]. destruct s as [|d s].
  - simpl. intros E. apply Ascii.eqb_eq in E. subst. exists "". reflexivity.
  - intros E. destruct (IH E) as [x Hx]. exists (String c x). rewrite Hx. reflexivity.
Qed.

Lemma os_join_shape a b : ~ occurs "/" b -> os_join a b = if (String.eqb a "" || ends_with_slash a)%bool then a ++ b else a ++ "/" ++ b.
Proof.
  destruct b as [|c b]; [reflexivity|]. rewrite occurs_cons. intros H.
  destruct c as [[] [] [] [] [] [] [] []]; try reflexivity. exfalso. apply H. left. reflexivity.
Qed.

Lemma basename_join a b : ~ occurs "/" b -> basename (os_join a b) = b.
Proof.
  intros H. rewrite os_join_shape by auto. destruct (String.eqb_spec a "") as [->|Ha]; simpl orb.
  - simpl append. apply basename_plain; auto.
  - destruct (ends_with_slash a) eqn:E.
    + destruct (ends_with_slash_split _ E) as [x ->]. rewrite string_app_assoc. apply basename_slash; auto.
    + apply basename_slash; auto.
Qed.

Lemma substring_occurs c n m s : occurs c (substring n m s) -> occurs c s.
Proof.
  revert n m. induction s as [|x s IH]; intros [|n] [|m]; simpl; try (intros []; fail); auto.
  - intros []; [left; auto|right]. eapply IH; eauto.
  - intros H. right. eapply IH; eauto.
  - intros H. right. eapply IH; eauto.
Qed.

Lemma substring_length n m s : n + m <= String.length s -> String.length (substring n m s) = m.
Proof.
  revert n m. induction s as [|x s IH]; intros [|n] [|m] H; simpl in *; try lia.
  - rewrite IH; lia.
  - rewrite IH; lia.
  - rewrite IH; lia.
Qed.

Lemma substring_length_le n m s : String.length (substring n m s) <= m.
Proof.
  revert n m. induction s as [|x s IH]; intros [|n] [|m]; simpl; try lia.
  - specialize (IH 0 m). lia.
  - specialize (IH n 0). lia.
  - specialize (IH n (S m)). lia.
Qed.

Lemma filename_length sha l : String.length (filename_of sha l) <= 100.
Proof.
  unfold filename_of, MAX_IEML_NAME_SIZE, HASH_SIZE. destruct (Nat.ltb_spec 100 (String.length l)); [|lia].
  rewrite !length_app. change (String.length "|") with 1.
  pose proof (substring_length_le 0 (100 - 10 - 1) l). pose proof (substring_length_le 0 10 (sha l)). lia.
Qed.

Lemma filename_inj sha i j : ~ occurs "|" i -> ~ occurs "|" j ->
  (100 < String.length i -> 100 < String.length j -> substring 0 10 (sha i) = substring 0 10 (sha j) -> i = j) ->
  filename_of sha i = filename_of sha j -> i = j.
Proof.
  intros Hi Hj Hcol. unfold filename_of, MAX_IEML_NAME_SIZE, HASH_SIZE.
  destruct (Nat.ltb_spec 100 (String.length i)) as [Li|Li]; destruct (Nat.ltb_spec 100 (String.length j)) as [Lj|Lj].
  - intros E. apply Hcol; auto. apply string_app_eq in E.
    + destruct E as [_ E]. injection E as E. exact E.
    + rewrite !substring_length; simpl; lia.
  - intros E. exfalso. apply Hj. rewrite <- E, !occurs_app. right. left. left. reflexivity.
  - intros E. exfalso. apply Hi. rewrite E, !occurs_app. right. left. left. reflexivity.
  - auto.
Qed.

Lemma filename_occurs sha c l : c <> "|"%char -> ~ occurs c l -> ~ occurs c (sha l) -> ~ occurs c (filename_of sha l).
Proof.
  intros Hc Hl Hs. unfold filename_of. destruct (Nat.ltb MAX_IEML_NAME_SIZE (String.length l)); [|auto].
  rewrite !occurs_app. intros [H|[H|H]].
  - apply Hl. eapply substring_occurs; eauto.
  - destruct H as [H|[]]. congruence.
  - apply Hs. eapply substring_occurs; eauto.
Qed.

Lemma is_desc_app a b : String.length b = 5 -> is_desc_file (a ++ b) = String.eqb b ".desc".
Proof.
  intros H. induction a as [|c a IH].
  - simpl append. do 5 (destruct b as [|? b]; [discriminate|]). destruct b; [|discriminate].
    cbn [is_desc_file]. simpl.
    repeat match goal with |- context [Ascii.eqb ?x ?y] => destruct (Ascii.eqb x y) end; reflexivity.
  - cbn [append is_desc_file]. rewrite IH. destruct (String.eqb_spec (String c (a ++ b)) ".desc") as [E|]; [|reflexivity].
    exfalso. apply (f_equal String.length) in E. simpl in E. rewrite length_app in E. lia.
Qed.

Section Path.
  Variables (sha : string -> string) (class_of : string -> iclass) (singular : string -> bool) (folder : string).
  Definition ext (b : bool) : string := if b then ".desc" else ".ieml".

  (** An expression and a digest that can be part of a file name. *)
  Definition nameable (i : string) : Prop := ~ occurs "/" i /\ ~ occurs "|" i /\ ~ occurs "/" (sha i).

  Lemma ext_slash b : ~ occurs "/" (ext b).
  Proof. destruct b; unfold occurs; simpl; intuition discriminate. Qed.

  Lemma path_basename b i : nameable i -> basename (db_path sha class_of singular folder b i) = filename_of sha i ++ ext b.
  Proof.
    intros (H1 & H2 & H3). unfold db_path. destruct (class_folder (class_of i)) as [cf size].
    apply basename_join. rewrite occurs_app. intros [H|H].
    - revert H. apply filename_occurs; auto. discriminate.
    - exact (ext_slash b H).
  Qed.

  Lemma path_ends b i : nameable i -> exists x, db_path sha class_of singular folder b i = x ++ ext b.
  Proof.
    intros (H1 & H2 & H3). unfold db_path. destruct (class_folder (class_of i)) as [cf size].
    rewrite os_join_shape.
    - destruct (_ || _)%bool; eexists; rewrite <- !string_app_assoc; reflexivity.
    - rewrite occurs_app. intros [H|H]; [|exact (ext_slash b H)].
      revert H. apply filename_occurs; auto. discriminate.
  Qed.

  Lemma db_path_inj b b' i j : nameable i -> nameable j ->
    (100 < String.length i -> 100 < String.length j -> substring 0 10 (sha i) = substring 0 10 (sha j) -> i = j) ->
    db_path sha class_of singular folder b i = db_path sha class_of singular folder b' j -> b = b' /\ i = j.
  Proof.
    intros Hi Hj Hc E. apply (f_equal basename) in E. rewrite !path_basename in E by auto.
    apply string_app_eq_r in E; [|destruct b, b'; reflexivity]. destruct E as [E1 E2].
    split; [destruct b, b'; try reflexivity; discriminate E2|]. destruct Hi as (_ & Hi & _), Hj as (_ & Hj & _).
    eapply filename_inj; eauto.
  Qed.

  Lemma db_path_kind b i : nameable i -> is_desc_file (db_path sha class_of singular folder b i) = b.
  Proof.
    intros H. destruct (path_ends b i H) as [x ->]. rewrite is_desc_app by (destruct b; reflexivity). destruct b; reflexivity.
  Qed.
End Path.
