(** Generic facts on [sort], [dedup] and strictly sorted lists. *)
From Coq Require Import List Bool Arith Lia Sorted Permutation.
From Verif Require Import Base.
Import ListNotations.

Section S.
  Context {A : Type} (lt : A -> A -> bool).

  Lemma insert_perm x l : Permutation (insert lt x l) (x :: l).
  Proof.
    induction l as [|y l IH]; simpl; auto. destruct (lt y x); auto.
    eapply perm_trans; [apply perm_skip; exact IH|apply perm_swap].
  Qed.
  Lemma sort_perm l : Permutation (sort lt l) l.
  Proof.
    induction l; simpl; auto. eapply perm_trans; [apply insert_perm|]. constructor; auto.
  Qed.

  Variable D : A -> Prop.
  Hypothesis Htrans : forall a b c, D a -> D b -> D c -> lt a b = true -> lt b c = true -> lt a c = true.
  Hypothesis Hirr : forall a, lt a a = false.
  (** [not (b < a)] and [not (c < b)] imply [not (c < a)] *)
  Hypothesis Hneg : forall a b c, D a -> D b -> D c -> lt b a = false -> lt c b = false -> lt c a = false.

  Definition weak_sorted (l : list A) : Prop := StronglySorted (fun x y => lt y x = false) l.
  Definition strict_sorted (l : list A) : Prop := StronglySorted (fun x y => lt x y = true) l.

  Lemma asym a b : D a -> D b -> lt a b = true -> lt b a = false.
  Proof.
    intros Da Db H. destruct (lt b a) eqn:E; auto.
    assert (lt a a = true) by (apply (Htrans a b a); auto). rewrite Hirr in H0. discriminate.
  Qed.

  Lemma insert_sorted x l : D x -> Forall D l -> weak_sorted l -> weak_sorted (insert lt x l).
  Proof.
    intros Dx F S. induction S as [|y l S IH Hy]; simpl.
    - repeat constructor.
    - inversion F as [|? ? Dy Dl]; subst. destruct (lt y x) eqn:E.
      + constructor; [apply IH; auto|].
        apply (Permutation_Forall (Permutation_sym (insert_perm x l))).
        constructor; auto. apply asym; auto.
      + constructor; [constructor; auto|]. constructor; auto.
        rewrite Forall_forall in *. intros z Hz. apply Hneg with (b := y); auto.
  Qed.
  Lemma sort_sorted l : Forall D l -> weak_sorted (sort lt l).
  Proof.
    induction 1; simpl; [constructor|]. apply insert_sorted; auto.
    apply (Permutation_Forall (Permutation_sym (sort_perm l))); auto.
  Qed.

  (** Strictly sorted lists with the same elements are equal. *)
  Lemma strict_sorted_unique l1 : forall l2, Forall D l1 -> Forall D l2 ->
    strict_sorted l1 -> strict_sorted l2 -> (forall x, In x l1 <-> In x l2) -> l1 = l2.
  Proof.
    induction l1 as [|a l1 IH]; intros [|b l2] F1 F2 S1 S2 E; auto.
    - exfalso. apply (E b). left; auto.
    - exfalso. apply (E a). left; auto.
    - inversion S1 as [|? ? S1' H1]; inversion S2 as [|? ? S2' H2];
      inversion F1 as [|? ? Da F1']; inversion F2 as [|? ? Db F2']; subst.
      rewrite Forall_forall in H1, H2.
      assert (a = b).
      { destruct (proj1 (E a) (or_introl eq_refl)) as [X|X]; auto.
        destruct (proj2 (E b) (or_introl eq_refl)) as [Y|Y]; auto.
        specialize (H1 b Y). specialize (H2 a X).
        rewrite (asym a b Da Db H1) in H2. discriminate. }
      subst b. f_equal. apply IH; auto.
      intros x. split; intros Hx.
      + destruct (proj1 (E x) (or_intror Hx)) as [X|X]; auto.
        subst. specialize (H1 _ Hx). rewrite Hirr in H1. discriminate.
      + destruct (proj2 (E x) (or_intror Hx)) as [X|X]; auto.
        subst. specialize (H2 _ Hx). rewrite Hirr in H2. discriminate.
  Qed.

  (** A weakly sorted list whose elements are pairwise comparable is strictly sorted. *)
  Lemma weak_strict l : ForallOrdPairs (fun x y => lt x y = true \/ lt y x = true) l ->
    weak_sorted l -> strict_sorted l.
  Proof.
    intros P S. induction P as [|x l Hx P IH]; [constructor|].
    inversion S as [|? ? S' HS]; subst. constructor; [apply IH; auto|].
    rewrite Forall_forall in *. intros y Hy. destruct (Hx y Hy) as [E|E]; auto.
    rewrite HS in E; auto. discriminate.
  Qed.
End S.

Section Dd.
  Context {A : Type} (eqb : A -> A -> bool).
  Hypothesis eqb_refl : forall x, eqb x x = true.
  Hypothesis eqb_sym : forall x y, eqb x y = eqb y x.
  Hypothesis eqb_trans : forall x y z, eqb x y = true -> eqb y z = true -> eqb x z = true.

  Lemma memb_true x l : memb eqb x l = true <-> exists y, In y l /\ eqb x y = true.
  Proof. unfold memb. apply existsb_exists. Qed.
  Lemma memb_in x l : In x l -> memb eqb x l = true.
  Proof. intros. apply memb_true. exists x; auto. Qed.
  Lemma memb_false x l : memb eqb x l = false <-> forall y, In y l -> eqb x y = false.
  Proof.
    split.
    - intros E y Hy. destruct (eqb x y) eqn:E2; auto.
      assert (memb eqb x l = true) by (apply memb_true; eauto). congruence.
    - intros H. destruct (memb eqb x l) eqn:E; auto. apply memb_true in E.
      destruct E as (y & Hy & E). rewrite H in E; auto.
  Qed.

  Lemma dedup_aux_in seen l x : In x (dedup_aux eqb seen l) -> In x l /\ memb eqb x seen = false.
  Proof.
    revert seen; induction l as [|y l IH]; simpl; intros seen H; [tauto|].
    destruct (memb eqb y seen) eqn:E.
    - destruct (IH _ H); auto.
    - destruct H as [->|H]; auto. destruct (IH _ H) as [H1 H2]. split; auto.
      simpl in H2. apply orb_false_iff in H2. tauto.
  Qed.
  Lemma dedup_aux_complete seen l x : In x l -> memb eqb x seen = false ->
    exists y, In y (dedup_aux eqb seen l) /\ eqb x y = true.
  Proof.
    revert seen; induction l as [|z l IH]; simpl; intros seen H E; [tauto|].
    destruct H as [->|H].
    - rewrite E. exists x. split; [left; auto|apply eqb_refl].
    - destruct (memb eqb z seen) eqn:Ez; auto.
      destruct (eqb x z) eqn:Exz.
      + exists z. split; [left; auto|auto].
      + destruct (IH (z :: seen) H) as (y & Hy & Ey).
        { simpl. rewrite Exz. auto. }
        exists y. split; [right; auto|auto].
  Qed.
  Lemma dedup_in l x : In x (dedup eqb l) -> In x l.
  Proof. intros H. apply dedup_aux_in in H. tauto. Qed.
  Lemma dedup_complete l x : In x l -> exists y, In y (dedup eqb l) /\ eqb x y = true.
  Proof. intros H. apply dedup_aux_complete; auto. Qed.
  Lemma dedup_aux_distinct seen l :
    ForallOrdPairs (fun x y => eqb x y = false) (dedup_aux eqb seen l).
  Proof.
    revert seen; induction l as [|z l IH]; simpl; intros seen; [constructor|].
    destruct (memb eqb z seen) eqn:E; auto. constructor; auto.
    apply Forall_forall. intros y Hy. apply dedup_aux_in in Hy. destruct Hy as [_ Hy].
    simpl in Hy. apply orb_false_iff in Hy. rewrite eqb_sym. tauto.
  Qed.
  Lemma dedup_distinct l : ForallOrdPairs (fun x y => eqb x y = false) (dedup eqb l).
  Proof. apply dedup_aux_distinct. Qed.
End Dd.

Lemma FOP_perm {A} (R : A -> A -> Prop) l l' :
  (forall x y, R x y -> R y x) -> Permutation l l' -> ForallOrdPairs R l -> ForallOrdPairs R l'.
Proof.
  intros Sym P. induction P; intros H; auto.
  - inversion H; subst. constructor; auto. eapply Permutation_Forall; eauto.
  - inversion H as [|? ? H1 H2]; subst. inversion H2 as [|? ? H3 H4]; subst.
    inversion H1; subst. repeat constructor; auto.
Qed.

Lemma FOP_impl {A} (R R' : A -> A -> Prop) (l : list A) :
  (forall x y, In x l -> In y l -> R x y -> R' x y) -> ForallOrdPairs R l -> ForallOrdPairs R' l.
Proof.
  intros H F. induction F as [|x l Hx F IH]; [constructor|]. constructor.
  - rewrite Forall_forall in *. intros y Hy. apply H; simpl; auto.
  - apply IH. intros; apply H; simpl; auto.
Qed.
