(** Strict total orders up to a key, on tuples and for sorting. *)
From Coq Require Import List Bool Arith Lia Sorted Permutation.
From Verif Require Import Base SortProofs Usl.
Import ListNotations.

(** On [D], [eqb] compares the keys and [lt] is a strict total order on the keys. *)
Record order {A K : Type} (D : A -> Prop) (k : A -> K) (eqb lt : A -> A -> bool) : Prop := {
  o_eqb : forall a b, D a -> D b -> (eqb a b = true <-> k a = k b);
  o_irr : forall a b, D a -> D b -> k a = k b -> lt a b = false;
  o_trans : forall a b c, D a -> D b -> D c -> lt a b = true -> lt b c = true -> lt a c = true;
  o_total : forall a b, D a -> D b -> k a <> k b -> lt a b = true \/ lt b a = true
}.

Section Order.
  Context {A K : Type} {D : A -> Prop} {k : A -> K} {eqb lt : A -> A -> bool}.
  Hypothesis O : order D k eqb lt.

  Lemma o_neq a b : D a -> D b -> eqb a b = false -> k a <> k b.
  Proof. intros Da Db E X. apply (o_eqb _ _ _ _ O) in X; auto. congruence. Qed.
  Lemma o_dec a b : D a -> D b -> k a = k b \/ k a <> k b.
  Proof. intros Da Db. destruct (eqb a b) eqn:E; [left; apply (o_eqb _ _ _ _ O); auto|right; apply o_neq; auto]. Qed.
  Lemma o_asym a b : D a -> D b -> lt a b = true -> lt b a = false.
  Proof.
    intros Da Db H. destruct (lt b a) eqn:E; auto.
    assert (X : lt a a = true) by (eapply (o_trans _ _ _ _ O) with (b := b); eauto).
    rewrite (o_irr _ _ _ _ O) in X; auto.
  Qed.
  Lemma o_lt_neq a b : D a -> D b -> lt a b = true -> k a <> k b.
  Proof. intros Da Db H E. rewrite (o_irr _ _ _ _ O) in H; auto. discriminate. Qed.
  Lemma o_compat_l a a' b : D a -> D a' -> D b -> k a = k a' -> lt a b = true -> lt a' b = true.
  Proof.
    intros Da Da' Db E H. pose proof (o_lt_neq _ _ Da Db H) as N. rewrite E in N.
    destruct (o_total _ _ _ _ O a' b Da' Db N) as [L|L]; auto.
    assert (X : lt a a' = true) by (eapply (o_trans _ _ _ _ O) with (b := b); eauto).
    rewrite (o_irr _ _ _ _ O) in X; auto. discriminate.
  Qed.
  Lemma o_compat_r a b b' : D a -> D b -> D b' -> k b = k b' -> lt a b = true -> lt a b' = true.
  Proof.
    intros Da Db Db' E H. pose proof (o_lt_neq _ _ Da Db H) as N. rewrite E in N.
    destruct (o_total _ _ _ _ O a b' Da Db' N) as [L|L]; auto.
    assert (X : lt b' b = true) by (eapply (o_trans _ _ _ _ O) with (b := a); eauto).
    rewrite (o_irr _ _ _ _ O) in X; auto. discriminate.
  Qed.
  Lemma o_compat a b a' b' : D a -> D b -> D a' -> D b' -> k a = k a' -> k b = k b' -> lt a b = lt a' b'.
  Proof.
    intros Da Db Da' Db' E E'.
    assert (X : forall x y x' y', D x -> D y -> D x' -> D y' -> k x = k x' -> k y = k y' -> lt x y = true -> lt x' y' = true).
    { intros. eapply o_compat_l with (a := x); auto. eapply o_compat_r with (b := y); eauto. }
    destruct (lt a b) eqn:L; [symmetry; apply (X a b); auto|].
    destruct (lt a' b') eqn:L'; auto. rewrite <- L. apply (X a' b'); auto.
  Qed.
  Lemma o_neg a b c : D a -> D b -> D c -> lt b a = false -> lt c b = false -> lt c a = false.
  Proof.
    intros Da Db Dc H H'. destruct (lt c a) eqn:L; auto.
    destruct (o_dec a b Da Db) as [E|N].
    - rewrite (o_compat c a c b) in L; auto. congruence.
    - destruct (o_total _ _ _ _ O a b Da Db N) as [X|X]; [|congruence].
      rewrite (o_trans _ _ _ _ O c a b) in H'; auto.
  Qed.

  (** ** Sorting *)
  Lemma o_sorted l : Forall D l -> weak_sorted lt (sort lt l).
  Proof.
    induction 1 as [|x l Dx F IH]; simpl; [constructor|].
    assert (F' : Forall D (sort lt l)) by (apply (Permutation_Forall (Permutation_sym (sort_perm lt l))); auto).
    revert F' IH. generalize (sort lt l) as s. induction s as [|y s IHs]; intros F' S; simpl; [repeat constructor|].
    inversion F' as [|? ? Dy Ds]; inversion S as [|? ? Ss Hy]; subst. destruct (lt y x) eqn:E.
    - constructor; [apply IHs; auto|]. apply (Permutation_Forall (Permutation_sym (insert_perm lt x s))).
      constructor; auto. apply o_asym; auto.
    - constructor; [constructor; auto|]. constructor; auto.
      rewrite Forall_forall in *. intros z Hz. apply o_neg with (b := y); auto.
  Qed.

  Lemma o_unique : forall l1 l2, Forall D l1 -> Forall D l2 -> weak_sorted lt l1 -> weak_sorted lt l2 ->
    Permutation (map k l1) (map k l2) -> map k l1 = map k l2.
  Proof.
    induction l1 as [|x l1 IH]; intros l2 F1 F2 S1 S2 P.
    - simpl in P. apply Permutation_nil in P. auto.
    - destruct l2 as [|y l2]; [apply Permutation_sym, Permutation_nil in P; discriminate|].
      inversion S1 as [|? ? S1' H1]; inversion S2 as [|? ? S2' H2];
        inversion F1 as [|? ? Dx F1']; inversion F2 as [|? ? Dy F2']; subst.
      assert (E : k x = k y).
      { assert (Ix : In (k x) (map k (y :: l2))) by (apply (Permutation_in _ P); left; auto).
        assert (Iy : In (k y) (map k (x :: l1))) by (apply (Permutation_in _ (Permutation_sym P)); left; auto).
        destruct Ix as [Ix|Ix]; auto. destruct Iy as [Iy|Iy]; auto.
        apply in_map_iff in Ix, Iy. destruct Ix as (x' & Ex & Hx'), Iy as (y' & Ey & Hy').
        rewrite Forall_forall in H1, H2, F1', F2'. specialize (H1 y' Hy'). specialize (H2 x' Hx').
        rewrite (o_compat y' x y x) in H1; auto. rewrite (o_compat x' y x y) in H2; auto.
        destruct (o_dec x y Dx Dy) as [|N]; auto.
        destruct (o_total _ _ _ _ O x y Dx Dy N); congruence. }
      simpl. f_equal; auto. apply IH; auto. simpl in P. rewrite E in P.
      apply Permutation_cons_inv in P. auto.
  Qed.

  (** Lists with the same keys, up to the order, are sorted into the same keys. *)
  Lemma o_sort_unique l1 l2 : Forall D l1 -> Forall D l2 -> Permutation (map k l1) (map k l2) ->
    map k (sort lt l1) = map k (sort lt l2).
  Proof.
    intros F1 F2 P. apply o_unique; try apply o_sorted; auto;
      try (eapply Permutation_Forall; [apply Permutation_sym, sort_perm|]; auto).
    eapply perm_trans; [apply Permutation_map, sort_perm|]. eapply perm_trans; [exact P|].
    apply Permutation_map, Permutation_sym, sort_perm.
  Qed.
  Lemma o_sort_sorted l : Forall D l -> weak_sorted lt l -> map k (sort lt l) = map k l.
  Proof.
    intros F S. apply o_unique; try apply o_sorted; auto.
    - eapply Permutation_Forall; [apply Permutation_sym, sort_perm|]; auto.
    - apply Permutation_map, sort_perm.
  Qed.

  (** ** Tuples *)
  Lemma seq_eqb_key a b : Forall D a -> Forall D b -> (seq_eqb eqb a b = true <-> map k a = map k b).
  Proof.
    intros Fa. revert b. induction Fa as [|x a Dx Fa IH]; intros [|y b] Fb; simpl; try (split; congruence).
    inversion Fb as [|? ? Dy Fb']; subst. rewrite andb_true_iff, (o_eqb _ _ _ _ O x y), IH by auto. split; [intros [-> ->]; auto|].
    intros E. injection E as -> ->. auto.
  Qed.

  Lemma order_seq : order (Forall D) (map k) (seq_eqb eqb) (seq_lt eqb lt).
  Proof.
    split.
    - intros a b. apply seq_eqb_key.
    - intros a b Fa. revert b. induction Fa as [|x a Dx Fa IH]; intros [|y b] Fb; simpl; auto; try discriminate.
      inversion Fb as [|? ? Dy Fb']; subst. intros E. injection E as E1 E2.
      rewrite (proj2 (o_eqb _ _ _ _ O x y Dx Dy) E1). auto.
    - intros a b c Fa. revert b c. induction Fa as [|x a Dx Fa IH]; intros [|y b] [|z c] Fb Fc; simpl; auto; try discriminate.
      inversion Fb as [|? ? Dy Fb']; inversion Fc as [|? ? Dz Fc']; subst.
      destruct (eqb x y) eqn:E1, (eqb y z) eqn:E2; intros H1 H2.
      + apply (o_eqb _ _ _ _ O) in E1, E2; auto. assert (E3 : eqb x z = true) by (apply (o_eqb _ _ _ _ O); congruence). rewrite E3. eauto.
      + apply (o_eqb _ _ _ _ O) in E1; auto. apply o_neq in E2; auto.
        destruct (eqb x z) eqn:E3; [apply (o_eqb _ _ _ _ O) in E3; auto; congruence|].
        eapply o_compat_l with (a := y); auto.
      + apply (o_eqb _ _ _ _ O) in E2; auto. apply o_neq in E1; auto.
        destruct (eqb x z) eqn:E3; [apply (o_eqb _ _ _ _ O) in E3; auto; congruence|].
        eapply o_compat_r with (b := y); auto.
      + assert (L : lt x z = true) by (eapply (o_trans _ _ _ _ O) with (b := y); eauto).
        destruct (eqb x z) eqn:E3; auto. apply (o_eqb _ _ _ _ O) in E3; auto. rewrite (o_irr _ _ _ _ O) in L; auto. discriminate.
    - intros a b Fa. revert b. induction Fa as [|x a Dx Fa IH]; intros [|y b] Fb; simpl; auto; try congruence.
      inversion Fb as [|? ? Dy Fb']; subst. intros N. destruct (o_dec x y Dx Dy) as [E|E].
      + rewrite (proj2 (o_eqb _ _ _ _ O x y Dx Dy) E), (proj2 (o_eqb _ _ _ _ O y x Dy Dx) (eq_sym E)). apply IH; auto. congruence.
      + assert (E1 : eqb x y = false) by (destruct (eqb x y) eqn:X; auto; apply (o_eqb _ _ _ _ O) in X; auto; congruence).
        assert (E2 : eqb y x = false) by (destruct (eqb y x) eqn:X; auto; apply (o_eqb _ _ _ _ O) in X; auto; congruence).
        rewrite E1, E2. apply (o_total _ _ _ _ O); auto.
  Qed.
End Order.

(** Pairs compared like Python tuples. *)
Lemma order_pair {A K B L} {D : A -> Prop} {k : A -> K} {eqb lt : A -> A -> bool}
  {D' : B -> Prop} {l : B -> L} {eqb' lt' : B -> B -> bool} :
  order D k eqb lt -> order D' l eqb' lt' ->
  order (fun p => D (fst p) /\ D' (snd p)) (fun p => (k (fst p), l (snd p)))
    (fun p q => eqb (fst p) (fst q) && eqb' (snd p) (snd q))
    (fun p q => if eqb (fst p) (fst q) then lt' (snd p) (snd q) else lt (fst p) (fst q)).
Proof.
  intros O O'. split.
  - intros [a b] [c d] [H1 H2] [H3 H4]. simpl in *. rewrite andb_true_iff, (o_eqb _ _ _ _ O), (o_eqb _ _ _ _ O') by auto.
    split; [intros [-> ->]; auto|intros E; injection E; auto].
  - intros [a b] [c d] [H1 H2] [H3 H4] E. simpl in *. injection E as E1 E2.
    rewrite (proj2 (o_eqb _ _ _ _ O a c H1 H3) E1). apply (o_irr _ _ _ _ O'); auto.
  - intros [a b] [c d] [e f] [H1 H2] [H3 H4] [H5 H6]. simpl in *.
    destruct (eqb a c) eqn:E1, (eqb c e) eqn:E2; intros L1 L2.
    + apply (o_eqb _ _ _ _ O) in E1, E2; auto. assert (E3 : eqb a e = true) by (apply (o_eqb _ _ _ _ O); congruence).
      rewrite E3. eapply (o_trans _ _ _ _ O') with (b := d); auto.
    + apply (o_eqb _ _ _ _ O) in E1; auto. apply (o_neq O) in E2; auto.
      destruct (eqb a e) eqn:E3; [apply (o_eqb _ _ _ _ O) in E3; auto; congruence|]. eapply (o_compat_l O) with (a := c); auto.
    + apply (o_eqb _ _ _ _ O) in E2; auto. apply (o_neq O) in E1; auto.
      destruct (eqb a e) eqn:E3; [apply (o_eqb _ _ _ _ O) in E3; auto; congruence|]. eapply (o_compat_r O) with (b := c); auto.
    + assert (Lx : lt a e = true) by (eapply (o_trans _ _ _ _ O) with (b := c); eauto).
      destruct (eqb a e) eqn:E3; auto. apply (o_eqb _ _ _ _ O) in E3; auto. rewrite (o_irr _ _ _ _ O) in Lx; auto. discriminate.
  - intros [a b] [c d] [H1 H2] [H3 H4] N. simpl in *. destruct (o_dec O a c H1 H3) as [E|E].
    + rewrite (proj2 (o_eqb _ _ _ _ O a c H1 H3) E), (proj2 (o_eqb _ _ _ _ O c a H3 H1) (eq_sym E)).
      apply (o_total _ _ _ _ O'); auto. congruence.
    + assert (E1 : eqb a c = false) by (destruct (eqb a c) eqn:X; auto; apply (o_eqb _ _ _ _ O) in X; auto; congruence).
      assert (E2 : eqb c a = false) by (destruct (eqb c a) eqn:X; auto; apply (o_eqb _ _ _ _ O) in X; auto; congruence).
      rewrite E1, E2. apply (o_total _ _ _ _ O); auto.
Qed.

Lemma order_nat : order (fun _ => True) (fun n : nat => n) Nat.eqb Nat.ltb.
Proof.
  split; intros.
  - apply Nat.eqb_eq.
  - subst. apply Nat.ltb_irrefl.
  - rewrite Nat.ltb_lt in *. lia.
  - rewrite !Nat.ltb_lt. lia.
Qed.

(** Changing the domain and the key. *)
Lemma order_sub {A K} {D D' : A -> Prop} {k : A -> K} {eqb lt : A -> A -> bool} :
  order D k eqb lt -> (forall a, D' a -> D a) -> order D' k eqb lt.
Proof. intros [] H. split; intros; eauto. Qed.
Lemma order_key {A K L} {D : A -> Prop} {k : A -> K} {l : A -> L} {eqb lt : A -> A -> bool} :
  order D k eqb lt -> (forall a b, D a -> D b -> (k a = k b <-> l a = l b)) -> order D l eqb lt.
Proof.
  intros [] H. split; intros.
  - rewrite <- H by auto. auto.
  - apply o_irr0; auto. apply H; auto.
  - eauto.
  - apply o_total0; auto. intros X. apply H in X; auto.
Qed.
