(** The invariant kept by every script constructor, and the normal form of a script
    (one-term sums and empty multiplications replaced by what they stand for). *)
From Coq Require Import List String Bool NArith Arith Lia Sorted.
From Verif Require Import Base Script.
Import ListNotations.

Section Ind.
  Variable Q : script -> Prop.
  Hypothesis HN : forall l, Q (Null l).
  Hypothesis HP : forall p, Q (Prim p).
  Hypothesis HM : forall a b c, Q a -> Q b -> Q c -> Q (Mul a b c).
  Hypothesis HA : forall cs, Forall Q cs -> Q (Add cs).
  Fixpoint script_ind' (s : script) : Q s :=
    match s with
    | Null l => HN l
    | Prim p => HP p
    | Mul a b c => HM a b c (script_ind' a) (script_ind' b) (script_ind' c)
    | Add cs => HA cs ((fix go (l : list script) : Forall Q l :=
                          match l with
                          | [] => Forall_nil _
                          | x :: r => Forall_cons x (script_ind' x) (go r)
                          end) cs)
    end.
End Ind.

(** What a child of a multiplication looks like. *)
Definition child_ok (c : script) : Prop :=
  (is_empty c = true -> c = Null (layer c)) /\ (forall x, c <> Add [x]).

Definition sorted_lt (l : list script) : Prop := StronglySorted (fun x y => lt x y = true) l.

Fixpoint wf (s : script) : Prop :=
  match s with
  | Null l => l <= MAX_LAYER
  | Prim _ => True
  | Mul a b c =>
    wf a /\ wf b /\ wf c /\ child_ok a /\ child_ok b /\ child_ok c /\
    layer b = layer a /\ layer c = layer a /\ layer a < MAX_LAYER /\
    (cardinal (Mul a b c) <= MAX_SINGULAR_SEQUENCES)%N
  | Add cs =>
    cs <> [] /\ fold_right (fun c Q => wf c /\ Q) True cs /\
    (forall c, In c cs -> is_add c = false) /\
    (forall c, In c cs -> layer c = layer (Add cs)) /\
    sorted_lt cs /\ (cardinal (Add cs) <= MAX_SINGULAR_SEQUENCES)%N
  end.

Fixpoint norm (s : script) : script :=
  match s with
  | Null l => Null l
  | Prim p => Prim p
  | Mul a b c =>
    if is_empty a && is_empty b && is_empty c then Null (S (layer a))
    else Mul (norm a) (norm b) (norm c)
  | Add cs => match map norm cs with [x] => x | l => Add l end
  end.

Lemma fold_Forall {A} (Q : A -> Prop) l :
  fold_right (fun c R => Q c /\ R) True l <-> Forall Q l.
Proof.
  induction l; simpl; split; intros; auto.
  - constructor; tauto.
  - inversion H; subst; tauto.
Qed.

Lemma wf_add_children cs : wf (Add cs) -> Forall wf cs.
Proof. simpl. intros (_ & H & _). apply fold_Forall; auto. Qed.

Lemma wf_add_in cs c : wf (Add cs) -> In c cs -> wf c /\ is_add c = false /\ layer c = layer (Add cs).
Proof.
  intros H Hc. pose proof (wf_add_children _ H) as F. rewrite Forall_forall in F.
  simpl in H. destruct H as (_ & _ & H1 & H2 & _). repeat split; auto.
Qed.

Lemma wf_mul_inv a b c : wf (Mul a b c) ->
  wf a /\ wf b /\ wf c /\ child_ok a /\ child_ok b /\ child_ok c /\
  layer b = layer a /\ layer c = layer a /\ layer a < MAX_LAYER /\
  (cardinal (Mul a b c) <= MAX_SINGULAR_SEQUENCES)%N.
Proof. auto. Qed.

(** Sublists of a list. *)
Fixpoint sublists {A} (l : list A) : list (list A) :=
  match l with
  | [] => [[]]
  | x :: r => map (cons x) (sublists r) ++ sublists r
  end.

Lemma nil_sublists {A} (l : list A) : In [] (sublists l).
Proof. induction l; simpl; auto. apply in_or_app; auto. Qed.

Lemma sorted_sublist {A} (R : A -> A -> Prop) (u : list A) :
  ForallOrdPairs (fun x y => ~ R y x) u -> (forall x, In x u -> ~ R x x) ->
  forall cs, StronglySorted R cs -> (forall c, In c cs -> In c u) -> In cs (sublists u).
Proof.
  induction 1 as [|x u Hx Hu IH]; intros Irr cs Hs Hin.
  - destruct cs as [|c cs]; simpl; auto. exfalso. apply (Hin c). left; auto.
  - destruct cs as [|c cs]; [apply nil_sublists|].
    inversion Hs as [|? ? Hs' Hc]; subst.
    rewrite Forall_forall in Hc, Hx. simpl. apply in_or_app.
    destruct (Hin c (or_introl eq_refl)) as [->|Hcu].
    + left. apply in_map. apply IH; auto.
      { intros; apply Irr; right; auto. }
      intros d Hd. destruct (Hin d (or_intror Hd)) as [E|E]; auto.
      subst d. exfalso. eapply Irr; [left; reflexivity|]. auto.
    + right. apply IH; auto.
      { intros; apply Irr; right; auto. }
      intros d [<-|Hd]; auto.
      destruct (Hin d (or_intror Hd)) as [E|E]; auto. subst d.
      exfalso. apply (Hx c Hcu). auto.
Qed.

Definition U6 : list script := [Null 0; Prim PU; Prim PA; Prim PS; Prim PB; Prim PT].

Lemma layer0_U6 c : is_add c = false -> layer c = 0 -> In c U6.
Proof.
  destruct c as [l|p| |]; simpl; intros H1 H2; try discriminate.
  - subst; auto.
  - destruct p; tauto.
Qed.

Lemma layer0_sublist cs : wf (Add cs) -> layer (Add cs) = 0 -> In cs (sublists U6).
Proof.
  intros H L. apply sorted_sublist with (R := fun x y => lt x y = true).
  - repeat constructor; try (vm_compute; discriminate).
  - intros x Hx. simpl in Hx.
    repeat (destruct Hx as [<-|Hx]; [vm_compute; discriminate|]). destruct Hx.
  - simpl in H. tauto.
  - intros c Hc. destruct (wf_add_in _ _ H Hc) as (H1 & H2 & H3).
    apply layer0_U6; auto. congruence.
Qed.

(** A property of layer 0 sums is checked on the 64 sublists. *)
Lemma layer0_check (f : list script -> bool) :
  forallb f (sublists U6) = true ->
  forall cs, wf (Add cs) -> layer (Add cs) = 0 -> f cs = true.
Proof.
  intros F cs H L. rewrite forallb_forall in F. apply F. apply layer0_sublist; auto.
Qed.

Lemma bytes_eqb_eq a b : bytes_eqb a b = true <-> a = b.
Proof.
  revert b; induction a as [|x a IH]; intros [|y b]; simpl; split; intros; try discriminate; auto.
  - rewrite andb_true_iff, N.eqb_eq, IH in H. destruct H; subst; auto.
  - inversion H; subst. rewrite N.eqb_refl. simpl. apply IH; auto.
Qed.

Lemma layer_norm s : wf s -> layer (norm s) = layer s.
Proof.
  induction s as [l|p|a b c IHa IHb IHc|cs IH] using script_ind'; intros H; auto.
  - apply wf_mul_inv in H. simpl.
    destruct (is_empty a && is_empty b && is_empty c); simpl; auto.
    rewrite IHa; tauto.
  - pose proof (wf_add_children _ H) as F.
    destruct cs as [|c cs]; auto.
    inversion IH; inversion F; subst. simpl.
    destruct (map norm cs); simpl; auto.
Qed.

Lemma empty_norm s : is_empty (norm s) = is_empty s.
Proof.
  induction s as [l|p|a b c IHa IHb IHc|cs IH] using script_ind'; auto.
  - simpl. destruct (is_empty a && is_empty b && is_empty c) eqn:E; simpl; auto.
    rewrite IHa, IHb, IHc. auto.
  - simpl. assert (E : forallb is_empty (map norm cs) = forallb is_empty cs).
    { induction IH; simpl; auto. rewrite H, IHIH. auto. }
    destruct (map norm cs) as [|x [|y l]]; simpl in *; auto.
    rewrite <- E. rewrite andb_true_r. auto.
Qed.

Lemma empty_cardinal s : wf s -> is_empty s = true -> is_add s = false -> cardinal s = 1%N.
Proof.
  destruct s as [l|p|a b c|cs]; intros H E A; auto; try discriminate.
  apply wf_mul_inv in H. destruct H as (_ & _ & _ & Ha & Hb & Hc & _).
  simpl in E. rewrite !andb_true_iff in E. destruct E as [[Ea Eb] Ec].
  rewrite (proj1 Ha Ea), (proj1 Hb Eb), (proj1 Hc Ec). reflexivity.
Qed.

Lemma sumN_map_ext (f g : script -> N) l :
  (forall x, In x l -> f x = g x) -> sumN (map f l) = sumN (map g l).
Proof. induction l; simpl; intros; auto. rewrite H, IHl; auto. Qed.

Lemma cardinal_norm s : wf s -> cardinal (norm s) = cardinal s.
Proof.
  induction s as [l|p|a b c IHa IHb IHc|cs IH] using script_ind'; intros H; auto.
  - pose proof H as H'. apply wf_mul_inv in H. cbn [norm].
    destruct (is_empty a && is_empty b && is_empty c) eqn:E.
    + symmetry. rewrite empty_cardinal; auto.
    + simpl. rewrite IHa, IHb, IHc; tauto.
  - pose proof (wf_add_children _ H) as F. rewrite Forall_forall in F, IH.
    assert (E : sumN (map cardinal (map norm cs)) = sumN (map cardinal cs)).
    { rewrite map_map. apply sumN_map_ext. auto. }
    simpl. rewrite <- E. destruct (map norm cs) as [|x [|y l]]; auto.
    simpl. rewrite N.add_0_r. auto.
Qed.

Lemma empty_canonical s : wf s -> is_empty s = true -> is_add s = false ->
  canonical s = canonical (Null (layer s)).
Proof.
  destruct s as [l|p|a b c|cs]; intros H E A; auto; try discriminate.
  apply wf_mul_inv in H. destruct H as (_ & _ & _ & Ha & Hb & Hc & Lb & Lc & _).
  simpl in E. rewrite !andb_true_iff in E. destruct E as [[Ea Eb] Ec].
  rewrite (proj1 Ha Ea), (proj1 Hb Eb), (proj1 Hc Ec). rewrite Lb, Lc.
  cbn [canonical layer]. rewrite <- !repeat_app. f_equal. simpl. lia.
Qed.

Lemma canonical_norm s : wf s -> canonical (norm s) = canonical s.
Proof.
  induction s as [l|p|a b c IHa IHb IHc|cs IH] using script_ind'; intros H; auto.
  - pose proof H as H'. apply wf_mul_inv in H. cbn [norm].
    destruct (is_empty a && is_empty b && is_empty c) eqn:E.
    + symmetry. change (S (layer a)) with (layer (Mul a b c)).
      apply empty_canonical; auto.
    + simpl. rewrite IHa, IHb, IHc; tauto.
  - pose proof (wf_add_children _ H) as F.
    destruct (Nat.eq_dec (layer (Add cs)) 0) as [L|L].
    + assert (C : bytes_eqb (canonical (norm (Add cs))) (canonical (Add cs))
                  || match cs with [] => true | _ => false end = true).
      { apply (layer0_check (fun cs => bytes_eqb (canonical (norm (Add cs))) (canonical (Add cs))
                  || match cs with [] => true | _ => false end)); auto. }
      destruct cs; [simpl in H; tauto|]. rewrite orb_false_r in C.
      apply bytes_eqb_eq; auto.
    + assert (E : map canonical (map norm cs) = map canonical cs).
      { rewrite map_map. apply map_ext_in. rewrite Forall_forall in F, IH. auto. }
      pose proof (layer_norm _ H) as LN.
      destruct cs as [|c0 cs0]; [simpl in H; tauto|].
      set (cs := c0 :: cs0) in *.
      assert (NE : map norm cs <> []) by discriminate.
      transitivity (List.concat (map canonical (map norm cs))).
      * change (norm (Add cs)) with (match map norm cs with [x] => x | l => Add l end) in *.
        destruct (map norm cs) as [|x [|y l]]; [congruence| |].
        { simpl. rewrite app_nil_r; auto. }
        cbn [canonical]. rewrite LN. destruct (Nat.eqb_spec (layer (Add cs)) 0); [lia|auto].
      * rewrite E. cbn [canonical]. destruct (Nat.eqb_spec (layer (Add cs)) 0); [lia|auto].
Qed.

Lemma paradigm_norm s : wf s -> paradigm (norm s) = paradigm s.
Proof.
  induction s as [l|p|a b c IHa IHb IHc|cs IH] using script_ind'; intros H; auto.
  - pose proof H as H'. apply wf_mul_inv in H. cbn [norm].
    destruct (is_empty a && is_empty b && is_empty c) eqn:E.
    + destruct H as (_ & _ & _ & Ha & Hb & Hc & _).
      rewrite !andb_true_iff in E. destruct E as [[Ea Eb] Ec].
      simpl. rewrite (proj1 Ha Ea), (proj1 Hb Eb), (proj1 Hc Ec). reflexivity.
    + simpl. rewrite IHa, IHb, IHc; tauto.
  - pose proof (wf_add_children _ H) as F. rewrite Forall_forall in F, IH.
    assert (E : existsb paradigm (map norm cs) = existsb paradigm cs).
    { clear H. induction cs; simpl; auto. rewrite IH by (simpl; auto using in_eq).
      rewrite IHcs; auto. intros; apply IH; simpl; auto. intros; apply F; simpl; auto. }
    assert (E2 : List.length (map norm cs) = List.length cs) by apply map_length.
    simpl. rewrite <- E, <- E2. destruct (map norm cs) as [|x [|y l]]; auto.
    simpl. rewrite orb_false_r. auto.
Qed.

Lemma class_norm s : wf s -> script_class (norm s) = script_class s.
Proof.
  induction s as [l|p|a b c IHa IHb IHc|cs IH] using script_ind'; intros H; auto.
  - pose proof H as H'. apply wf_mul_inv in H. cbn [norm].
    destruct (is_empty a && is_empty b && is_empty c) eqn:E.
    + destruct H as (_ & _ & _ & Ha & Hb & Hc & _).
      rewrite !andb_true_iff in E. destruct E as [[Ea Eb] Ec].
      simpl. rewrite (proj1 Ha Ea). reflexivity.
    + simpl. rewrite IHa; tauto.
  - pose proof (wf_add_children _ H) as F. rewrite Forall_forall in F, IH.
    assert (E : map script_class (map norm cs) = map script_class cs).
    { rewrite map_map. apply map_ext_in. auto. }
    simpl. rewrite <- E. destruct (map norm cs) as [|x [|y l]]; auto.
    simpl. rewrite Nat.max_0_r. auto.
Qed.
