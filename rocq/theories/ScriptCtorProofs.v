(** Constructors keep the invariant; sums are determined by the set of their terms. *)
From Coq Require Import List String Bool NArith Arith Lia Sorted Permutation.
From Verif Require Import Base Script ScriptParser SortProofs ScriptWf ScriptStrProofs ScriptOrderProofs ScriptSpec.
Import ListNotations.

(** Order facts in the shape the sorting lemmas expect. *)
Lemma lt_trans_nf a b c : nf a -> nf b -> nf c -> lt a b = true -> lt b c = true -> lt a c = true.
Proof. intros. eapply lt_trans with (b := b); eauto. Qed.
Lemma lt_irr a : lt a a = false.
Proof. apply lt_irrefl, script_eqb_refl. Qed.
Lemma lt_neg_trans a b c : nf a -> nf b -> nf c ->
  lt b a = false -> lt c b = false -> lt c a = false.
Proof.
  intros Ha Hb Hc H1 H2. destruct (lt c a) eqn:E; auto. exfalso.
  destruct (script_eqb a b) eqn:Eab.
  - rewrite (lt_eqb c a c b) in E; auto using script_eqb_refl. congruence.
  - destruct (lt_total a b Ha Hb Eab) as [L|L]; [|congruence].
    rewrite (lt_trans_nf c a b) in H2; auto. discriminate.
Qed.

Lemma isort_perm l : Permutation (isort l) l.
Proof. apply sort_perm. Qed.
Lemma isort_weak l : Forall nf l -> weak_sorted lt (isort l).
Proof.
  apply sort_sorted with (D := nf); auto using lt_irr.
  - intros. eapply lt_trans_nf with (b := b); eauto.
  - intros. eapply lt_neg_trans with (b := b); eauto.
Qed.
Lemma isort_strict l : Forall nf l -> ForallOrdPairs (fun x y => script_eqb x y = false) l ->
  sorted_lt (isort l).
Proof.
  intros F D. apply weak_strict; [|apply isort_weak; auto].
  assert (F' : Forall nf (isort l)) by (apply (Permutation_Forall (Permutation_sym (isort_perm l))); auto).
  apply FOP_impl with (R := fun x y => script_eqb x y = false).
  - rewrite Forall_forall in F'. intros x y Hx Hy E. apply lt_total; auto.
  - apply FOP_perm with (l := l); auto using Permutation_sym, isort_perm.
    intros; rewrite script_eqb_sym; auto.
Qed.

Lemma sorted_unique l1 l2 : Forall nf l1 -> Forall nf l2 -> sorted_lt l1 -> sorted_lt l2 ->
  (forall x, In x l1 <-> In x l2) -> l1 = l2.
Proof.
  apply strict_sorted_unique; auto using lt_irr.
  intros. eapply lt_trans_nf with (b := b); eauto.
Qed.

(** Multiplication. *)
Lemma child_ok_nullify c : wf c -> wf (nullify (unwrap c)) /\ child_ok (nullify (unwrap c)).
Proof.
  intros H.
  assert (U : nf (unwrap c)).
  { destruct c as [| | |cs]; try (apply nf_notadd; auto; fail).
    destruct cs as [|x [|y cs]]; simpl.
    - exfalso. simpl in H. tauto.
    - destruct (wf_add_in _ x H) as (? & ? & _); [left; auto|]. apply nf_notadd; auto.
    - split; auto. discriminate. }
  unfold nullify. destruct (is_empty (unwrap c)) eqn:E.
  - split.
    + simpl. apply nf_layer_le. apply U.
    + split; [reflexivity|discriminate].
  - split; [apply U|]. split; [congruence|apply U].
Qed.

Lemma layer_unwrap c : layer (unwrap c) = layer c.
Proof. destruct c as [| | |[|x [|y cs]]]; reflexivity. Qed.
Lemma layer_nullify c : layer (nullify c) = layer c.
Proof. unfold nullify. destruct (is_empty c); reflexivity. Qed.

Lemma mk_mul_l_inv cs s : mk_mul_l cs = Ok s ->
  exists a b c, s = Mul a b c /\
    (cs <> [] /\ List.length cs <= 3) /\
    let d := Null (layer (hd (Null 0) cs)) in
    a = nullify (unwrap (nth 0 cs d)) /\ b = nullify (unwrap (nth 1 cs d)) /\
    c = nullify (unwrap (nth 2 cs d)) /\
    layer a = layer b /\ layer b = layer c /\ S (layer a) <= MAX_LAYER /\
    (cardinal (Mul a b c) <= MAX_SINGULAR_SEQUENCES)%N.
Proof.
  unfold mk_mul_l.
  destruct cs as [|x [|y [|z [|w cs]]]]; cbn [map hd nth]; try discriminate.
  all: match goal with
       | |- context [negb (Nat.eqb ?a ?b && Nat.eqb ?b ?c)] =>
         destruct (Nat.eqb_spec a b) as [L1|L1]; [|discriminate];
         destruct (Nat.eqb_spec b c) as [L2|L2]; [|discriminate]
       end; cbn [andb negb].
  all: match goal with
       | |- context [N.ltb ?a ?b] => destruct (N.ltb_spec a b) as [C|C]; [discriminate|]
       end.
  all: match goal with
       | |- context [Nat.ltb ?a ?b] => destruct (Nat.ltb_spec a b) as [C6|C6]; [discriminate|]
       end.
  all: intros E; injection E as <-; do 3 eexists.
  all: split; [reflexivity|]; split; [split; [discriminate|simpl; lia]|].
  all: cbn [layer] in C6; repeat split; auto.
Qed.

Lemma mk_mul_l_wf cs s : (forall c, In c cs -> wf c) -> mk_mul_l cs = Ok s -> wf s.
Proof.
  intros F E. apply mk_mul_l_inv in E.
  destruct E as (a & b & c & -> & [NE L3] & Ea & Eb & Ec & L1 & L2 & L6 & C).
  set (d := Null (layer (hd (Null 0) cs))) in *.
  assert (Wd : wf d).
  { simpl. destruct cs as [|x cs]; [congruence|]. simpl. apply nf_layer_le. apply F. left; auto. }
  assert (G : forall i, wf (nth i cs d)).
  { intros i. destruct (nth_in_or_default i cs d) as [Hi| -> ]; auto. }
  destruct (child_ok_nullify _ (G 0)) as [Wa Ka]. rewrite <- Ea in Wa, Ka.
  destruct (child_ok_nullify _ (G 1)) as [Wb Kb]. rewrite <- Eb in Wb, Kb.
  destruct (child_ok_nullify _ (G 2)) as [Wc Kc]. rewrite <- Ec in Wc, Kc.
  cbn [wf]. repeat split; try tauto; try congruence; try apply Ka; try apply Kb; try apply Kc.
Qed.

Lemma until_none_in {A} (l : list (option A)) c : In c (until_none l) -> In (Some c) l.
Proof.
  induction l as [|[x|] l IH]; simpl; try tauto. intros [->|H]; auto.
Qed.

(** Sums. *)
Lemma flatten_in cs x : (forall c, In c cs -> wf c) -> In x (flatten cs) ->
  wf x /\ is_add x = false /\ exists c, In c cs /\ layer x = layer c.
Proof.
  intros F H. unfold flatten in H. apply dedup_in in H.
  apply filter_In in H. destruct H as [H R]. apply negb_true_iff in R.
  rewrite memb_false in R. apply in_app_or in H.
  destruct H as [H|H].
  - repeat split; eauto. destruct (is_add x) eqn:E; auto.
    exfalso. specialize (R x). rewrite script_eqb_refl in R. discriminate R.
    apply filter_In; auto.
  - apply in_flat_map in H. destruct H as (c & Hc & Hx).
    destruct c as [| | |ds]; simpl in Hx; try tauto.
    destruct (wf_add_in ds x (F _ Hc) Hx) as (? & ? & ?). repeat split; eauto.
Qed.

Lemma flatten_distinct cs : ForallOrdPairs (fun x y => script_eqb x y = false) (flatten cs).
Proof. apply dedup_distinct. intros; apply script_eqb_sym. Qed.

Lemma flatten_nf cs : (forall c, In c cs -> wf c) -> Forall nf (flatten cs).
Proof.
  intros F. apply Forall_forall. intros x Hx. destruct (flatten_in _ _ F Hx) as (? & ? & _).
  apply nf_notadd; auto.
Qed.

Lemma sumN_perm l l' : Permutation l l' -> sumN l = sumN l'.
Proof. unfold sumN. induction 1; simpl; try lia; congruence. Qed.

Lemma mk_add_inv so cs s : mk_add so cs = Ok s ->
  exists c0 r, cs = c0 :: r /\ (forall c, In c cs -> layer c = layer c0) /\
    so (flatten cs) <> [] /\ (sumN (map cardinal (so (flatten cs))) <= MAX_SINGULAR_SEQUENCES)%N /\
    s = Add (isort (so (flatten cs))).
Proof.
  unfold mk_add. destruct cs as [|c0 r]; [discriminate|].
  destruct (forallb (fun c => Nat.eqb (layer c) (layer c0)) (c0 :: r)) eqn:F; [|discriminate].
  cbn [negb]. set (fl := so (flatten (c0 :: r))).
  destruct fl as [|x fl'] eqn:Efl; [discriminate|]. rewrite <- Efl.
  destruct (N.ltb_spec MAX_SINGULAR_SEQUENCES (sumN (map cardinal fl))) as [C|C];
    [discriminate|].
  intros E. injection E as <-. exists c0, r.
  rewrite forallb_forall in F. repeat split; auto.
  - intros c Hc. apply Nat.eqb_eq. auto.
  - rewrite Efl; discriminate.
Qed.

Lemma mk_add_wf so cs s : set_order so -> (forall c, In c cs -> wf c) -> mk_add so cs = Ok s -> wf s.
Proof.
  intros SO F E. apply mk_add_inv in E.
  destruct E as (c0 & r & Ecs & L & NE & C & ->).
  set (fl := so (flatten cs)) in *.
  assert (P : Permutation fl (flatten cs)) by apply SO.
  assert (PI : Permutation (isort fl) (flatten cs)) by (eapply perm_trans; [apply isort_perm|auto]).
  assert (NFl : Forall nf fl) by (apply (Permutation_Forall (Permutation_sym P)); apply flatten_nf; auto).
  assert (IN : forall x, In x (isort fl) -> wf x /\ is_add x = false /\ layer x = layer c0).
  { intros x Hx. apply (Permutation_in _ PI) in Hx.
    destruct (flatten_in _ _ F Hx) as (? & ? & c & Hc & ?). repeat split; auto.
    rewrite <- (L c); auto. }
  cbn [wf]. repeat split.
  - intros X. apply NE. apply Permutation_nil. rewrite <- X. apply isort_perm.
  - apply fold_Forall. apply Forall_forall. intros x Hx. apply IN; auto.
  - intros x Hx. apply IN; auto.
  - intros x Hx. destruct (isort fl) as [|y l] eqn:El; [destruct Hx|].
    simpl. transitivity (layer c0); [apply IN; auto|symmetry; apply IN; left; auto].
  - apply isort_strict; auto.
    apply FOP_perm with (l := flatten cs); auto using Permutation_sym, flatten_distinct.
    intros; rewrite script_eqb_sym; auto.
  - cbn [cardinal]. rewrite (sumN_perm _ (map cardinal fl)); auto.
    apply Permutation_map, isort_perm.
Qed.

Lemma wf_letters v : Forall wf (map letter_script v).
Proof.
  apply Forall_forall. intros x Hx. apply in_map_iff in Hx.
  destruct Hx as ([p|] & <- & _); simpl; auto. unfold MAX_LAYER; lia.
Qed.

Lemma constructible_wf s : constructible s -> wf s.
Proof.
  induction 1 as [l s E|cs s _ IH E|ch s E|so cs s SO _ IH E|so ch s SO E].
  - unfold mk_null in E. destruct (Nat.leb_spec l MAX_LAYER); [|discriminate].
    injection E as <-. auto.
  - unfold mk_mul in E. eapply mk_mul_l_wf; [|exact E].
    intros c Hc. apply IH. apply until_none_in; auto.
  - unfold mk_mul_char in E.
    destruct (find _ [PU; PA; PS; PB; PT]); [injection E as <-; exact Logic.I|].
    destruct (String.eqb ch "E"); [discriminate|].
    destruct (find _ (list_prod _ _)) as [[p q]|]; [|discriminate].
    injection E as <-. simpl. unfold MAX_LAYER, MAX_SINGULAR_SEQUENCES.
    repeat split; auto; try lia; try discriminate.
  - eapply mk_add_wf; eauto.
  - unfold mk_add_char in E. destruct (find _ REMARKABLE_ADDITION) as [[k v]|]; [|discriminate].
    eapply mk_add_wf; [exact SO| |exact E].
    pose proof (wf_letters v) as F. rewrite Forall_forall in F. auto.
Qed.

Lemma regular_nf s : regular s -> nf s.
Proof.
  intros [H N]. split; [apply constructible_wf; auto|].
  intros x ->. apply N. exists x; auto.
Qed.

(** The set of terms of a sum, up to [norm]. *)
Definition in_terms (cs : list script) (n : script) : Prop :=
  exists c, In c cs /\ ((is_add c = false /\ norm c = n) \/
                        (exists d, In d (add_children c) /\ norm d = n)).

Lemma nf_add_neq ds d : nf (Add ds) -> wf d -> is_add d = false -> script_eqb d (Add ds) = false.
Proof.
  intros [H N] Hd A. destruct (script_eqb d (Add ds)) eqn:E; auto. exfalso.
  apply script_eqb_norm in E; auto.
  assert (X : is_add (norm d) = false) by (apply norm_notadd; auto).
  rewrite E in X. destruct ds as [|y [|z ds]]; simpl in X; try discriminate.
  apply (N y); auto.
Qed.

Lemma flatten_norm cs n : (forall c, In c cs -> nf c) ->
  ((exists x, In x (flatten cs) /\ norm x = n) <-> in_terms cs n).
Proof.
  intros F.
  assert (Fw : forall c, In c cs -> wf c) by (intros; apply F; auto).
  split.
  - intros (x & Hx & <-). unfold flatten in Hx. apply dedup_in in Hx.
    apply filter_In in Hx. destruct Hx as [H R]. apply negb_true_iff in R.
    rewrite memb_false in R. apply in_app_or in H.
    destruct H as [H|H].
    + exists x. split; auto. destruct (is_add x) eqn:E; auto.
      exfalso. specialize (R x). rewrite script_eqb_refl in R. discriminate R.
      apply filter_In; auto.
    + apply in_flat_map in H. destruct H as (c & Hc & Hx). exists c. split; eauto.
  - intros (c & Hc & D).
    assert (G : exists x, In x (cs ++ flat_map add_children cs) /\ wf x /\ is_add x = false /\ norm x = n).
    { destruct D as [[A E]|(d & Hd & E)].
      - exists c. repeat split; auto. apply in_or_app; auto.
      - exists d. destruct c as [| | |ds]; simpl in Hd; try tauto.
        destruct (wf_add_in ds d (Fw _ Hc) Hd) as (? & ? & _). repeat split; auto.
        apply in_or_app; right. apply in_flat_map. exists (Add ds). auto. }
    destruct G as (x & Hx & Wx & Ax & Nx).
    assert (K : In x (filter (fun c => negb (memb script_eqb c (filter is_add cs)))
                        (cs ++ flat_map add_children cs))).
    { apply filter_In. split; auto. apply negb_true_iff. apply memb_false.
      intros y Hy. apply filter_In in Hy. destruct Hy as [Hy Ay].
      destruct y as [| | |ds]; try discriminate. apply nf_add_neq; auto. }
    destruct (dedup_complete script_eqb script_eqb_refl _ _ K) as (y & Hy & E).
    exists y. split; [exact Hy|].
    assert (Wy : wf y) by (apply (flatten_in cs y Fw); exact Hy).
    apply script_eqb_norm in E; auto. congruence.
Qed.

(** The norms of the children of a sum. *)
Lemma mk_add_terms so cs s : set_order so -> (forall c, In c cs -> nf c) -> mk_add so cs = Ok s ->
  exists l, s = Add l /\ wf (Add l) /\ sorted_lt (map norm l) /\
  forall n, In n (map norm l) <-> in_terms cs n.
Proof.
  intros SO F E.
  assert (Fw : forall c, In c cs -> wf c) by (intros; apply F; auto).
  pose proof (mk_add_wf _ _ _ SO Fw E) as W.
  apply mk_add_inv in E. destruct E as (c0 & r & Ecs & L & NE & C & ->).
  exists (isort (so (flatten cs))). split; [reflexivity|]. split; [exact W|]. split; [|intros n; split].
  - apply sorted_norm.
    + pose proof (nf_kids _ W) as NK. simpl in NK. rewrite Forall_forall in *.
      intros c Hc o Ho. apply lt_norm; auto.
    + apply (nf_kids _ W).
    + simpl in W. tauto.
  - intros H. apply in_map_iff in H. destruct H as (x & Nx & Hx).
    apply flatten_norm; auto. exists x. split; auto.
    apply (Permutation_in _ (SO (flatten cs))). apply (Permutation_in _ (isort_perm _)). auto.
  - intros H. apply flatten_norm in H; auto. destruct H as (x & Hx & <-).
    apply in_map. apply (Permutation_in _ (Permutation_sym (isort_perm _))).
    apply (Permutation_in _ (Permutation_sym (SO _))). auto.
Qed.

Lemma map_norm_nf l : Forall nf l -> Forall nf (map norm l).
Proof.
  intros F. apply Forall_map. eapply Forall_impl; [|exact F]. apply nf_norm.
Qed.

(** Two sums with the same terms are equal. *)
Lemma add_norm_unique l l' : wf (Add l) -> wf (Add l') ->
  sorted_lt (map norm l) -> sorted_lt (map norm l') ->
  (forall n, In n (map norm l) <-> In n (map norm l')) -> map norm l = map norm l'.
Proof.
  intros W W' S S' E. apply sorted_unique; auto.
  - apply map_norm_nf. apply (nf_kids _ W).
  - apply map_norm_nf. apply (nf_kids _ W').
Qed.

Lemma distinct_norm_nodup l : (forall x, In x l -> wf x) ->
  ForallOrdPairs (fun x y => script_eqb x y = false) l -> NoDup (map norm l).
Proof.
  intros F D. induction D as [|x l Hx D IH]; simpl; constructor.
  - intros I. apply in_map_iff in I. destruct I as (y & E & Hy).
    rewrite Forall_forall in Hx. specialize (Hx y Hy).
    assert (script_eqb x y = true); [|congruence].
    apply script_eqb_norm; auto. apply F; left; auto. apply F; right; auto.
  - apply IH. intros; apply F; right; auto.
Qed.

Lemma flatten_norm_perm cs cs' : (forall c, In c cs -> nf c) -> (forall c, In c cs' -> nf c) ->
  (forall n, in_terms cs n <-> in_terms cs' n) ->
  Permutation (map norm (flatten cs)) (map norm (flatten cs')).
Proof.
  intros F F' E.
  assert (Fw : forall c, In c cs -> wf c) by (intros; apply F; auto).
  assert (Fw' : forall c, In c cs' -> wf c) by (intros; apply F'; auto).
  apply NoDup_Permutation.
  - apply distinct_norm_nodup; [|apply flatten_distinct]. intros x Hx. apply (flatten_in _ _ Fw Hx).
  - apply distinct_norm_nodup; [|apply flatten_distinct]. intros x Hx. apply (flatten_in _ _ Fw' Hx).
  - intros n. rewrite !in_map_iff.
    assert (X : (exists x, norm x = n /\ In x (flatten cs)) <-> in_terms cs n).
    { rewrite <- flatten_norm by auto. split; intros (x & ? & ?); exists x; tauto. }
    assert (X' : (exists x, norm x = n /\ In x (flatten cs')) <-> in_terms cs' n).
    { rewrite <- flatten_norm by auto. split; intros (x & ? & ?); exists x; tauto. }
    rewrite X, X'. apply E.
Qed.

Lemma map_cardinal_norm l : (forall x, In x l -> wf x) ->
  map cardinal (map norm l) = map cardinal l.
Proof. intros F. rewrite map_map. apply map_ext_in. intros; apply cardinal_norm; auto. Qed.

Lemma mk_add_ext so so' cs cs' : set_order so -> set_order so' ->
  (forall c, In c cs -> nf c) -> (forall c, In c cs' -> nf c) ->
  (forall n, In n (map norm cs) <-> In n (map norm cs')) ->
  same_result (mk_add so cs) (mk_add so' cs').
Proof.
  intros SO SO' F F' E.
  assert (Fw : forall c, In c cs -> wf c) by (intros; apply F; auto).
  assert (Fw' : forall c, In c cs' -> wf c) by (intros; apply F'; auto).
  (* a list holds only one object per norm for what matters here *)
  assert (Corr : forall c, In c cs -> exists c', In c' cs' /\ norm c = norm c').
  { intros c Hc. assert (I : In (norm c) (map norm cs')) by (apply E, in_map; auto).
    apply in_map_iff in I. destruct I as (c' & X & Hc'). exists c'; auto. }
  assert (Corr' : forall c, In c cs' -> exists c', In c' cs /\ norm c = norm c').
  { intros c Hc. assert (I : In (norm c) (map norm cs)) by (apply E, in_map; auto).
    apply in_map_iff in I. destruct I as (c' & X & Hc'). exists c'; auto. }
  assert (T1 : forall (l l' : list script), (forall c, In c l -> nf c) -> (forall c, In c l' -> nf c) ->
     (forall c, In c l -> exists c', In c' l' /\ norm c = norm c') ->
     forall n, in_terms l n -> in_terms l' n).
  { intros l l' Fl Fl' C n (c & Hc & D). destruct (C c Hc) as (c' & Hc' & X).
    exists c'. split; auto.
    assert (Nc := Fl c Hc). assert (Nc' := Fl' c' Hc').
    destruct (is_add c) eqn:A.
    - right. destruct D as [[D _]|(d & Hd & <-)]; [discriminate|].
      destruct c as [| | |ds]; try discriminate. simpl in Hd.
      assert (A' : is_add c' = true).
      { destruct (is_add c') eqn:A'; auto. exfalso.
        assert (script_eqb c' (Add ds) = true) by (apply script_eqb_norm; auto using nf_wf).
        rewrite nf_add_neq in H; auto using nf_wf. discriminate. }
      destruct c' as [| | |ds']; try discriminate. simpl.
      assert (M : map norm ds = map norm ds').
      { rewrite !norm_add in X. destruct Nc as [Wc Nc]. destruct Nc' as [Wc' Nc'].
        destruct ds as [|x [|y ds]]; [simpl in Wc; tauto|exfalso; apply (Nc x); auto|].
        destruct ds' as [|x' [|y' ds']]; [simpl in Wc'; tauto|exfalso; apply (Nc' x'); auto|].
        simpl in X. injection X as X1 X2 X3. simpl. congruence. }
      assert (I : In (norm d) (map norm ds')) by (rewrite <- M; apply in_map; auto).
      apply in_map_iff in I. destruct I as (d' & X' & Hd'). exists d'; auto.
    - left. destruct D as [[_ <-]|(d & Hd & _)].
      + split; auto. destruct (is_add c') eqn:A'; auto. exfalso.
        destruct c' as [| | |ds']; try discriminate.
        assert (script_eqb c (Add ds') = true) by (apply script_eqb_norm; auto using nf_wf).
        rewrite nf_add_neq in H; auto using nf_wf. discriminate.
      + exfalso. destruct c; simpl in *; try tauto; discriminate. }
  assert (T : forall n, in_terms cs n <-> in_terms cs' n).
  { intros n; split; apply T1; auto. }
  pose proof (flatten_norm_perm cs cs' F F' T) as PF.
  assert (FW : forall x, In x (flatten cs) -> wf x) by (intros x Hx; apply (flatten_in _ _ Fw Hx)).
  assert (FW' : forall x, In x (flatten cs') -> wf x) by (intros x Hx; apply (flatten_in _ _ Fw' Hx)).
  assert (Sum : sumN (map cardinal (so (flatten cs))) = sumN (map cardinal (so' (flatten cs')))).
  { rewrite (sumN_perm _ (map cardinal (flatten cs))) by (apply Permutation_map, SO).
    rewrite (sumN_perm (map cardinal (so' (flatten cs'))) (map cardinal (flatten cs')))
      by (apply Permutation_map, SO').
    rewrite <- (map_cardinal_norm (flatten cs)), <- (map_cardinal_norm (flatten cs')) by auto.
    apply sumN_perm, Permutation_map, PF. }
  assert (Lay : forall c0 r c0' r', cs = c0 :: r -> cs' = c0' :: r' ->
     forallb (fun c => Nat.eqb (layer c) (layer c0)) cs =
     forallb (fun c => Nat.eqb (layer c) (layer c0')) cs').
  { assert (G : forall c0 r c0' r' (l l' : list script), l = c0 :: r -> l' = c0' :: r' ->
      (forall c, In c l -> wf c) -> (forall c, In c l' -> wf c) ->
      (forall c, In c l' -> exists c', In c' l /\ norm c = norm c') ->
      forallb (fun c => Nat.eqb (layer c) (layer c0)) l = true ->
      forallb (fun c => Nat.eqb (layer c) (layer c0')) l' = true).
    { intros c0 r c0' r' l l' -> -> Wl Wl' C H. rewrite forallb_forall in *.
      assert (G : forall c, In c (c0' :: r') -> layer c = layer c0).
      { intros c Hc. destruct (C c Hc) as (c' & Hc' & X).
        rewrite <- (layer_norm c), X, (layer_norm c') by auto.
        apply Nat.eqb_eq. apply H; auto. }
      intros c Hc. apply Nat.eqb_eq. rewrite (G c Hc). symmetry. apply G. left; auto. }
    intros c0 r c0' r' E1 E2.
    destruct (forallb (fun c => Nat.eqb (layer c) (layer c0)) cs) eqn:B1.
    - symmetry. eapply G with (l := cs) (l' := cs'); eauto.
    - destruct (forallb (fun c => Nat.eqb (layer c) (layer c0')) cs') eqn:B2; auto.
      rewrite (G c0' r' c0 r cs' cs) in B1; auto. }
  unfold mk_add.
  destruct cs as [|c0 r].
  { destruct cs' as [|c0' r']; [reflexivity|]. exfalso.
    destruct (Corr' c0') as (? & [] & _). left; auto. }
  destruct cs' as [|c0' r'].
  { exfalso. destruct (Corr c0) as (? & [] & _). left; auto. }
  rewrite (Lay c0 r c0' r') by auto.
  destruct (forallb (fun c => Nat.eqb (layer c) (layer c0')) (c0' :: r')) eqn:B;
    cbn [negb]; [|reflexivity].
  rewrite Sum.
  assert (Len : List.length (so (flatten (c0 :: r))) = List.length (so' (flatten (c0' :: r')))).
  { rewrite (Permutation_length (SO _)), (Permutation_length (SO' _)).
    rewrite <- (map_length norm (flatten (c0 :: r))), <- (map_length norm (flatten (c0' :: r'))).
    apply Permutation_length; auto. }
  destruct (so (flatten (c0 :: r))) as [|x fl] eqn:Efl;
  destruct (so' (flatten (c0' :: r'))) as [|x' fl'] eqn:Efl'; try discriminate; [reflexivity|].
  rewrite <- Efl, <- Efl' in *.
  destruct (N.ltb MAX_SINGULAR_SEQUENCES (sumN (map cardinal (so' (flatten (c0' :: r')))))) eqn:C;
    [reflexivity|].
  assert (E1 : mk_add so (c0 :: r) = Ok (Add (isort (so (flatten (c0 :: r)))))).
  { unfold mk_add. rewrite (Lay c0 r c0' r'), B by auto. cbn [negb].
    rewrite Sum, C. rewrite Efl at 1. reflexivity. }
  assert (E2 : mk_add so' (c0' :: r') = Ok (Add (isort (so' (flatten (c0' :: r')))))).
  { unfold mk_add. rewrite B. cbn [negb]. rewrite C. rewrite Efl' at 1. reflexivity. }
  destruct (mk_add_terms _ _ _ SO F E1) as (l & X & W & S & I). injection X as <-.
  destruct (mk_add_terms _ _ _ SO' F' E2) as (l' & X & W' & S' & I'). injection X as <-.
  simpl. apply script_eqb_eq. apply script_eqb_norm; auto. rewrite !norm_add. f_equal.
  apply add_norm_unique; auto. intros n. rewrite I, I'. auto.
Qed.

Lemma str_norm_in cs cs' : (forall c, In c cs -> wf c) -> (forall c, In c cs' -> wf c) ->
  (forall x, In x (map str cs) <-> In x (map str cs')) ->
  forall n, In n (map norm cs) <-> In n (map norm cs').
Proof.
  assert (G : forall l l', (forall c, In c l -> wf c) -> (forall c, In c l' -> wf c) ->
    (forall x, In x (map str l) -> In x (map str l')) ->
    forall n, In n (map norm l) -> In n (map norm l')).
  { intros l l' W W' E n H. apply in_map_iff in H. destruct H as (c & <- & Hc).
    assert (I : In (str c) (map str l')) by (apply E, in_map; auto).
    apply in_map_iff in I. destruct I as (c' & X & Hc'). apply in_map_iff.
    exists c'. split; auto. apply str_inj_norm; auto. }
  intros W W' E n. split; apply G; auto; intros; apply E; auto.
Qed.

(** The iteration order of the set has no influence at all. *)
Lemma mk_add_order so so' cs : set_order so -> set_order so' -> (forall c, In c cs -> wf c) ->
  mk_add so cs = mk_add so' cs.
Proof.
  intros SO SO' F. unfold mk_add. destruct cs as [|c0 r]; auto.
  destruct (forallb _ (c0 :: r)); cbn [negb]; auto.
  set (fl := flatten (c0 :: r)).
  assert (P : Permutation (so fl) (so' fl)).
  { eapply perm_trans; [apply SO|apply Permutation_sym, SO']. }
  assert (Sum : sumN (map cardinal (so fl)) = sumN (map cardinal (so' fl))).
  { apply sumN_perm, Permutation_map; auto. }
  assert (NFl : Forall nf fl) by (apply flatten_nf; auto).
  assert (NF1 : Forall nf (so fl)) by (apply (Permutation_Forall (Permutation_sym (SO fl))); auto).
  assert (NF2 : Forall nf (so' fl)) by (apply (Permutation_Forall (Permutation_sym (SO' fl))); auto).
  assert (D1 : ForallOrdPairs (fun x y => script_eqb x y = false) (so fl)).
  { apply FOP_perm with (l := fl); auto using Permutation_sym, flatten_distinct.
    intros; rewrite script_eqb_sym; auto. apply flatten_distinct. }
  assert (D2 : ForallOrdPairs (fun x y => script_eqb x y = false) (so' fl)).
  { apply FOP_perm with (l := fl); auto using Permutation_sym, flatten_distinct.
    intros; rewrite script_eqb_sym; auto. apply flatten_distinct. }
  assert (E : isort (so fl) = isort (so' fl)).
  { apply sorted_unique; try apply isort_strict; auto.
    - apply (Permutation_Forall (Permutation_sym (isort_perm _))); auto.
    - apply (Permutation_Forall (Permutation_sym (isort_perm _))); auto.
    - intros x. assert (PP : Permutation (isort (so fl)) (isort (so' fl))).
      { eapply perm_trans; [apply isort_perm|]. eapply perm_trans; [exact P|].
        apply Permutation_sym, isort_perm. }
      split; apply Permutation_in; auto using Permutation_sym. }
  rewrite Sum, E. destruct (so fl), (so' fl); auto.
  - apply Permutation_nil in P. discriminate.
  - apply Permutation_sym, Permutation_nil in P. discriminate.
Qed.
