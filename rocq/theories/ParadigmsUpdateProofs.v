(** Lemmas on update_morpheme_paradigm. *)
From Coq Require Import List String Ascii Bool NArith Arith Lia Permutation.
From Verif Require Import Base Script ScriptParser ScriptSpec ScriptWf ScriptCtorProofs ScriptParseProofs ScriptEqProofs ScriptMoreProofs ScriptSeqProofs TablesProofs TablesGridProofs UslProofs SortProofs Factor
  Dictionary DictionarySpec DictTableProofs DictLoadProofs DictTopProofs
  Database DatabaseSpec DatabaseProofs DatabaseRefine Git GitProofs Cache Transactions TransactionsProofs Properties3 Properties4 Properties6 Properties16 Paradigms ParadigmsSpec ParadigmsProofs ParadigmsDictProofs ParadigmsStepProofs.
Import ListNotations.
Local Open Scope string_scope.

(** ** Stripping twice *)
Lemma rstrip_twice sp s : rstrip sp (rstrip sp s) = rstrip sp s.
Proof.
  induction s as [|c s IH]; [reflexivity|]. cbn [rstrip]. destruct (rstrip sp s) as [|c' s'] eqn:E.
  - destruct (sp c) eqn:Ec; [reflexivity|]. cbn [rstrip]. rewrite Ec. reflexivity.
  - cbn [rstrip] in *. destruct (rstrip sp s') as [|c2 s2]; [destruct (sp c'); [discriminate|]|]; injection IH as <-; reflexivity.
Qed.
Lemma lstrip_rstrip sp c s : sp c = false -> lstrip sp (rstrip sp (String c s)) = rstrip sp (String c s).
Proof. intros E. cbn [rstrip]. destruct (rstrip sp s); [rewrite E|]; cbn [lstrip]; rewrite E; reflexivity. Qed.
Lemma lstrip_head sp s : lstrip sp s = "" \/ exists c r, lstrip sp s = String c r /\ sp c = false.
Proof. induction s as [|c s IH]; [left; reflexivity|]. cbn [lstrip]. destruct (sp c) eqn:E; [exact IH|]. right. eauto. Qed.
Lemma normalize_twice v : normalize_value (normalize_value v) = normalize_value v.
Proof.
  unfold normalize_value, strip. destruct (lstrip_head py_space v) as [->|(c & r & -> & E)]; [reflexivity|]. rewrite lstrip_rstrip by exact E. apply rstrip_twice.
Qed.

(** ** Sorting does not exchange what is not compared *)
Lemma filter_insert {A} (lt : A -> A -> bool) p x l : (forall y, p x = true -> p y = true -> lt y x = false) ->
  filter p (insert lt x l) = if p x then x :: filter p l else filter p l.
Proof.
  intros H. induction l as [|y l IH]; cbn [insert].
  - cbn. destruct (p x); reflexivity.
  - destruct (lt y x) eqn:E.
    + cbn [filter]. rewrite IH. destruct (p x) eqn:Px; [|reflexivity]. destruct (p y) eqn:Py; [|reflexivity]. rewrite H in E by auto. discriminate.
    + cbn [filter]. destruct (p x); reflexivity.
Qed.
Lemma filter_sort {A} (lt : A -> A -> bool) p l : (forall x y, p x = true -> p y = true -> lt y x = false) -> filter p (sort lt l) = filter p l.
Proof.
  intros H. induction l as [|x l IH]; [reflexivity|]. cbn [sort]. rewrite filter_insert by (intros; apply H; auto). rewrite IH. cbn [filter]. destruct (p x); reflexivity.
Qed.
Lemma row4_same i l c v w : row4_lt (i, l, c, v) (i, l, c, w) = false.
Proof. unfold row4_lt. rewrite !string_lt_irrefl, !String.eqb_refl. reflexivity. Qed.

(** ** What the records of a plain history are *)
Definition record_ok (x : drecord) : Prop :=
  let '(_, l, c, v) := x in In l LANGUAGES /\ In c DESCRIPTORS_CLASS /\ plain v /\ normalize_value v = v /\ v <> "" /\ ~ In v NA_VALUES.
Lemma records_ok parse ops : Forall (plain_op parse) ops -> Forall record_ok (fst (multimap parse ops)).
Proof.
  unfold multimap, spec_run. rewrite <- (rev_involutive ops). induction (rev ops) as [|o l IH]; intros H; [constructor|].
  cbn [rev] in *. apply Forall_app in H as [H Ho]. specialize (IH H). inversion_clear Ho as [|? ? [Hok Hp] _]. rewrite fold_left_app. cbn [fold_left].
  destruct (fold_left _ (rev l) _) as [D T]. cbn [fst] in IH.
  destruct o as [i ln d v|i ln d v|i k v|i k v]; cbn [spec_step].
  - destruct (parse i) as [n|]; [|exact IH]. destruct (mem ln LANGUAGES && mem d DESCRIPTORS_CLASS && negb (String.eqb (normalize_value v) ""))%bool eqn:E; [|exact IH].
    cbn [fst]. apply Forall_app. split; [exact IH|]. constructor; [|constructor]. apply andb_true_iff in E as [E E3]. apply andb_true_iff in E as [E1 E2].
    destruct Hp as [(P1 & P2 & P3) Hn]. split; [apply inb_In, E1|]. split; [apply inb_In, E2|]. split; [split; [|split]; intros O; eapply strip_sub in O; contradiction|]. split; [apply normalize_twice|]. split; [|exact Hn].
    apply negb_true_iff, String.eqb_neq in E3. exact E3.
  - destruct (parse i) as [n|]; [|exact IH]. cbn [fst]. rewrite Forall_forall in *. intros x Hx. apply filter_In in Hx. apply IH. tauto.
  - destruct (parse i) as [n|]; [|exact IH]. destruct (svalue k v); exact IH.
  - destruct (parse i) as [n|]; exact IH.
Qed.

Section Dict.
  Variable so : list script -> list script.
  Hypothesis SO : set_order so.
  Variable P : list string.
  Variable rows : list (string * string * string).
  Variable d : dictionary.
  Hypothesis Made : make_dictionary so P rows = Ok d.

  (** The root of a singular sequence is the root which has its word. *)
  Lemma word_root s l x q w : wf s -> ss s = Ok l -> In x l -> In q (d_root_scripts d) -> means x w -> means q w -> root_of d x = Some q.
  Proof.
    intros W El Hx Hq Xw Qw. pose proof (ss_sing s l x W El Hx) as (Wx & Cx & Lx). destruct (make_spec so SO _ _ _ Made) as (all & A).
    assert (Wq : wf q) by (pose proof (Wroots so _ _ _ _ A) as X; rewrite Forall_forall in X; auto).
    destruct (ss_total q Wq) as (lq & Eq & _). destruct (ss_find q lq w Wq Eq Qw) as (z & Hz & Zw & Sz).
    assert (Lq : layer x = layer q) by (eapply share_layer; eauto).
    destruct (C65_singular_sequences so SO P rows d Made q lq z Hq Eq Hz) as (m & Hm & Em).
    assert (Eyz : str z = str x). { apply (sing1_text (layer q)); [exact Sz|split; auto|]. destruct Sz as (Wz & Cz & _). apply wordof_means in Zw; auto. apply wordof_means in Xw; auto. congruence. }
    eapply root_of_total; eauto; [exists m; split; [exact Hm|congruence]|]. split; [exact Lq|]. intros w' Hw'. apply wordof_means in Hw'; auto. apply wordof_means in Xw; auto. congruence.
  Qed.
  Lemma roots_met_none s : wf s -> (roots_met d s = Ok [None] <-> forall q, In q (d_root_scripts d) -> disjoint s q).
  Proof.
    intros W. destruct (make_spec so SO _ _ _ Made) as (all & A). destruct (ss_total s W) as (l & El & _). unfold roots_met. rewrite El. cbn [bind]. split.
    - intros E q Hq w Sw Qw. apply Ok_inj in E. destruct (ss_find s l w W El Sw) as (x & Hx & Xw & _).
      pose proof (word_root s l x q w W El Hx Hq Xw Qw) as R. pose proof (dedup_all _ _ E (root_of d x) (in_map _ _ _ Hx)) as S. rewrite R in S. discriminate.
    - intros H. f_equal. apply dedup_same; [intros E; apply map_eq_nil in E; exact (ss_some s l W El E)|]. intros y Hy. apply in_map_iff in Hy as (x & <- & Hx).
      destruct (root_of d x) as [q|] eqn:R; [|reflexivity]. exfalso. pose proof (ss_sing s l x W El Hx) as (Wx & _). destruct (root_of_spec so SO _ _ _ _ A x q Wx R) as [Hq [_ I]].
      destruct (some_word x Wx) as [w Hw]. apply (H q Hq w); [eapply ss_word; eauto|apply I, Hw].
  Qed.
End Dict.
Lemma forallb_false {A} (p : A -> bool) l : forallb p l = false -> exists x, In x l /\ p x = false.
Proof. induction l as [|x l IH]; [discriminate|]. cbn [forallb]. intros H. apply andb_false_iff in H as [H|H]; [exists x; simpl; auto|]. destruct (IH H) as (y & Hy & E). exists y. simpl; auto. Qed.
Lemma svalue_twice k v w : svalue k v = Some w -> svalue k w = Some w.
Proof.
  unfold svalue, structure_value. destruct (String.eqb k "inhibition"); [destruct (mem v INHIBITABLE_RELATIONS) eqn:E; [intros [= <-]; rewrite E; reflexivity|discriminate]|].
  destruct (mem k _); [|discriminate]. destruct (json_bool v) as [[|]|]; [intros [= <-]; reflexivity|intros [= <-]; reflexivity|discriminate].
Qed.
Lemma structure_ok parse ops : Forall (fun x => svalue (snd (fst x)) (snd x) = Some (snd x)) (snd (multimap parse ops)).
Proof.
  unfold multimap, spec_run. rewrite <- (rev_involutive ops). induction (rev ops) as [|o l IH]; [constructor|].
  cbn [rev] in *. rewrite fold_left_app. cbn [fold_left]. destruct (fold_left _ (rev l) _) as [D T]. cbn [snd] in IH.
  destruct o as [i ln d v|i ln d v|i k v|i k v]; cbn [spec_step].
  - destruct (parse i) as [n|]; [|exact IH]. destruct (_ && _)%bool; exact IH.
  - destruct (parse i) as [n|]; exact IH.
  - destruct (parse i) as [n|]; [|exact IH]. destruct (svalue k v) as [w|] eqn:E; [|exact IH]. cbn [snd]. apply Forall_app. split; [exact IH|]. constructor; [|constructor]. cbn. eapply svalue_twice; eauto.
  - destruct (parse i) as [n|]; [|exact IH]. cbn [snd]. rewrite Forall_forall in *. intros x Hx. apply filter_In in Hx. apply IH. tauto.
Qed.
