(** Properties of scripts: C01-C09, C12-C14. Each theorem is followed by what
    [Print Assumptions] says of it and by a concrete case of its hypotheses. *)
From Coq Require Import List String Bool NArith Arith Lia Sorted Permutation.
From Verif Require Import Base Script ScriptParser ScriptGrammar ScriptGrammarProofs SortProofs ScriptWf ScriptStrProofs ScriptOrderProofs ScriptSpec ScriptCtorProofs ScriptParseProofs ScriptSeqProofs ScriptMoreProofs ScriptAlgProofs ScriptEqProofs ScriptErrProofs.
Import ListNotations.
Local Open Scope string_scope.

(** Concrete scripts used in the examples. *)
Definition ident (l : list script) : list script := l.
Definition text (t : string) : script := match parse ident t with Ok s => s | Err _ => Null 0 end.
Lemma text_ok t : (exists s, parse ident t = Ok s) -> constructible (text t).
Proof.
  intros [s E]. unfold text. rewrite E. apply (parse_constructible ident) with t; auto. apply set_order_id.
Qed.
Lemma text_reg t : (exists s, parse ident t = Ok s /\ match s with Add [_] => false | _ => true end = true) ->
  regular (text t).
Proof.
  intros (s & E & H). split; [apply text_ok; eauto|]. unfold text. rewrite E. intros [x ->]. discriminate.
Qed.
Ltac show t := let v := eval vm_compute in (text t) in change (text t) with v.
Ltac text_ok := apply text_ok; eexists; vm_compute; reflexivity.
Ltac text_reg := apply text_reg; eexists; split; vm_compute; reflexivity.

(** * C01 *)
Definition exactly_one (p q r : Prop) : Prop :=
  (p /\ ~ q /\ ~ r) \/ (~ p /\ q /\ ~ r) \/ (~ p /\ ~ q /\ r).

Theorem C01_order_is_strict_and_total : forall a b c, regular a -> regular b -> regular c ->
  lt a a = false /\
  (lt a b = true -> lt b c = true -> lt a c = true) /\
  exactly_one (lt a b = true) (script_eq a b) (lt b a = true).
Proof.
  intros a b c Ha Hb Hc. apply regular_nf in Ha, Hb, Hc.
  split; [apply lt_irr|]. split; [intros; eapply lt_trans_nf with (b := b); eauto|].
  unfold exactly_one, script_eq. destruct (script_eqb a b) eqn:E.
  - right; left. rewrite (lt_irrefl a b E). rewrite script_eqb_sym in E. rewrite (lt_irrefl b a E).
    rewrite script_eqb_sym, script_eqb_eq in E. split; [discriminate|]. split; [auto|discriminate].
  - assert (X : str a <> str b).
    { intros X. apply script_eqb_eq in X. congruence. }
    destruct (lt_total a b Ha Hb E) as [L|L].
    + left. rewrite (lt_asym a b) by auto. auto.
    + right; right. rewrite (lt_asym b a) by auto. split; [discriminate|auto].
Qed.
Print Assumptions C01_order_is_strict_and_total.

Theorem C01_order_respects_equality : forall a b a' b', regular a -> regular b -> regular a' -> regular b' ->
  script_eq a a' -> script_eq b b' -> lt a b = lt a' b'.
Proof.
  intros a b a' b' Ha Hb Ha' Hb' E E'. apply lt_eqb; try (apply regular_nf; auto); apply script_eqb_eq; auto.
Qed.
Print Assumptions C01_order_respects_equality.

(** Scripts whose six criteria up to the canonical bytes agree. *)
Example C01_case : regular (text "wa.+we.b.-") /\ regular (text "wa.we.+b.-") /\ regular (text "M:O:.") /\
  cardinal (text "wa.+we.b.-") = cardinal (text "wa.we.+b.-") /\
  lt (text "wa.we.+b.-") (text "wa.+we.b.-") = true.
Proof. split; [text_reg|]. split; [text_reg|]. split; [text_reg|]. split; vm_compute; reflexivity. Qed.

(** The restriction to regular scripts is needed: a one-term sum is == to its term but
    is ordered differently. *)
Theorem C01_one_term_sums_refuted : exists a a' c, constructible a /\ constructible a' /\ constructible c /\
  script_eq a a' /\ lt a c = true /\ lt c a = false /\ lt c a' = true.
Proof.
  exists (text "wa.we.+b.-"), (Add [text "wa.we.+b.-"]), (text "wa.+we.b.-").
  split; [text_ok|]. split.
  - apply (c_add ident [text "wa.we.+b.-"]).
    + apply set_order_id.
    + intros c [<-|[]]. text_ok.
    + vm_compute. reflexivity.
  - split; [text_ok|]. vm_compute. repeat split.
Qed.
Print Assumptions C01_one_term_sums_refuted.

(** * C02 *)
Theorem C02_string_identifies_script : forall a b, constructible a -> constructible b ->
  (script_eq a b <-> same_script a b).
Proof. intros a b Ha Hb. apply str_same; apply constructible_wf; auto. Qed.
Print Assumptions C02_string_identifies_script.

Theorem C02_equal_scripts_have_equal_attributes : forall a b, constructible a -> constructible b ->
  script_eq a b -> same_attributes a b /\ same_meaning a b.
Proof. intros a b Ha Hb. apply eq_attributes; apply constructible_wf; auto. Qed.
Print Assumptions C02_equal_scripts_have_equal_attributes.

Example C02_case : constructible (text "O:M:.+M:O:.") /\ constructible (text "E:.b.-") /\
  script_eq (text "E:.b.-") (text "E:E:.b.-") /\ ~ script_eq (text "O:M:.+M:O:.") (text "E:.b.-").
Proof. split; [text_ok|]. split; [text_ok|]. split; [vm_compute; reflexivity|vm_compute; discriminate]. Qed.

(** * C03 *)
Theorem C03_parse_of_printed_script : forall so s, set_order so -> constructible s ->
  exists r ls lr, parse so (str s) = Ok r /\ script_eq r s /\ same_attributes r s /\ same_meaning r s /\
    ss s = Ok ls /\ ss r = Ok lr /\ map str lr = map str ls.
Proof.
  intros so s SO Hs. pose proof (constructible_wf s Hs) as W.
  destruct (parse_str so SO s W) as (r & E & Wr & N).
  assert (X : str r = str s) by (rewrite <- (str_norm r), <- (str_norm s), N; auto).
  destruct (eq_attributes r s Wr W X) as [A M].
  destruct (ss_spec_wf s W) as (ls & Els & _). destruct (ss_spec_wf r Wr) as (lr & Elr & _).
  exists r, ls, lr. split; [auto|]. split; [auto|]. split; [auto|]. split; [auto|]. split; [auto|]. split; [auto|].
  apply (ss_eq r s); auto.
Qed.
Print Assumptions C03_parse_of_printed_script.

Example C03_case : constructible (text "M:M:.a.-M:M:.a.-f.o.-'") /\ cardinal (text "M:M:.a.-M:M:.a.-f.o.-'") = 81%N.
Proof. split; [text_ok|vm_compute; reflexivity]. Qed.

(** * C04 *)
Theorem C04_sum_ignores_set_order : forall so so' cs, set_order so -> set_order so' ->
  (forall c, In c cs -> constructible c) -> mk_add so cs = mk_add so' cs.
Proof. intros. apply mk_add_order; auto using constructible_wf. Qed.
Print Assumptions C04_sum_ignores_set_order.

Theorem C04_sum_ignores_order_and_repetition : forall so so' cs cs', set_order so -> set_order so' ->
  (forall c, In c cs -> regular c) -> (forall c, In c cs' -> regular c) ->
  (forall x, In x (map str cs) <-> In x (map str cs')) ->
  same_result (mk_add so cs) (mk_add so' cs').
Proof.
  intros so so' cs cs' SO SO' F F' E. apply mk_add_ext; auto using regular_nf.
  apply str_norm_in; auto; intros; apply nf_wf, regular_nf; auto.
Qed.
Print Assumptions C04_sum_ignores_order_and_repetition.

Theorem C04_sum_commutative : forall so so' a b, set_order so -> set_order so' -> regular a -> regular b ->
  same_result (script_add so a b) (script_add so' b a).
Proof. intros. apply script_add_comm; auto using regular_nf. Qed.
Print Assumptions C04_sum_commutative.

Theorem C04_sum_idempotent : forall so a, set_order so -> regular a -> same_result (script_add so a a) (Ok a).
Proof. intros. apply script_add_idem; auto using regular_nf. Qed.
Print Assumptions C04_sum_idempotent.

(** * C17: associativity; missing from the full property: the case where [a + b] or [b + c] is a
    one-term sum, where it is false (next theorem), and agreement of the exceptions when
    an intermediate sum raises. *)
Theorem C17_sum_associative_partial : forall so1 so2 so3 so4 a b c ab bc,
  set_order so1 -> set_order so2 -> set_order so3 -> set_order so4 ->
  regular a -> regular b -> regular c ->
  script_add so1 a b = Ok ab -> script_add so2 b c = Ok bc ->
  ~ one_term_sum ab -> ~ one_term_sum bc ->
  same_result (script_add so3 ab c) (script_add so4 a bc).
Proof.
  intros so1 so2 so3 so4 a b c ab bc S1 S2 S3 S4 Ha Hb Hc E1 E2 N1 N2.
  assert (K : forall so x y z, set_order so -> regular x -> regular y -> script_add so x y = Ok z ->
     ~ one_term_sum z -> nf z).
  { intros so x y z SO Hx Hy E N. apply regular_nf. split; auto.
    apply (c_add so [x; y]); auto. intros w [<-|[<-|[]]]; [apply Hx|apply Hy]. }
  apply (script_add_assoc so1 so2 so3 so4 a b c ab bc); auto using regular_nf;
    [apply (K so1 a b)|apply (K so2 b c)]; auto.
Qed.
Print Assumptions C17_sum_associative_partial.

Theorem C17_sum_associative_refuted : exists a b ab bc l r, regular a /\ regular b /\
  script_add ident a a = Ok ab /\ script_add ident a b = Ok bc /\
  script_add ident ab b = Ok l /\ script_add ident a bc = Ok r /\ ~ script_eq l r.
Proof.
  exists (text "wo."), (text "wa."). do 4 eexists.
  split; [text_reg|]. split; [text_reg|].
  split; [vm_compute; reflexivity|]. split; [vm_compute; reflexivity|].
  split; [vm_compute; reflexivity|]. split; [vm_compute; reflexivity|]. vm_compute. discriminate.
Qed.
Print Assumptions C17_sum_associative_refuted.

Example C04_C17_case : regular (text "wo.+wa.") /\ regular (text "M:O:.") /\ regular (text "b.") /\
  match script_add ident (text "wo.+wa.") (text "M:O:."), script_add ident (text "M:O:.") (text "b.") with
  | Ok ab, Ok bc =>
    match script_add ident ab (text "b.") with Ok r => str r = "wo.+wa.+b.+M:O:." /\ cardinal r = 9%N | _ => False end
  | _, _ => False
  end.
Proof. split; [text_reg|]. split; [text_reg|]. split; [text_reg|]. vm_compute. auto. Qed.

(** * C05 *)
Theorem C05_multiplications_are_canonical : forall a b c, constructible (Mul a b c) ->
  layer b = layer a /\ layer c = layer a /\ layer (Mul a b c) = S (layer a) /\ layer (Mul a b c) <= 6 /\
  (forall x, In x [a; b; c] -> ~ one_term_sum x /\ (is_empty x = true -> x = Null (layer a))).
Proof.
  intros a b c H. apply constructible_wf, wf_mul_inv in H.
  destruct H as (_ & _ & _ & Ka & Kb & Kc & Lb & Lc & L & _). unfold MAX_LAYER in L.
  assert (K : forall x, child_ok x -> layer x = layer a -> ~ one_term_sum x /\ (is_empty x = true -> x = Null (layer a))).
  { intros x [K1 K2] Lx. split; [intros [y ->]; apply (K2 y); auto|]. rewrite <- Lx. auto. }
  repeat split; auto; try (simpl; lia);
    destruct H as [<-|[<-|[<-|[]]]]; try (apply K; auto).
Qed.
Print Assumptions C05_multiplications_are_canonical.

Theorem C05_sums_are_canonical : forall cs, constructible (Add cs) ->
  cs <> [] /\ (forall c, In c cs -> is_add c = false /\ layer c = layer (Add cs)) /\
  StronglySorted (fun x y => lt x y = true) cs /\ NoDup (map str cs).
Proof.
  intros cs H. apply constructible_wf in H. pose proof H as W. simpl in W.
  destruct W as (NE & _ & A & L & S & _). repeat split; auto.
  pose proof (map_norm_nodup cs H) as N.
  assert (F : forall c, In c cs -> wf c) by (intros c Hc; apply (wf_add_in _ _ H Hc)).
  clear -N F. induction cs as [|x cs IH]; simpl in *; constructor; inversion N; subst.
  - intros I. apply H1. apply in_map_iff in I. destruct I as (y & E & Hy).
    rewrite (str_inj_norm x y); auto. apply in_map; auto.
  - apply IH; auto.
Qed.
Print Assumptions C05_sums_are_canonical.

(** The result of [MultiplicativeScript(children=args)], where [cs] are the arguments
    before the first None: success and exceptions. *)
Definition given (args : list (option script)) (cs : list script) : Prop :=
  exists rest, args = (map Some cs ++ rest)%list /\ (rest = [] \/ exists r, rest = None :: r).

Lemma given_until args cs : given args cs -> until_none args = cs.
Proof.
  intros (rest & -> & H). induction cs as [|c cs IH]; simpl; [|rewrite IH; auto].
  destruct H as [->|[r ->]]; auto.
Qed.

Theorem C05_multiplication_outcome : forall args cs, given args cs -> (forall c, In c cs -> constructible c) ->
  match mk_mul args with
  | Ok s => cs <> [] /\ List.length cs <= 3 /\ (exists l, l < 6 /\ forall c, In c cs -> layer c = l) /\
            (prodN (map cardinal cs) <= 360)%N
  | Err e =>
    (cs = [] /\ e = IndexError) \/
    (3 < List.length cs /\ e = InvalidScript) \/
    ((exists c d, In c cs /\ In d cs /\ layer c <> layer d) /\ e = InvalidScript) \/
    ((360 < prodN (map cardinal cs))%N /\ e = TooManySingularSequences) \/
    ((exists c, In c cs /\ layer c = 6) /\ e = IndexError)
  end.
Proof.
  intros args cs G F. unfold mk_mul. rewrite (given_until args cs G).
  apply mk_mul_l_result. auto using constructible_wf.
Qed.
Print Assumptions C05_multiplication_outcome.

(** ... and its meaning: the missing roles are filled with empty scripts. *)
Theorem C05_multiplication_meaning : forall args cs s w, given args cs ->
  (forall c, In c cs -> constructible c) -> mk_mul args = Ok s ->
  (means s w <-> exists u v t, w = (u ++ v ++ t)%list /\
     match cs with
     | [a] => means a u /\ means (Null (layer a)) v /\ means (Null (layer a)) t
     | [a; b] => means a u /\ means b v /\ means (Null (layer a)) t
     | [a; b; c] => means a u /\ means b v /\ means c t
     | _ => False
     end).
Proof.
  intros args cs s w G F E. unfold mk_mul in E. rewrite (given_until args cs G) in E.
  assert (W : forall c, In c cs -> wf c) by auto using constructible_wf.
  rewrite (mk_mul_l_means cs s w W E). apply mk_mul_l_inv in E. destruct E as (_ & _ & _ & _ & [NE L] & _).
  destruct cs as [|a [|b [|c [|d cs]]]]; [congruence| | | |simpl in L; lia]; cbn [hd nth];
    split; intros (u & v & t & H); exists u, v, t; tauto.
Qed.
Print Assumptions C05_multiplication_meaning.

Theorem C05_sum_meaning : forall so cs s w, set_order so -> (forall c, In c cs -> regular c) ->
  mk_add so cs = Ok s -> (means s w <-> exists c, In c cs /\ means c w).
Proof. intros so cs s w SO F E. apply (mk_add_means so cs s w); auto using regular_nf. Qed.
Print Assumptions C05_sum_meaning.

(** The result of [AdditiveScript(children=cs)]; [ts] lists the distinct terms. *)
Theorem C05_sum_outcome : forall so cs ts, set_order so -> (forall c, In c cs -> regular c) ->
  distinct_terms cs ts ->
  match mk_add so cs with
  | Ok s => cs <> [] /\ (forall c d, In c cs -> In d cs -> layer c = layer d) /\
            (sumN (map cardinal ts) <= 360)%N
  | Err e =>
    (cs = [] /\ e = InvalidScript) \/
    ((exists c d, In c cs /\ In d cs /\ layer c <> layer d) /\ e = IncompatiblesScriptsLayers) \/
    ((360 < sumN (map cardinal ts))%N /\ e = TooManySingularSequences)
  end.
Proof. intros so cs ts SO F D. apply mk_add_result; auto using regular_nf. Qed.
Print Assumptions C05_sum_outcome.

Example C05_case : (forall c, In c [text "O:M:."; text "wo."] -> regular c) /\
  distinct_terms [text "O:M:.+wo."; text "wo."] [text "O:M:."; text "wo."] /\
  given [Some (text "O:M:."); Some (text "wo."); None] [text "O:M:."; text "wo."] /\
  (exists s, mk_mul [Some (text "O:M:."); Some (text "wo."); None] = Ok s) /\
  mk_mul (map Some [text "F:F:F:."; text "F:F:F:."]) = Err TooManySingularSequences.
Proof.
  split; [intros c [<-|[<-|[]]]; text_reg|].
  split.
  - split; [|split].
    + vm_compute. repeat constructor; simpl; intros H; repeat (destruct H as [H|H]; try discriminate); auto.
    + intros t Ht. exists (text "O:M:.+wo."). split; [left; auto|]. right. vm_compute. vm_compute in Ht. tauto.
    + intros c t [<-|[<-|[]]] H.
      * destruct H as [[H _]|H]; [vm_compute in H; discriminate|].
        vm_compute in H. destruct H as [<-|[<-|[]]].
        -- exists (text "wo."). split; [right; left; auto|vm_compute; auto].
        -- exists (text "O:M:."). split; [left; auto|vm_compute; auto].
      * destruct H as [[_ ->]|H]; [|vm_compute in H; tauto].
        exists (text "wo."). split; [right; left; auto|auto].
  - split; [exists [None]; split; [reflexivity|right; exists []; reflexivity]|].
    split; [eexists; vm_compute; reflexivity|vm_compute; reflexivity].
Qed.

(** * C06 *)
Theorem C06_len_is_number_of_singular_sequences : forall s, constructible s ->
  exists l, ss s = Ok l /\ N.of_nat (List.length l) = cardinal s /\ (1 <= cardinal s <= 360)%N /\
  (cardinal s = 1%N <-> paradigm s = false).
Proof.
  intros s H. apply constructible_wf in H. destruct (ss_spec_wf s H) as (l & E & _ & C & _).
  exists l. repeat split; auto; try apply cardinal_pos; auto; try apply cardinal_paradigm; auto.
  destruct s; simpl in H; unfold MAX_SINGULAR_SEQUENCES in H; simpl; try lia; simpl in H; lia.
Qed.
Print Assumptions C06_len_is_number_of_singular_sequences.

Example C06_case : constructible (text "I:M:.+wo.") /\ cardinal (text "I:M:.+wo.") = 19%N.
Proof. split; [text_ok|vm_compute; reflexivity]. Qed.

(** * C07 *)
Theorem C07_singular_sequences_are_the_words : forall s, constructible s ->
  exists l, ss s = Ok l /\
    (forall x, In x l -> singular x /\ paradigm x = false /\ layer x = layer s /\ ss x = Ok [x]) /\
    (forall w, means s w <-> exists x, In x l /\ means x w) /\
    (forall x y, In x l -> In y l -> (script_eq x y <-> exists w, means x w /\ means y w)).
Proof.
  intros s H. apply constructible_wf in H. destruct (ss_spec_wf s H) as (l & E & F & C & M & _).
  rewrite Forall_forall in F. exists l. split; auto. split; [|split; auto].
  - intros x Hx. destruct (F x Hx) as (Wx & Cx & Lx).
    repeat split; auto; [apply singular_word; auto|apply cardinal_paradigm; auto|apply ss_singleton; auto].
  - intros x y Hx Hy. unfold script_eq. rewrite <- script_eqb_eq. apply (sing1_eq (layer s)); auto.
Qed.
Print Assumptions C07_singular_sequences_are_the_words.

(** Two singular scripts of one layer are == exactly when they have the same word. *)
Theorem C07_word_identifies_singular_script : forall x y, constructible x -> constructible y ->
  cardinal x = 1%N -> cardinal y = 1%N -> layer x = layer y ->
  (script_eq x y <-> forall w, means x w <-> means y w).
Proof.
  intros x y Hx Hy Cx Cy L. apply constructible_wf in Hx, Hy.
  unfold script_eq. rewrite <- script_eqb_eq. rewrite (sing1_eq (layer x)); try (repeat split; auto; fail).
  destruct (singular_word x Hx Cx) as [u Hu], (singular_word y Hy Cy) as [v Hv]. split.
  - intros (w & H1 & H2) w'. rewrite Hu, Hv. apply Hu in H1. apply Hv in H2. subst. tauto.
  - intros H. exists u. split; [apply Hu; auto|apply H, Hu; auto].
Qed.
Print Assumptions C07_word_identifies_singular_script.

Theorem C07_sequences_of_a_sum : forall cs l t, constructible (Add cs) -> ss (Add cs) = Ok l ->
  (In t (map str l) <-> exists c lc, In c cs /\ ss c = Ok lc /\ In t (map str lc)).
Proof. intros cs l t H. apply ss_of_sum, constructible_wf; auto. Qed.
Print Assumptions C07_sequences_of_a_sum.

Theorem C07_sequences_of_a_multiplication : forall a b c l t, constructible (Mul a b c) -> ss (Mul a b c) = Ok l ->
  (In t (map str l) <-> exists la lb lc x y z r, ss a = Ok la /\ ss b = Ok lb /\ ss c = Ok lc /\
     In x la /\ In y lb /\ In z lc /\ mk_mul [Some x; Some y; Some z] = Ok r /\ str r = t).
Proof. intros a b c l t H. apply ss_of_product, constructible_wf; auto. Qed.
Print Assumptions C07_sequences_of_a_multiplication.

Example C07_case : constructible (text "O:M:.+wo.") /\ means (text "O:M:.+wo.") [Some PA; Some PT; None] /\
  ~ means (text "O:M:.+wo.") [Some PT; Some PA; None].
Proof.
  split; [text_ok|]. show "O:M:.+wo.". split.
  - right. left. exists [Some PA], [Some PT], [None]. simpl. tauto.
  - intros [H|[H|[]]]; destruct H as (u & v & t & Hu & Hv & Ht & E); simpl in *.
    + subst. discriminate.
    + destruct Hu as [->|[->|[]]]; discriminate.
Qed.

(** * C08 *)
Theorem C08_singular_sequences_are_sorted : forall s, constructible s ->
  exists l, ss s = Ok l /\ StronglySorted (fun x y => lt y x = false) l /\
    (NoDup (map str l) <-> sums_disjoint s) /\
    (sums_disjoint s -> StronglySorted (fun x y => lt x y = true) l).
Proof.
  intros s H. apply constructible_wf in H. destruct (ss_spec_wf s H) as (l & E & F & C & M & S).
  assert (N : NoDup (map str l) <-> sums_disjoint s).
  { rewrite <- words_nodup by auto.
    assert (P := ss_words s l H E).
    transitivity (NoDup (map wordof l)).
    2:{ split; apply Permutation_NoDup; auto using Permutation_sym. }
    rewrite Forall_forall in F. clear -F.
    induction l as [|x l IH]; simpl; [split; constructor|].
    assert (Q : In (str x) (map str l) <-> In (wordof x) (map wordof l)).
    { rewrite !in_map_iff. assert (Fx := F x (or_introl eq_refl)).
      assert (W : forall y, In y l -> (str y = str x <-> wordof y = wordof x)).
      { intros y Hy. assert (Fy := F y (or_intror Hy)). rewrite <- script_eqb_eq, (sing1_eq (layer s)) by auto.
        destruct Fx as (Wx & Cx & _), Fy as (Wy & Cy & _). split.
        - intros (w & H1 & H2). apply wordof_means in H1, H2; auto. congruence.
        - intros Ew. exists (wordof x). split; apply wordof_means; auto. }
      split; intros (y & Ey & Hy); exists y; split; auto; apply W; auto. }
    split; intros X; inversion X; subst; constructor; try tauto; apply IH; auto; intros; apply F; right; auto. }
  exists l. repeat split; auto; try apply N.
  intros D. apply N in D.
  destruct (ss_elements s l H E) as [NF|(x & _ & ->)]; [|repeat constructor].
  apply weak_strict; auto. clear -NF D.
  induction l as [|x l IH]; constructor; inversion NF; inversion D; subst; auto.
  apply Forall_forall. intros y Hy. rewrite Forall_forall in H2. apply lt_total; auto.
  destruct (script_eqb x y) eqn:B; auto. apply script_eqb_eq in B. exfalso. apply H5. rewrite B. apply in_map; auto.
Qed.
Print Assumptions C08_singular_sequences_are_sorted.

Example C08_case : constructible (text "O:M:.+M:O:.") /\ sums_disjoint (text "O:M:.+M:O:.") /\
  cardinal (text "O:M:.+M:O:.") = 12%N.
Proof.
  assert (C : constructible (text "O:M:.+M:O:.")) by text_ok. split; [auto|]. split; [|vm_compute; auto].
  destruct (C08_singular_sequences_are_sorted _ C) as (l & E & _ & N & _). apply N.
  assert (X : ss (text "O:M:.+M:O:.") = Ok l) by exact E. vm_compute in X. injection X as <-.
  vm_compute. repeat constructor; simpl; intros H; repeat (destruct H as [H|H]; [discriminate H|]); exact H.
Qed.

(** The English property also claims that len counts distinct sequences: false when the
    terms of a sum overlap. *)
Theorem C08_len_overcounts_overlapping_sums_refuted : exists s l, constructible s /\ ss s = Ok l /\
  cardinal s = 3%N /\ map str l = ["wo."; "wo."; "wu."].
Proof. exists (text "O:U:.+wo."). eexists. split; [text_ok|]. split; vm_compute; auto. Qed.
Print Assumptions C08_len_overcounts_overlapping_sums_refuted.

(** * C09 *)
Theorem C09_in_is_inclusion : forall a b, constructible a -> constructible b ->
  exists r, script_in a b = Ok r /\
  (r = true <-> layer a = layer b /\ forall w, means a w -> means b w).
Proof. intros a b Ha Hb. apply script_in_spec; apply constructible_wf; auto. Qed.
Print Assumptions C09_in_is_inclusion.

Theorem C09_in_is_a_preorder : forall a b c, constructible a -> constructible b -> constructible c ->
  script_in a a = Ok true /\
  (script_in a b = Ok true -> script_in b c = Ok true -> script_in a c = Ok true) /\
  (script_in a b = Ok true /\ script_in b a = Ok true <-> same_meaning a b).
Proof.
  intros a b c Ha Hb Hc.
  assert (K : forall x y, constructible x -> constructible y ->
     (script_in x y = Ok true <-> layer x = layer y /\ forall w, means x w -> means y w)).
  { intros x y Hx Hy. destruct (C09_in_is_inclusion x y Hx Hy) as (r & E & H). rewrite E, <- H.
    split; congruence. }
  rewrite !K by auto. unfold same_meaning. split; [auto|]. split.
  - intros [L1 H1] [L2 H2]. split; [congruence|auto].
  - split.
    + intros [[L1 H1] [L2 H2]]. split; auto. split; auto.
    + intros [L H]. split; split; auto; apply H.
Qed.
Print Assumptions C09_in_is_a_preorder.

Example C09_case : constructible (text "wo.") /\ constructible (text "O:F:.") /\
  script_in (text "wo.") (text "O:F:.") = Ok true /\ script_in (text "O:F:.") (text "wo.") = Ok false.
Proof. split; [text_ok|]. split; [text_ok|]. vm_compute. auto. Qed.

(** * C12 *)
Theorem C12_promote : forall s l, constructible s -> layer s <= l <= 6 ->
  exists r, promote s l = Ok r /\ layer r = l /\ cardinal r = cardinal s /\
  (forall w, means r w <-> exists u, means s u /\ w = (u ++ repeat None (3 ^ l - 3 ^ layer s))%list).
Proof.
  intros s l H [L1 L2]. apply constructible_wf in H. unfold promote.
  destruct (promote_n_spec (l - layer s) s H) as (r & E & _ & Lr & Cr & M); [unfold MAX_LAYER; lia|].
  exists r. replace (layer s + (l - layer s)) with l in * by lia. auto.
Qed.
Print Assumptions C12_promote.

Theorem C12_promote_low_and_high : forall s l, constructible s ->
  (l <= layer s -> promote s l = Ok s) /\ (6 < l -> promote s l = Err IndexError).
Proof.
  intros s l H. apply constructible_wf in H. split.
  - intros L. unfold promote. replace (l - layer s) with 0 by lia. reflexivity.
  - intros L. apply promote_high; auto.
Qed.
Print Assumptions C12_promote_low_and_high.

Theorem C12_promote_composes : forall s l l', constructible s -> layer s <= l <= l' ->
  (do r <- promote s l; promote r l') = promote s l'.
Proof. intros s l l' H L. apply promote_compose; auto using constructible_wf. Qed.
Print Assumptions C12_promote_composes.

Example C12_case : constructible (text "O:M:.+wo.") /\ (exists r, promote (text "O:M:.+wo.") 3 = Ok r /\
  str r = "wo.+O:M:.-'").
Proof. split; [text_ok|]. eexists. vm_compute. auto. Qed.

(** * C13 *)
Theorem C13_parser_follows_the_grammar : forall so t r,
  parse so t = Ok r <-> exists ts, d_term (lex t) ts /\ eval_term so ts = Ok r.
Proof.
  intros so t r. unfold parse. split.
  - destruct (parse_tree (lex t)) as [ts|] eqn:E; [|discriminate]. intros H. exists ts.
    split; [apply parse_tree_iff; auto|].
    destruct (eval_term so ts) as [|[]]; simpl in H; try discriminate; auto.
  - intros (ts & D & E). apply parse_tree_iff in D. rewrite D, E. reflexivity.
Qed.
Print Assumptions C13_parser_follows_the_grammar.

Theorem C13_grammar_is_unambiguous : forall w ts ts', d_term w ts -> d_term w ts' -> ts = ts'.
Proof. intros w ts ts' D D'. apply parse_tree_iff in D, D'. congruence. Qed.
Print Assumptions C13_grammar_is_unambiguous.

Theorem C13_parser_is_deterministic : forall so so' t, set_order so -> set_order so' ->
  parse so t = parse so' t.
Proof. intros. apply parse_det; auto. Qed.
Print Assumptions C13_parser_is_deterministic.

Theorem C13_parser_normalises : forall so t r, set_order so -> parse so t = Ok r ->
  constructible r /\ exists r', parse so (str r) = Ok r' /\ script_eq r' r.
Proof.
  intros so t r SO E. pose proof (parse_constructible so SO t r E) as C. split; auto.
  destruct (C03_parse_of_printed_script so r SO C) as (r' & _ & _ & E' & H & _). eauto.
Qed.
Print Assumptions C13_parser_normalises.

(** The only exceptions: CannotParse exactly on texts outside the grammar,
    TooManySingularSequences on some texts of the grammar. *)
Theorem C13_errors : forall so t, set_order so ->
  match parse so t with
  | Ok s => exists n ts, d_sum n (lex t) ts /\ layer s = n
  | Err e => (e = CannotParse /\ forall ts, ~ d_term (lex t) ts) \/
             (e = TooManySingularSequences /\ exists ts, d_term (lex t) ts)
  end.
Proof. intros. apply parse_errors; auto. Qed.
Print Assumptions C13_errors.

Example C13_case : parse ident "wa.+wo." = parse ident "wo.+wa." /\
  (exists r, parse ident "we.+wo.+O:M:." = Ok r) /\ parse ident "wo.wa." = Err CannotParse.
Proof. vm_compute. repeat split; eauto. Qed.

(** * C14 *)
Theorem C14_class_is_the_largest_class_of_the_words : forall s, constructible s ->
  (forall w, means s w -> word_class w <= script_class s) /\
  (exists w, means s w /\ word_class w = script_class s).
Proof. intros s H. apply class_means, constructible_wf; auto. Qed.
Print Assumptions C14_class_is_the_largest_class_of_the_words.

Theorem C14_class_formulas : forall s, constructible s ->
  match s with
  | Null _ => script_class s = 0
  | Prim p => script_class s = letter_class (Some p)
  | Mul a _ _ => script_class s = script_class a
  | Add cs => (forall c, In c cs -> script_class c <= script_class s) /\
              (exists c, In c cs /\ script_class c = script_class s)
  end.
Proof.
  intros s H. apply constructible_wf in H. destruct s as [l|p|a b c|cs].
  - reflexivity.
  - destruct p; reflexivity.
  - pose proof (wf_mul_inv _ _ _ H) as (Wa & Wb & Wc & _).
    destruct (class_means _ H) as [U (w & Hw & Ew)], (class_means a Wa) as [U' (w' & Hw' & Ew')].
    assert (WC : forall u v t, means a u -> word_class (u ++ v ++ t)%list = word_class u).
    { intros u v t Hu. apply means_length in Hu; auto. destruct u; [|reflexivity].
      simpl in Hu. pose proof (Nat.pow_nonzero 3 (layer a)). lia. }
    destruct Hw as (u & v & t & Hu & Hv & Ht & ->). rewrite WC in Ew by auto.
    apply U' in Hu. destruct (means_inhabited b Wb) as [v' Hv'], (means_inhabited c Wc) as [t' Ht'].
    assert (K : means (Mul a b c) (w' ++ v' ++ t')%list) by (exists w', v', t'; auto).
    apply U in K. rewrite WC in K by auto. lia.
  - destruct (class_means _ H) as [U (w & Hw & Ew)]. split.
    + intros c Hc. destruct (wf_add_in _ _ H Hc) as (Wc & _).
      destruct (class_means c Wc) as [_ (v & Hv & <-)]. apply U. apply means_add. eauto.
    + apply means_add in Hw. destruct Hw as (c & Hc & Hw). exists c. split; auto.
      destruct (wf_add_in _ _ H Hc) as (Wc & _).
      destruct (class_means c Wc) as [U' (v & Hv & Ev)]. apply U' in Hw.
      assert (K : means (Add cs) v) by (apply means_add; eauto). apply U in K. lia.
Qed.
Print Assumptions C14_class_formulas.

Theorem C14_class_of_singular_sequences : forall s l x, constructible s -> ss s = Ok l -> In x l ->
  script_class x <= script_class s.
Proof.
  intros s l x H E Hx. apply constructible_wf in H.
  destruct (ss_spec_wf s H) as (l' & E' & F & _ & M & _). rewrite E in E'. injection E' as <-.
  rewrite Forall_forall in F. destruct (F x Hx) as (Wx & _).
  destruct (class_means x Wx) as [_ (w & Hw & <-)]. apply (class_means s H). apply M. eauto.
Qed.
Print Assumptions C14_class_of_singular_sequences.

Example C14_case : constructible (text "U:M:.+M:U:.") /\ script_class (text "U:M:.+M:U:.") = 2 /\
  script_class (text "U:M:.") = 1.
Proof. split; [text_ok|]. vm_compute. auto. Qed.
