(** Properties of polymorphemes and lexemes: C20, C21, C22, C24, C25. *)
From Coq Require Import List String Bool NArith Arith Lia Sorted Permutation.
From Verif Require Import Base Script ScriptParser SortProofs ScriptWf ScriptOrderProofs ScriptSpec ScriptCtorProofs ScriptEqProofs Commons Usl UslSpec OrderTheory UslProofs UslSsProofs Properties1.
Import ListNotations.
Local Open Scope string_scope.

Lemma regular_all l : Forall regular l -> Forall nf l.
Proof. apply Forall_impl. apply regular_nf. Qed.
Lemma good_groups_ok gs : good_groups gs -> Forall gok gs.
Proof. apply Forall_impl. intros g. apply regular_all. Qed.
Lemma built_ok p : built p -> pok p.
Proof. intros (cs & gs & H1 & H2 & ->). apply mk_pm_ok; [apply regular_all; auto|apply good_groups_ok; auto]. Qed.
Lemma built_lexeme_ok l : built_lexeme l -> lok l.
Proof. intros [H1 H2]. split; apply built_ok; auto. Qed.

(** * C20 *)
(** Two calls of the constructor give equal polymorphemes exactly when they are given the
    same morphemes and the same groups up to the order and to empty scripts. *)
Theorem C20_polymorpheme_is_unordered : forall cs cs' gs gs',
  Forall regular cs -> Forall regular cs' -> good_groups gs -> good_groups gs' ->
  (pm_str (mk_pm cs gs) = pm_str (mk_pm cs' gs') <-> same_morphemes cs cs' /\ same_groups gs gs').
Proof.
  intros cs cs' gs gs' H1 H2 H3 H4. apply regular_all in H1, H2. apply good_groups_ok in H3, H4.
  rewrite pm_str_key by (apply mk_pm_ok; auto). unfold pkey.
  assert (X : forall a b c d : list string, forall e f, (a, e) = (b, f) <-> a = b /\ (e : list (list string * nat)) = f) by (intros; split; [intros E; injection E; auto|intros [-> ->]; auto]).
  rewrite X by exact []. clear X. rewrite mk_pm_constant_key, mk_pm_groups_key by auto.
  assert (G : forall g h, gok g -> gok h -> (gkey (gnorm g) = gkey (gnorm h) <-> same_group g h)).
  { intros [m n] [m' n'] Hg Hh. unfold gkey, gnorm, same_group, same_morphemes, meaningful. cbn [fst snd]. fold (filter_empty m). fold (filter_empty m').
    rewrite isort_key by (apply filter_nf; auto). split; [intros E; injection E; auto|intros [-> ->]; auto]. }
  split; (intros [P Q]; split; [exact P|]).
  - apply Permutation_sym, (Permutation_map_inv _ _) in Q. destruct Q as (gs1 & E & P1). exists gs1. split; auto.
    assert (F1 : Forall gok gs1) by (eapply Permutation_Forall; eauto). clear -E F1 H4 G.
    revert gs' E H4. induction F1 as [|g l Hg F IH]; intros [|h gs'] E H4; try discriminate; constructor.
    + apply G; auto; [inversion H4; auto|]. pose proof (f_equal (hd (gkey (gnorm g))) E) as E1. symmetry. exact E1.
    + apply IH; [exact (f_equal (@tl _) E)|inversion H4; auto].
  - destruct Q as (gs1 & P1 & F). assert (F1 : Forall gok gs1) by (eapply Permutation_Forall; eauto).
    eapply perm_trans; [apply Permutation_map; exact P1|]. replace (map (fun g => gkey (gnorm g)) gs') with (map (fun g => gkey (gnorm g)) gs1); [reflexivity|].
    clear -F F1 H4 G. induction F as [|g h l l' Hgh F IH]; [reflexivity|]. inversion F1; inversion H4; subst. cbn [map]. f_equal; [apply G; auto|auto].
Qed.
Print Assumptions C20_polymorpheme_is_unordered.

(** The components are the same too. *)
Theorem C20_components_are_unordered : forall cs cs' gs gs',
  Forall regular cs -> Forall regular cs' -> good_groups gs -> good_groups gs' ->
  same_morphemes cs cs' -> same_groups gs gs' ->
  map str (constant (mk_pm cs gs)) = map str (constant (mk_pm cs' gs')) /\
  map (fun g => (map str (fst g), snd g)) (groups (mk_pm cs gs)) = map (fun g => (map str (fst g), snd g)) (groups (mk_pm cs' gs')).
Proof.
  intros cs cs' gs gs' H1 H2 H3 H4 P Q. pose proof (proj2 (C20_polymorpheme_is_unordered cs cs' gs gs' H1 H2 H3 H4) (conj P Q)) as E.
  apply regular_all in H1, H2. apply good_groups_ok in H3, H4. apply pm_str_key in E; try (apply mk_pm_ok; auto).
  unfold pkey in E. injection E as E1 E2. split; [exact E1|exact E2].
Qed.
Print Assumptions C20_components_are_unordered.

Definition A_ := text "wa.". Definition B_ := text "b.". Definition C_ := text "i.". Definition D_ := text "a.". Definition E_ := text "E:.".
Lemma A_reg : regular A_. Proof. text_reg. Qed.
Lemma B_reg : regular B_. Proof. text_reg. Qed.
Lemma C_reg : regular C_. Proof. text_reg. Qed.
Lemma D_reg : regular D_. Proof. text_reg. Qed.
Lemma E_reg : regular E_. Proof. text_reg. Qed.
Global Hint Resolve A_reg B_reg C_reg D_reg E_reg : core.
Ltac good := repeat (apply Forall_nil || (apply Forall_cons; [cbn [fst]; auto|])).

Example C20_case :
  pm_str (mk_pm [A_; E_; B_] [([C_; D_], 1); ([A_], 2)]) = pm_str (mk_pm [B_; A_] [([A_; E_], 2); ([D_; C_], 1)]) /\
  pm_str (mk_pm [A_; E_; B_] [([C_; D_], 1); ([A_], 2)]) = "wa. b. m2(wa.) m1(a. i.)" /\
  Forall regular [A_; E_; B_] /\ good_groups [([C_; D_], 1); ([A_], 2)] /\ same_groups [([C_; D_], 1); ([A_], 2)] [([A_; E_], 2); ([D_; C_], 1)].
Proof.
  split; [vm_compute; reflexivity|]. split; [vm_compute; reflexivity|]. split; [good|]. split; [good; good|].
  exists [([A_], 2); ([C_; D_], 1)]. split; [apply perm_swap|]. repeat constructor; vm_compute; apply Permutation_refl || apply perm_swap.
Qed.

(** * C21 *)
Theorem C21_polymorpheme_order : forall p q r, built p -> built q -> built r ->
  pm_lt p p = false /\
  (pm_lt p q = true -> pm_lt q r = true -> pm_lt p r = true) /\
  exactly_one (pm_lt p q = true) (pm_str p = pm_str q) (pm_lt q p = true) /\
  (pm_eqb p q = true <-> pm_str p = pm_str q).
Proof.
  intros p q r Hp Hq Hr. apply built_ok in Hp, Hq, Hr. pose proof order_pm as O.
  split; [apply (o_irr _ _ _ _ O); auto|]. split; [apply (o_trans _ _ _ _ O); auto|]. split; [|apply String.eqb_eq].
  unfold exactly_one. destruct (o_dec O p q Hp Hq) as [E|N].
  - right. left. rewrite !(o_irr _ _ _ _ O) by auto. split; [discriminate|]. split; [auto|discriminate].
  - destruct (o_total _ _ _ _ O p q Hp Hq N) as [L|L]; rewrite L, (o_asym O _ _) by auto; [left|right; right];
      (split; [auto|split; auto]); discriminate.
Qed.
Print Assumptions C21_polymorpheme_order.

Example C21_case : built (mk_pm [A_; B_] [([C_; D_], 1)]) /\ built (mk_pm [A_; B_] [([C_; D_], 2)]) /\
  pm_lt (mk_pm [A_; B_] [([C_; D_], 1)]) (mk_pm [A_; B_] [([C_; D_], 2)]) = true.
Proof.
  split; [exists [A_; B_], [([C_; D_], 1)]; split; [good|split; [good; good|reflexivity]]|].
  split; [exists [A_; B_], [([C_; D_], 2)]; split; [good|split; [good; good|reflexivity]]|]. vm_compute. reflexivity.
Qed.

Theorem C21_lexeme_order : forall a b c, built_lexeme a -> built_lexeme b -> built_lexeme c ->
  lexeme_lt a a = false /\
  (lexeme_lt a b = true -> lexeme_lt b c = true -> lexeme_lt a c = true) /\
  exactly_one (lexeme_lt a b = true) (lexeme_str a = lexeme_str b) (lexeme_lt b a = true) /\
  (lexeme_eqb a b = true <-> lexeme_str a = lexeme_str b).
Proof.
  intros p q r Hp Hq Hr. apply built_lexeme_ok in Hp, Hq, Hr. pose proof order_lexeme as O.
  split; [apply (o_irr _ _ _ _ O); auto|]. split; [apply (o_trans _ _ _ _ O); auto|]. split; [|apply String.eqb_eq].
  unfold exactly_one. destruct (o_dec O p q Hp Hq) as [E|N].
  - right. left. rewrite !(o_irr _ _ _ _ O) by auto. split; [discriminate|]. split; [auto|discriminate].
  - destruct (o_total _ _ _ _ O p q Hp Hq N) as [L|L]; rewrite L, (o_asym O _ _) by auto; [left|right; right];
      (split; [auto|split; auto]); discriminate.
Qed.
Print Assumptions C21_lexeme_order.

(** * C22 *)
(** Exactly which singular sequences a polymorpheme with groups has. *)
Theorem C22_singular_sequences : forall so p, set_order so -> built p -> groups p <> [] ->
  NoDup (map pm_str (pm_ss so p)) /\
  forall t, In t (map pm_str (pm_ss so p)) <-> exists cs, picks (groups p) cs /\ result_of (constant p) cs t.
Proof.
  intros so p SO Hb N. pose proof (built_ok p Hb) as [[H1 H2] _]. rewrite pm_ss_groups by auto.
  destruct (traits_spec so (groups p) (constant p) SO N H2 H1) as (X1 & X2 & _). auto.
Qed.
Print Assumptions C22_singular_sequences.

(** What they contain: [E:] only stands for the absence of any morpheme. *)
Theorem C22_contents : forall so p s, set_order so -> built p -> groups p <> [] -> In s (pm_ss so p) ->
  groups s = [] /\
  1 <= List.length (constant s) <= 5 /\ NoDup (map str (constant s)) /\
  (forall c, In c (constant p) -> is_empty c = false -> In (str c) (map str (constant s))) /\
  (forall m, In m (constant s) -> m = Null 0 /\ constant s = [Null 0] \/
     is_empty m = false /\ (In m (constant p) \/ exists g, In g (groups p) /\ In m (fst g))).
Proof.
  intros so p s SO Hb N Hs. pose proof (built_ok p Hb) as [[H1 H2] _]. rewrite pm_ss_groups in Hs by auto.
  destruct (traits_spec so (groups p) (constant p) SO N H2 H1) as (_ & _ & X). destruct (X s Hs) as (cs & d & K & D & L & ->). clear X.
  destruct D as (Nd & I & C). split; [reflexivity|].
  assert (P : Permutation (isort (filter_empty d)) (filter_empty d)) by apply sort_perm.
  assert (Ls : List.length (filter_empty d) <= List.length d) by (clear; unfold filter_empty; induction d as [|x d IH]; simpl; [lia|]; destruct (negb (is_empty x)); simpl; lia).
  assert (Nf : NoDup (map str (filter_empty d))).
  { clear -Nd. unfold filter_empty. induction d as [|x d IH]; simpl; [constructor|]. inversion Nd; subst. destruct (negb (is_empty x)); auto.
    simpl. constructor; auto. rewrite in_map_iff in *. intros (y & E & Hy). apply H1. exists y. split; auto. apply filter_In in Hy. tauto. }
  unfold mk_pm. cbn [constant]. destruct (isort (filter_empty d)) as [|x l] eqn:E.
  - split; [simpl; lia|]. split; [constructor; [tauto|constructor]|]. split.
    + intros c Hc Ec. exfalso. pose proof (C c (proj2 (in_app_iff _ _ _) (or_intror Hc))) as Cc. apply in_map_iff in Cc. destruct Cc as (y & Ey & Hy).
      assert (Yn : nf y /\ nf c). { split; [|rewrite Forall_forall in H1; auto]. apply (proj1 (Forall_forall _ _) (distinct_nf (groups p) cs (constant p) d H2 H1 K (conj Nd (conj I C)))). auto. }
      destruct Yn. assert (In y (filter_empty d)). { apply filter_In. split; auto. rewrite (is_empty_str y c), Ec by (auto using nf_wf). reflexivity. }
      apply (Permutation_in _ (Permutation_sym P)) in H3. destruct H3.
    + intros m [<-|[]]. left. auto.
  - assert (Lx : List.length (x :: l) = List.length (filter_empty d)) by (apply Permutation_length; auto). rewrite Lx.
    split; [split; [rewrite <- Lx; simpl; lia|lia]|]. split; [eapply Permutation_NoDup; [apply Permutation_map, Permutation_sym; exact P|auto]|]. split.
    + intros c Hc Ec. pose proof (C c (proj2 (in_app_iff _ _ _) (or_intror Hc))) as Cc. apply in_map_iff in Cc. destruct Cc as (y & Ey & Hy).
      assert (Yn : nf y). { apply (proj1 (Forall_forall _ _) (distinct_nf (groups p) cs (constant p) d H2 H1 K (conj Nd (conj I C)))). auto. }
      assert (Cn : nf c) by (rewrite Forall_forall in H1; auto).
      rewrite <- Ey. apply in_map. apply (Permutation_in _ (Permutation_sym P)). apply filter_In. split; auto. rewrite (is_empty_str y c), Ec by (auto using nf_wf). reflexivity.
    + intros m Hm. right. apply (Permutation_in _ P) in Hm. apply filter_In in Hm. destruct Hm as [Hm Em]. apply negb_true_iff in Em. split; auto.
      apply I, in_app_iff in Hm. destruct Hm as [Hm|Hm]; [right|auto]. apply (picks_in _ _ K). auto.
Qed.
Print Assumptions C22_contents.

Definition P22 := mk_pm [A_] [([B_; C_], 1); ([D_; text "e."], 1)].
Lemma P22_built : built P22.
Proof. exists [A_], [([B_; C_], 1); ([D_; text "e."], 1)]. split; [good|]. split; [|reflexivity]. good; good; text_reg. Qed.
Example C22_case : built P22 /\ groups P22 <> [] /\ check_pm P22 = Ok tt /\
  map pm_str (pm_ss ident P22) = ["wa."; "wa. e."; "wa. a."; "wa. i."; "wa. b."; "wa. e. i."; "wa. e. b."; "wa. a. i."; "wa. a. b."].
Proof. split; [apply P22_built|]. split; [vm_compute; discriminate|]. split; vm_compute; reflexivity. Qed.

(** No more morphemes than the multiplicity are taken from a group, unless a group with
    that many morphemes is smaller than the other. *)
Definition safe_multiplicities (gs : list group) : Prop :=
  forall g h, In g gs -> In h gs -> snd g = List.length (fst h) -> List.length (fst g) <= snd g.
Lemma NoDup_str_in l x y : NoDup (map str l) -> In x l -> In y l -> str x = str y -> x = y.
Proof.
  induction l as [|z l IH]; simpl; intros N Hx Hy E; [tauto|]. inversion N; subst. destruct Hx as [->|Hx], Hy as [->|Hy]; auto.
  - exfalso. apply H1. rewrite E. apply in_map. auto.
  - exfalso. apply H1. rewrite <- E. apply in_map. auto.
Qed.
Lemma NoDup_app_r {A} (a b : list A) : NoDup (a ++ b) -> NoDup b.
Proof. induction a; simpl; auto. inversion 1; auto. Qed.
Lemma NoDup_app_l {A} (a b : list A) : NoDup (a ++ b) -> NoDup a.
Proof. induction a; simpl; [constructor|]. inversion 1; subst. constructor; [|auto]. intros X. apply H2, in_app_iff. auto. Qed.
Lemma NoDup_app_disjoint {A} (a b : list A) x : NoDup (a ++ b) -> In x a -> ~ In x b.
Proof. induction a; simpl; [tauto|]. inversion 1; subst. intros [->|H'] Hb; [apply H2, in_app_iff; auto|apply (IHa H3 H' Hb)]. Qed.

(** [m], in the group [g], belongs to a choice only as an element of what is taken from [g]. *)
Lemma taken_from (gs : list group) (cs : list (list script)) : NoDup (map str (flat_map fst gs)) -> Forall2 (fun g c => subseq c (fst g)) gs cs ->
  Forall2 (fun g c => subseq c (fst g) /\ forall m, In m (fst g) -> In (str m) (map str (List.concat cs)) -> In m c) gs cs.
Proof.
  intros N F. induction F as [|g c gs cs S F IH]; constructor.
  - split; auto. intros m Hm H. simpl in H. rewrite map_app, in_app_iff in H. cbn [flat_map] in N. rewrite map_app in N. destruct H as [H|H].
    + apply in_map_iff in H. destruct H as (y & E & Hy). rewrite <- (NoDup_str_in (fst g) y m); auto; [eapply NoDup_app_l; exact N|apply (subseq_incl _ _ S); auto].
    + exfalso. apply (NoDup_app_disjoint _ _ (str m) N); [apply in_map; auto|]. apply in_map_iff in H. destruct H as (y & E & Hy). rewrite <- E. apply in_map.
      clear -F Hy. induction F as [|g c gs cs S F IH]; simpl in *; [tauto|]. apply in_app_iff in Hy. apply in_app_iff. destruct Hy as [Hy|Hy]; [left; apply (subseq_incl _ _ S); auto|right; auto].
  - cbn [flat_map] in N. rewrite map_app in N. pose proof N as N'. apply NoDup_app_r in N'. specialize (IH N'). eapply Forall2_in_impl; [|exact IH].
    intros h c' Hh [S' K]. split; auto. intros m Hm H. apply K; auto. simpl in H. rewrite map_app, in_app_iff in H. destruct H as [H|H]; auto.
    exfalso. apply (NoDup_app_disjoint _ _ (str m) N).
    + apply in_map_iff in H. destruct H as (y & E & Hy). rewrite <- E. apply in_map, (subseq_incl _ _ S). auto.
    + apply in_map, in_flat_map. exists h. auto.
Qed.

Lemma Forall2_conj_with {A B} (R R' : A -> B -> Prop) l m : Forall2 R' l m -> Forall2 R l m -> Forall2 (fun a b => R a b /\ R' a b) l m.
Proof. induction 1; intros F; inversion F; subst; constructor; auto. Qed.

Theorem C22_multiplicity_partial : forall so p s, set_order so -> built p -> groups p <> [] ->
  no_repetition p -> safe_multiplicities (groups p) -> In s (pm_ss so p) ->
  forall g, In g (groups p) -> List.length (taken s g) <= snd g.
Proof.
  intros so p s SO Hb N NR G Hs g Hg. pose proof (built_ok p Hb) as [[H1 H2] H3]. rewrite pm_ss_groups in Hs by auto.
  destruct (traits_spec so (groups p) (constant p) SO N H2 H1) as (_ & _ & X). destruct (X s Hs) as (cs & d & K & D & L & ->). clear X Hs.
  destruct K as (q & O & F). assert (F0 : Forall2 (fun g c => subseq c (fst g)) (groups p) cs) by (eapply Forall2_in_impl; [|exact F]; simpl; tauto).
  unfold no_repetition in NR. rewrite map_app in NR. pose proof (NoDup_app_r _ _ NR) as NG.
  pose proof (taken_from _ _ NG F0) as T.
  assert (Y : exists c, subseq c (fst g) /\ List.length c <= snd g /\ forall m, In m (fst g) -> In (str m) (map str (List.concat cs)) -> In m c).
  { assert (Z : Forall2 (fun g c => (subseq c (fst g) /\ List.length c <= snd g) /\ forall m, In m (fst g) -> In (str m) (map str (List.concat cs)) -> In m c) (groups p) cs).
    { assert (Z1 : Forall2 (fun g c => subseq c (fst g) /\ List.length c <= snd g) (groups p) cs).
      { eapply Forall2_in_impl; [|exact F]. intros g' c Hg' (S & L'). split; auto. rewrite Forall_forall in O. pose proof (O g' Hg') as Og.
        destruct L' as [L'|[L' [M|(h & Hh & Lh)]]]; try lia. apply subseq_length in S.
        destruct (Nat.eq_dec (snd g') (List.length (fst h))) as [E|E]; [pose proof (G g' h Hg' Hh E); lia|lia]. }
      revert Z1. apply Forall2_conj_with. eapply Forall2_in_impl; [|exact T]. simpl. tauto. }
    destruct (Forall2_in_l _ _ _ Z g Hg) as (c & _ & [S Lc] & K). exists c. auto. }
  destruct Y as (c & S & Lc & K). eapply Nat.le_trans; [|exact Lc].
  assert (Ng : NoDup (fst g)).
  { apply (NoDup_map_inv str). clear -NG Hg. induction (groups p) as [|h gs IH]; [destruct Hg|]. cbn [flat_map] in NG. rewrite map_app in NG.
    destruct Hg as [->|Hg]; [eapply NoDup_app_l; exact NG|apply IH; auto; eapply NoDup_app_r; exact NG]. }
  apply NoDup_incl_length; [apply NoDup_filter; auto|]. intros m Hm. unfold taken in Hm. apply filter_In in Hm. destruct Hm as [Hm Ht].
  apply existsb_exists in Ht. destruct Ht as (y & Hy & E). apply script_eqb_eq in E. apply K; auto. rewrite E.
  (* y is in d: it comes from the choice or from the constant, which has no element of a group *)
  assert (Me : In m (flat_map fst (groups p))) by (apply in_flat_map; exists g; auto).
  assert (Ne : is_empty m = false).
  { destruct Hb as (cs0 & gs0 & B1 & B2 & ->). apply in_flat_map in Me. destruct Me as (g1 & Hg1 & Hm1). unfold mk_pm in Hg1. cbn [groups] in Hg1.
    apply (Permutation_in _ (sort_perm _ _)) in Hg1. apply in_map_iff in Hg1. destruct Hg1 as (g0 & <- & _). cbn [fst] in Hm1.
    apply (Permutation_in _ (sort_perm _ _)) in Hm1. apply filter_In in Hm1. destruct Hm1 as [_ Hm1]. apply negb_true_iff in Hm1. exact Hm1. }
  unfold mk_pm in Hy. cbn [constant] in Hy. destruct (isort (filter_empty d)) as [|x l] eqn:Es.
  - exfalso. destruct Hy as [<-|[]]. assert (Wm : wf m). { apply nf_wf. apply in_flat_map in Me. destruct Me as (g1 & Hg1 & Hm1). rewrite Forall_forall in H2. specialize (H2 g1 Hg1). unfold gok in H2. rewrite Forall_forall in H2. auto. }
    rewrite (is_empty_str m (Null 0) Wm) in Ne; [discriminate|cbv; lia|auto].
  - rewrite <- Es in Hy. apply (Permutation_in _ (sort_perm _ _)) in Hy. apply filter_In in Hy. destruct Hy as [Hy _]. destruct D as (_ & I & _).
    apply I, in_app_iff in Hy. destruct Hy as [Hy|Hy]; [apply in_map; auto|]. exfalso.
    apply (NoDup_app_disjoint _ _ (str m) NR); [rewrite E; apply in_map; auto|apply in_map; auto].
Qed.
Print Assumptions C22_multiplicity_partial.

Example C22_multiplicity_case : no_repetition P22 /\ safe_multiplicities (groups P22) /\
  map (taken (mk_pm [A_; B_; D_] [])) (groups P22) = [[D_]; [B_]].
Proof.
  split; [|split].
  - unfold no_repetition. replace (map str (constant P22 ++ flat_map fst (groups P22))) with ["wa."; "e."; "a."; "i."; "b."] by (vm_compute; reflexivity).
    repeat constructor; simpl; intuition discriminate.
  - vm_compute. intros g h [<-|[<-|[]]] [<-|[<-|[]]]; simpl; lia.
  - vm_compute. reflexivity.
Qed.

(** The claim on multiplicities fails on a polymorpheme that passes check(): two morphemes
    of a group of multiplicity one are taken. *)
Theorem C22_multiplicity_refuted : exists p s g,
  built p /\ check_pm p = Ok tt /\ In s (pm_ss ident p) /\ In g (groups p) /\ snd g < List.length (taken s g).
Proof.
  set (p := mk_pm [A_] [([B_], 1); ([D_; C_; text "e."], 1)]). exists p.
  exists (nth 8 (pm_ss ident p) p), (nth 0 (groups p) ([], 0)).
  split; [exists [A_], [([B_], 1); ([D_; C_; text "e."], 1)]; split; [good|split; [good; good; text_reg|reflexivity]]|].
  split; [vm_compute; reflexivity|]. split; [apply nth_In; vm_compute; lia|]. split; [apply nth_In; vm_compute; lia|].
  vm_compute. lia.
Qed.
Print Assumptions C22_multiplicity_refuted.

(** A polymorpheme without constant has a singular sequence without any morpheme. *)
Theorem C22_no_morpheme_refuted : exists p s, built p /\ check_pm p = Ok tt /\ In s (pm_ss ident p) /\ pm_str s = "" /\ pm_empty s = true.
Proof.
  exists (mk_pm [] [([A_; B_], 1)]), (mk_pm [] []). split; [exists [], [([A_; B_], 1)]; split; [good|split; [good; good|reflexivity]]|].
  split; [vm_compute; reflexivity|]. split; [vm_compute; auto|]. split; vm_compute; reflexivity.
Qed.
Print Assumptions C22_no_morpheme_refuted.

(** * C24 *)
(** A polymorpheme with groups can have exactly one singular sequence, different from
    itself; the claim holds for the lexemes without such a part. *)
Definition plain_or_plural (so : list script -> list script) (p : pm) : Prop := List.length (pm_ss so p) = 1 -> groups p = [].
Theorem C24_product_partial : forall so l, set_order so -> built_lexeme l ->
  plain_or_plural so (pm_flexion l) -> plain_or_plural so (pm_content l) ->
  (forall x, In x (lexeme_ss so l) <-> In (pm_flexion x) (pm_ss so (pm_flexion l)) /\ In (pm_content x) (pm_ss so (pm_content l))) /\
  List.length (lexeme_ss so l) = List.length (pm_ss so (pm_flexion l)) * List.length (pm_ss so (pm_content l)) /\
  NoDup (map lexeme_str (lexeme_ss so l)).
Proof.
  intros so l SO Hb Gf Gc.
  assert (E : lexeme_ss so l = flat_map (fun f => map (fun c => {| pm_flexion := f; pm_content := c |}) (pm_ss so (pm_content l))) (pm_ss so (pm_flexion l))).
  { unfold lexeme_ss. destruct (pm_singular so (pm_flexion l) && pm_singular so (pm_content l))%bool eqn:S; auto.
    apply andb_true_iff in S. unfold pm_singular in S. rewrite !Nat.eqb_eq in S. destruct S as [S1 S2].
    unfold pm_ss. rewrite (Gf S1), (Gc S2). destruct l. reflexivity. }
  rewrite E. split; [|split].
  - intros x. rewrite in_flat_map. split.
    + intros (f & Hf & Hx). apply in_map_iff in Hx. destruct Hx as (c & <- & Hc). auto.
    + intros [H1 H2]. exists (pm_flexion x). split; auto. apply in_map_iff. exists (pm_content x). split; auto. destruct x. reflexivity.
  - clear. induction (pm_ss so (pm_flexion l)) as [|f fs IH]; [reflexivity|]. cbn [flat_map List.length]. rewrite app_length, map_length, IH. lia.
  - assert (K : forall p, built p -> Forall pok (pm_ss so p) /\ NoDup (map pm_str (pm_ss so p))).
    { intros p Hp. pose proof (built_ok p Hp) as Po. destruct (groups p) as [|g gs] eqn:Eg.
      - unfold pm_ss. rewrite Eg. split; [auto|]. constructor; [tauto|constructor].
      - assert (N : groups p <> []) by congruence. split; [|apply C22_singular_sequences; auto]. rewrite pm_ss_groups by auto. destruct Po as [[H1 H2] _].
        destruct (traits_spec so (groups p) (constant p) SO N H2 H1) as (_ & _ & X). apply Forall_forall. intros s Hs.
        destruct (X s Hs) as (cs & d & Kp & D & L & ->). apply mk_pm_ok; [eapply distinct_nf; eauto|constructor]. }
    destruct Hb as [Hf Hc]. destruct (K _ Hf) as [F1 N1], (K _ Hc) as [F2 N2]. clear E Gf Gc.
    induction F1 as [|f fs Hfo F1 IH]; [constructor|]. cbn [flat_map map]. rewrite map_app. cbn [map] in N1. inversion N1 as [|? ? Nf N1']; subst.
    apply NoDup_app2; [|apply IH; auto|].
    + clear -F2 N2 Hfo. induction F2 as [|c cs Hco F2 IH]; [constructor|]. cbn [map] in *. inversion N2 as [|? ? Nc N2']; subst. constructor; [|apply IH; auto].
      intros X. apply Nc. apply in_map_iff in X. destruct X as (x & E & Hx). apply in_map_iff in Hx. destruct Hx as (c' & <- & Hc').
      rewrite Forall_forall in F2. apply lexeme_str_key in E; [|split; auto|split; auto]. destruct E as [_ E]. cbn [pm_content] in E. rewrite <- E. apply in_map. auto.
    + intros t Ht Ht'. apply Nf. apply in_map_iff in Ht, Ht'. destruct Ht as (x & Ex & Hx), Ht' as (y & Ey & Hy). apply in_map_iff in Hx. destruct Hx as (c & <- & Hc').
      apply in_flat_map in Hy. destruct Hy as (f' & Hf' & Hy). apply in_map_iff in Hy. destruct Hy as (c' & <- & Hc'').
      rewrite Forall_forall in F1, F2. rewrite <- Ey in Ex. apply lexeme_str_key in Ex; [|split; auto|split; auto]. destruct Ex as [Ex _]. cbn [pm_flexion] in Ex. rewrite Ex. apply in_map. auto.
Qed.
Print Assumptions C24_product_partial.

Definition L24 := {| pm_flexion := mk_pm [A_] []; pm_content := P22 |}.
Example C24_case : built_lexeme L24 /\ plain_or_plural ident (pm_flexion L24) /\ plain_or_plural ident (pm_content L24) /\
  map lexeme_str (firstn 2 (lexeme_ss ident L24)) = ["(wa.)(wa.)"; "(wa.)(wa. e.)"] /\ List.length (lexeme_ss ident L24) = 9.
Proof.
  split; [split; [exists [A_], []; split; [good|split; [constructor|reflexivity]]|apply P22_built]|].
  split; [intros _; reflexivity|]. split; [vm_compute; discriminate|]. split; vm_compute; reflexivity.
Qed.

(** A valid lexeme whose only singular sequence is itself, with a group. *)
Theorem C24_product_refuted : exists l, built_lexeme l /\ check_lexeme l = Ok tt /\
  List.length (pm_ss ident (pm_content l)) = 1 /\ lexeme_ss ident l = [l] /\
  ~ In (pm_str (pm_content l)) (map pm_str (pm_ss ident (pm_content l))).
Proof.
  set (Q := mk_pm [A_; B_; C_; D_; text "e."] [([text "u."], 1)]). exists {| pm_flexion := mk_pm [A_] []; pm_content := Q |}.
  split; [split; [exists [A_], []; split; [good|split; [constructor|reflexivity]]|exists [A_; B_; C_; D_; text "e."], [([text "u."], 1)]; split; [good; text_reg|split; [good; good; text_reg|reflexivity]]]|].
  split; [vm_compute; reflexivity|]. split; [vm_compute; reflexivity|]. split; [vm_compute; reflexivity|].
  vm_compute. intros [X|[]]. discriminate.
Qed.
Print Assumptions C24_product_refuted.

(** * C25 *)
Theorem C25_lexeme_strings : forall a b, built_lexeme a -> built_lexeme b ->
  (lexeme_eqb a b = true <->
   pm_eqb (pm_flexion a) (pm_flexion b) = true /\ pm_eqb (pm_content a) (pm_content b) = true).
Proof.
  intros a b Ha Hb. unfold lexeme_eqb, pm_eqb. rewrite !String.eqb_eq. apply lexeme_str_key; apply built_lexeme_ok; auto.
Qed.
Print Assumptions C25_lexeme_strings.
Example C25_case : built_lexeme L24 /\ lexeme_str L24 = "(wa.)(wa. m1(e. a.) m1(i. b.))" /\
  lexeme_str {| pm_flexion := mk_pm [] []; pm_content := mk_pm [A_] [] |} = "()(wa.)" /\
  lexeme_str {| pm_flexion := mk_pm [A_] []; pm_content := mk_pm [] [] |} = "(wa.)".
Proof. split; [apply C24_case|]. repeat split; vm_compute; reflexivity. Qed.
