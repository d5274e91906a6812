(** Exactly when three claims hold: the multiplicities of groups (C22), the singular sequences of words
    (C28) and the containment of lexemes (C83). *)
From Coq Require Import List String Bool NArith Arith Lia Permutation.
From Verif Require Import Base Script ScriptParser SortProofs ScriptWf ScriptOrderProofs ScriptSpec Commons Usl UslSpec OrderTheory UslProofs UslSsProofs Properties1 Properties8
  SfunSpec Sfun SfunProofs SfunListProofs SfunWordProofs Properties9 UslParser Member MemberSpec MemberProofs Properties27 UslTableSsProofs Properties34.
Import ListNotations.
Local Open Scope string_scope.

(** * C22 *)
(** Another group has as few morphemes as the multiplicity of [g], all groups have as many morphemes and
    as large multiplicities, [g] has more morphemes, and there is room for one more than that many of
    each group beside the constants. *)
Definition exceeded (p : pm) (g : group) : Prop :=
  (exists h, In h (groups p) /\ List.length (fst h) = snd g) /\ snd g < List.length (fst g) /\
  (forall k, In k (groups p) -> snd g <= List.length (fst k) /\ snd g <= snd k) /\
  List.length (constant p) + List.length (groups p) * snd g + 1 <= 5.
Lemma group_nonempty p g m : built p -> In g (groups p) -> In m (fst g) -> is_empty m = false.
Proof.
  intros (cs0 & gs0 & _ & _ & ->) Hg Hm. unfold mk_pm in Hg. cbn [groups] in Hg. apply (Permutation_in _ (sort_perm _ _)) in Hg. apply in_map_iff in Hg. destruct Hg as (g0 & <- & _). cbn [fst] in Hm.
  apply (Permutation_in _ (sort_perm _ _)) in Hm. apply filter_In in Hm. destruct Hm as [_ Hm]. now apply negb_true_iff in Hm.
Qed.
Lemma group_nodup (gs : list group) g : NoDup (map str (flat_map fst gs)) -> In g gs -> NoDup (map str (fst g)).
Proof. intros N H. induction gs as [|h gs IH]; [destruct H|]. cbn [flat_map] in N. rewrite map_app in N. destruct H as [->|H]; [eapply NoDup_app_l; exact N|apply IH; auto; eapply NoDup_app_r; exact N]. Qed.
Lemma subseq_firstn {A} n (l : list A) : subseq (firstn n l) l.
Proof. revert n. induction l as [|x l IH]; intros [|n]; cbn [firstn]; [constructor|constructor| |constructor; auto]. clear. constructor. Qed.
Lemma picked_nf (gs : list group) cs : Forall gok gs -> Forall2 (fun g c => subseq c (fst g)) gs cs -> Forall nf (List.concat cs).
Proof.
  intros K F. induction F as [|g c gs cs S F IH]; [constructor|]. apply Forall_cons_iff in K. destruct K as [Kg K]. cbn [List.concat]. apply Forall_app. split; [|auto]. unfold gok in Kg. rewrite Forall_forall in *. intros x Hx. apply Kg, (subseq_incl _ _ S), Hx.
Qed.
Lemma picked_distinct (gs : list group) cs : NoDup (map str (flat_map fst gs)) -> Forall2 (fun g c => subseq c (fst g)) gs cs -> NoDup (map str (List.concat cs)) /\ incl (List.concat cs) (flat_map fst gs).
Proof.
  intros N F. induction F as [|g c gs cs S F IH]; [split; [constructor|intros x []]|]. cbn [flat_map] in N. rewrite map_app in N. destruct (IH (NoDup_app_r _ _ N)) as [N' I]. pose proof (NoDup_app_l _ _ N) as Ng. cbn [List.concat flat_map]. split.
  - rewrite map_app. assert (Nc : NoDup (map str c)). { clear - S Ng. induction S as [l|y c l S IH|y c l S IH]; cbn [map] in *; [constructor| |]; apply NoDup_cons_iff in Ng; destruct Ng as [N1 N2]; auto. constructor; auto. intros X. apply N1. apply in_map_iff in X. destruct X as (z & E & Hy). rewrite <- E. apply in_map, (subseq_incl _ _ S), Hy. }
    assert (D : forall x, In x (map str c) -> ~ In x (map str (List.concat cs))). { intros x Hx Hx'. apply (NoDup_app_disjoint _ _ x N); [apply in_map_iff in Hx; destruct Hx as (y & <- & Hy); apply in_map, (subseq_incl _ _ S), Hy|apply in_map_iff in Hx'; destruct Hx' as (y & <- & Hy); apply in_map, I, Hy]. }
    revert Nc D. generalize (map str c) as l. induction l as [|x l IHl]; intros Nc D; [exact N'|]. apply NoDup_cons_iff in Nc. destruct Nc as [N1 N2]. cbn [app]. constructor; [intros X; apply in_app_or in X; destruct X as [X|X]; [auto|apply (D x (or_introl eq_refl) X)]|apply IHl; [exact N2|intros y Hy; apply D; now right]].
  - intros x Hx. apply in_or_app. apply in_app_or in Hx. destruct Hx as [Hx|Hx]; [left; apply (subseq_incl _ _ S), Hx|right; apply I, Hx].
Qed.
(** Some singular sequence takes more morphemes of [g] than its multiplicity exactly when [g] is
    exceeded: the claim is false for these polymorphemes only. *)
Theorem C22_exceeded : forall so p g, set_order so -> built p -> no_repetition p -> In g (groups p) ->
  ((exists s, In s (pm_ss so p) /\ snd g < List.length (taken s g)) <-> exceeded p g).
Proof.
  intros so p g SO Hb NR Hg. assert (N : groups p <> []) by (intros E; rewrite E in Hg; destruct Hg). pose proof (built_ok p Hb) as [[H1 H2] _]. rewrite pm_ss_groups by auto.
  destruct (traits_spec so (groups p) (constant p) SO N H2 H1) as (_ & T & X). unfold no_repetition in NR. rewrite map_app in NR. pose proof (NoDup_app_r _ _ NR) as NG. pose proof (NoDup_app_l _ _ NR) as NC.
  split.
  - intros (s & Hs & Lt). destruct (X s Hs) as (cs & d & (q & O & F) & D & L & ->). clear X T Hs.
    assert (F0 : Forall2 (fun g c => subseq c (fst g)) (groups p) cs) by (eapply Forall2_in_impl; [|exact F]; simpl; tauto).
    pose proof (Forall2_conj_with _ _ _ _ F (taken_from _ _ NG F0)) as Z. destruct (Forall2_in_l _ _ _ Z g Hg) as (c & Hc & (Sb & K) & (_ & Lc)).
    assert (Lm : List.length (taken (mk_pm d []) g) <= List.length c).
    { apply NoDup_incl_length; [apply NoDup_filter, (NoDup_map_inv str), (group_nodup _ g NG Hg)|]. intros m Hm. unfold taken in Hm. apply filter_In in Hm. destruct Hm as [Hm Ht]. apply existsb_exists in Ht. destruct Ht as (y & Hy & E). apply script_eqb_eq in E. apply K; auto. rewrite E.
      pose proof (group_nonempty p g m Hb Hg Hm) as Ne. unfold mk_pm in Hy. cbn [constant] in Hy. destruct (isort (filter_empty d)) as [|x l] eqn:Es.
      - exfalso. destruct Hy as [<-|[]]. assert (Wm : wf m) by (apply nf_wf; rewrite Forall_forall in H2; specialize (H2 g Hg); unfold gok in H2; rewrite Forall_forall in H2; auto). rewrite (is_empty_str m (Null 0) Wm) in Ne; [discriminate|cbv; lia|auto].
      - rewrite <- Es in Hy. apply (Permutation_in _ (sort_perm _ _)) in Hy. apply filter_In in Hy. destruct Hy as [Hy _]. destruct D as (_ & I & _). apply I, in_app_iff in Hy. destruct Hy as [Hy|Hy]; [apply in_map; auto|]. exfalso.
        apply (NoDup_app_disjoint _ _ (str m) NR); [rewrite E; apply in_map; auto|apply in_map, in_flat_map; eauto]. }
    rewrite Forall_forall in O. pose proof (O g Hg) as [O1 O2]. pose proof (subseq_length _ _ Sb) as Ls. destruct Lc as [Lc|(Lc & [Lc'|(h & Hh & Lh)])]; [lia|lia|]. assert (Eq : snd g = q) by lia. unfold exceeded. rewrite Eq.
    split; [eauto|]. split; [lia|]. split; [intros k Hk; apply O; exact Hk|].
    (* the morphemes taken are all different *)
    destruct (picked_distinct _ _ NG F0) as [Np Ip]. destruct D as (_ & _ & D3).
    assert (Nall : NoDup (map str (List.concat cs ++ constant p))).
    { rewrite map_app. apply (Permutation_NoDup (Permutation_app_comm _ _)). apply NoDup_app2; auto. intros x Hx Hx'. apply (NoDup_app_disjoint _ _ x NR Hx). apply in_map_iff in Hx'. destruct Hx' as (y & <- & Hy). apply in_map, Ip, Hy. }
    assert (Li : List.length (List.concat cs ++ constant p) <= 5).
    { rewrite <- (map_length str). eapply Nat.le_trans; [apply (NoDup_incl_length Nall (l' := map str d))|rewrite map_length; lia]. intros x Hx. apply in_map_iff in Hx. destruct Hx as (y & <- & Hy). apply D3, Hy. }
    rewrite app_length in Li. assert (Lq : List.length (groups p) * q + 1 <= List.length (List.concat cs)); [|lia].
    assert (Fq : Forall2 (fun (_ : group) c => q <= List.length c) (groups p) cs) by (eapply Forall2_in_impl; [|exact F]; cbn; intros a b _ (_ & [E|(E & _)]); lia).
    clear - Fq Hc Lc. revert Hc. induction Fq as [|a b gs cs H Fq IH]; intros Hc; [destruct Hc|]. cbn [List.length List.concat Nat.mul]. rewrite app_length. destruct Hc as [->|Hc]; [|specialize (IH Hc); lia].
    assert (List.length gs * q <= List.length (List.concat cs)); [|lia]. clear - Fq. induction Fq; cbn [List.length List.concat Nat.mul]; [lia|]. rewrite app_length. lia.
  - intros ((h & Hh & Eh) & Lg & Hk & Lm). set (q := snd g) in *. destruct (in_split _ _ Hg) as (g1 & g2 & Eg).
    set (cs := (map (fun k => firstn q (fst k)) g1 ++ firstn (S q) (fst g) :: map (fun k => firstn q (fst k)) g2)%list).
    assert (P1 : forall l, incl l (groups p) -> Forall2 (fun g c => subseq c (fst g) /\ (List.length c = q \/ (List.length c = S q /\ (S q <= snd g \/ exists h, In h (groups p) /\ List.length (fst h) = q)))) l (map (fun k => firstn q (fst k)) l)).
    { induction l as [|k l IH]; intros I; cbn [map]; constructor; [|apply IH; intros z Hz; apply I; now right]. split; [apply subseq_firstn|left]. apply firstn_length_le. apply Hk, I. now left. }
    assert (Pk : picks (groups p) cs).
    { exists q. split; [apply Forall_forall; intros k Hk'; apply Hk; exact Hk'|]. unfold cs. match goal with |- Forall2 ?R _ _ => enough (P2 : forall l, l = (g1 ++ g :: g2)%list -> Forall2 R l cs) by exact (P2 _ Eg) end. intros l ->. apply Forall2_app; [apply P1; intros z Hz; rewrite Eg; apply in_or_app; auto|]. constructor; [|apply P1; intros z Hz; rewrite Eg; apply in_or_app; right; now right].
      split; [apply subseq_firstn|right]. split; [apply firstn_length_le; lia|right; eauto]. }
    assert (F0 : Forall2 (fun g c => subseq c (fst g)) (groups p) cs) by (destruct Pk as (q' & _ & F); eapply Forall2_in_impl; [|exact F]; simpl; tauto).
    destruct (picked_distinct _ _ NG F0) as [Np Ip].
    assert (Nall : NoDup (map str (List.concat cs ++ constant p))).
    { rewrite map_app. apply (Permutation_NoDup (Permutation_app_comm _ _)). apply NoDup_app2; auto. intros x Hx Hx'. apply (NoDup_app_disjoint _ _ x NR Hx). apply in_map_iff in Hx'. destruct Hx' as (y & <- & Hy). apply in_map, Ip, Hy. }
    assert (Lcs : List.length (List.concat cs) <= List.length (groups p) * q + 1).
    { unfold cs. rewrite concat_app, app_length. cbn [List.concat]. rewrite app_length. assert (A : forall l : list group, List.length (List.concat (map (fun k => firstn q (fst k)) l)) <= List.length l * q) by (induction l as [|k l IH]; cbn [map List.concat List.length Nat.mul]; [lia|]; rewrite app_length; pose proof (firstn_le_length q (fst k)); lia).
      pose proof (A g1). pose proof (A g2). pose proof (firstn_le_length (S q) (fst g)). rewrite Eg, app_length. cbn [List.length]. nia. }
    set (d := (List.concat cs ++ constant p)%list) in *. assert (Ld : 1 <= List.length d <= 5). { unfold d. rewrite app_length. split; [|lia]. assert (1 <= List.length (constant p)); [|lia]. destruct Hb as (c0 & gs & _ & _ & ->). cbn [mk_pm constant]. destruct (isort _); cbn; lia. }
    assert (R : In (pm_str (mk_pm d [])) (map pm_str (traits so (groups p) (constant p)))).
    { apply T. exists cs. split; [exact Pk|]. exists d. split; [|auto]. split; [exact Nall|]. split; [apply incl_refl|]. intros x Hx. now apply in_map. }
    apply in_map_iff in R. destruct R as (s & Es & Hs). exists s. split; [exact Hs|]. destruct (X s Hs) as (cs' & d' & Pk' & D' & _ & Es'). subst s.
    assert (Nd : Forall nf d) by (apply Forall_app; split; [now apply (picked_nf (groups p))|exact H1]).
    assert (Nd' : Forall nf d').
    { destruct Pk' as (q' & _ & F'). assert (F0' : Forall2 (fun g c => subseq c (fst g)) (groups p) cs') by (eapply Forall2_in_impl; [|exact F']; simpl; tauto). pose proof (picked_nf _ _ H2 F0') as Q. rewrite Forall_forall in *. intros x Hx. destruct D' as (_ & I & _). apply I, in_app_iff in Hx. destruct Hx; auto. }
    apply pm_str_key in Es; [|apply mk_pm_ok; auto; constructor..]. unfold pkey in Es. injection Es as Es. pose proof Es as Es'. apply (mk_pm_constant_key d' d [] []) in Es'; [|auto..].
    assert (In1 : incl (firstn (S q) (fst g)) (taken (mk_pm d' []) g)).
    { intros m Hm. assert (Hmg : In m (fst g)) by (apply (subseq_incl _ _ (subseq_firstn (S q) (fst g)) m Hm)). unfold taken. apply filter_In. split; [exact Hmg|]. apply existsb_exists.
      assert (Hd : In (str m) (map str (filter_empty d'))). { eapply Permutation_in; [apply Permutation_sym, Es'|]. apply in_map. apply filter_In. split; [|rewrite (group_nonempty p g m Hb Hg Hmg); reflexivity]. unfold d. apply in_or_app. left. apply in_concat. exists (firstn (S q) (fst g)). split; [unfold cs; apply in_or_app; right; now left|exact Hm]. }
      apply in_map_iff in Hd. destruct Hd as (y & Ey & Hy). exists y. split; [|apply script_eqb_eq; auto]. assert (Hy' : In y (isort (filter_empty d'))) by (apply (Permutation_in _ (Permutation_sym (sort_perm _ _))); exact Hy). unfold mk_pm. cbn [constant]. destruct (isort (filter_empty d')) as [|z l]; [destruct Hy'|exact Hy']. }
    apply (Nat.lt_le_trans _ (S q)); [unfold q; lia|]. rewrite <- (firstn_length_le (fst g) (n := S q)) by lia. apply NoDup_incl_length; [|exact In1].
    pose proof (NoDup_map_inv str _ (group_nodup _ g NG Hg)) as Ngg. rewrite <- (firstn_skipn (S q) (fst g)) in Ngg. now apply NoDup_app_l in Ngg.
Qed.
Print Assumptions C22_exceeded.

(** The polymorpheme that refutes the claim, a wider one and one with a larger multiplicity. *)
Definition P22e (c : list script) (n : nat) := mk_pm c [([B_], n); ([D_; C_; text "e."], 1)].
Lemma P22e_ok c n : incl c [A_; text "o."; text "u."] -> built (P22e c n).
Proof. intros H. exists c, [([B_], n); ([D_; C_; text "e."], 1)]. split; [apply Forall_forall; intros x Hx; apply H in Hx; destruct Hx as [<-|[<-|[<-|[]]]]; [auto using A_reg|text_reg|text_reg]|]. split; [good; good; text_reg|reflexivity]. Qed.
Example C22_exceeded_case : (forall n, built (P22e [A_] n)) /\ no_repetition (P22e [A_] 1) /\ exceeded (P22e [A_] 1) ([text "e."; D_; C_], 1) /\
  no_repetition (P22e [A_; text "o."; text "u."] 1) /\ ~ exceeded (P22e [A_; text "o."; text "u."] 1) ([text "e."; D_; C_], 1) /\ In ([text "e."; D_; C_], 1) (groups (P22e [A_] 1)).
Proof.
  split; [intros n; apply P22e_ok; intros x [<-|[]]; now left|]. split; [unfold no_repetition; vm_compute; repeat constructor; cbn; intuition discriminate|]. split.
  - split; [exists ([B_], 1); split; [vm_compute; auto|reflexivity]|]. split; [cbn; lia|]. split; [intros k Hk; vm_compute in Hk; destruct Hk as [<-|[<-|[]]]; cbn; lia|vm_compute; lia].
  - split; [unfold no_repetition; vm_compute; repeat constructor; cbn; intuition discriminate|]. split; [|vm_compute; auto]. intros (_ & _ & _ & L). vm_compute in L. lia.
Qed.

(** * C28 *)
(** A choice of singular sequences of the flexion and of the content of each lexeme. *)
Definition parts_choice (so : list script -> list script) (l : addressed) (xs : list lexeme) : Prop :=
  Forall2 (fun e x => exists y, snd e = Some y /\ In (pm_flexion x) (pm_ss so (pm_flexion y)) /\ In (pm_content x) (pm_ss so (pm_content y))) l xs.
(** The lexemes that C24_exact excepts. *)
Definition kept_whole (so : list script -> list script) (y : lexeme) : Prop :=
  List.length (pm_ss so (pm_flexion y)) = 1 /\ List.length (pm_ss so (pm_content y)) = 1 /\ (groups (pm_flexion y) <> [] \/ groups (pm_content y) <> []).
Lemma kept_whole_ss so y : kept_whole so y -> lexeme_ss so y = [y].
Proof. intros (L1 & L2 & _). unfold lexeme_ss, pm_singular. now rewrite L1, L2. Qed.
Lemma kept_whole_not so y : set_order so -> built_lexeme y -> kept_whole so y -> ~ (In (pm_flexion y) (pm_ss so (pm_flexion y)) /\ In (pm_content y) (pm_ss so (pm_content y))).
Proof. intros SO Hb (_ & _ & G) [Hf Hc]. pose proof (built_lexeme_ok y Hb) as [Of Oc]. apply (pss_plain so SO) in Hf; auto. apply (pss_plain so SO) in Hc; auto. destruct G; contradiction. Qed.
Lemma parts_some so y x : In (pm_flexion x) (pm_ss so (pm_flexion y)) -> In (pm_content x) (pm_ss so (pm_content y)) -> exists z, In z (lexeme_ss so y).
Proof.
  intros H1 H2. unfold lexeme_ss. destruct (_ && _)%bool; [exists y; now left|]. exists {| pm_flexion := pm_flexion x; pm_content := pm_content x |}. apply in_flat_map. exists (pm_flexion x). split; auto. apply in_map_iff. eauto.
Qed.
Lemma choices_exact so (l : addressed) : set_order so -> (forall e y, In e l -> snd e = Some y -> built_lexeme y) ->
  ((forall xs, choice so l xs <-> parts_choice so l xs) <-> (forall xs, ~ choice so l xs) \/ forall e y, In e l -> snd e = Some y -> ~ kept_whole so y).
Proof.
  intros SO Hb. split.
  - intros H. assert (D : (exists e y, In e l /\ snd e = Some y /\ kept_whole so y) \/ forall e y, In e l -> snd e = Some y -> ~ kept_whole so y).
    { clear. assert (Dk : forall y, kept_whole so y \/ ~ kept_whole so y).
      { intros y. unfold kept_whole. destruct (Nat.eq_dec (List.length (pm_ss so (pm_flexion y))) 1); [|tauto]. destruct (Nat.eq_dec (List.length (pm_ss so (pm_content y))) 1); [|tauto]. destruct (groups (pm_flexion y)), (groups (pm_content y)); [right; tauto|left; intuition discriminate..]. }
      induction l as [|[r o] l IH]; [right; intros e y []|]. destruct IH as [(e & y & He & E & K)|IH]; [left; exists e, y; split; [now right|auto]|]. destruct o as [y|]; [destruct (Dk y) as [K|K]; [left; exists (r, Some y), y; split; [now left|auto]|]|]; right; intros e z [<-|He] E; cbn [snd] in E; try discriminate; try (injection E as <-; exact K); now apply (IH e z He). }
    destruct D as [(e & y & He & E & K)|D]; [left|right; exact D]. intros xs Hx. pose proof (proj1 (H xs) Hx) as Px. destruct (Forall2_in_l _ _ _ (Forall2_conj_with _ _ _ _ Px Hx) e He) as (x & _ & (y1 & E1 & X1) & (y2 & E2 & Hf & Hc)). assert (y1 = y) by congruence. assert (y2 = y) by congruence. subst y1 y2.
    rewrite (kept_whole_ss so y K) in X1. destruct X1 as [<-|[]]. apply (kept_whole_not so y SO (Hb e y He E) K). auto.
  - intros D xs. destruct D as [D|D].
    + split; [intros H; elim (D xs H)|]. intros Hp. assert (X : exists ys, choice so l ys).
      { clear - Hp. induction Hp as [|e x l xs (y & E & Hf & Hc) Hp (ys & IH)]; [exists []; constructor|]. destruct (parts_some so y x Hf Hc) as (z & Hz). exists (z :: ys). constructor; eauto. }
      destruct X as (ys & Hy). elim (D ys Hy).
    + assert (P : forall e x, In e l -> ((exists y, snd e = Some y /\ In x (lexeme_ss so y)) <-> exists y, snd e = Some y /\ In (pm_flexion x) (pm_ss so (pm_flexion y)) /\ In (pm_content x) (pm_ss so (pm_content y)))).
      { intros e x He. split; intros (y & E & Hx); exists y; (split; [exact E|]); apply (proj2 (C24_exact so y SO (Hb e y He E)) (D e y He E)); exact Hx. }
      unfold choice, parts_choice. split; apply Forall2_in_impl; intros e x He; apply P; exact He.
Qed.
Lemma refilled_inj (l : addressed) xs ys : List.length xs = List.length l -> List.length ys = List.length l -> refilled l xs = refilled l ys -> xs = ys.
Proof.
  unfold refilled. revert xs ys. induction l as [|e l IH]; intros [|x xs] [|y ys] Lx Ly; cbn; try discriminate; auto. intros E. injection E as -> E. f_equal. cbn in Lx, Ly. apply IH; auto.
Qed.
(** The singular sequences of a word have the roles filled with the combinations of the singular
    sequences of all its flexions and contents exactly when it has none, or no lexeme is one that C24
    excepts. *)
Theorem C28_exact : forall so (l0 : addressed) r w l ws, set_order so ->
  word_of l0 r = Ok w -> l = as_list (w_context w) (w_fun w) -> (forall e, In e l -> exists y, snd e = Some y /\ built_lexeme y) -> word_ss so w = Ok ws ->
  ((forall xs, List.length xs = List.length l -> ((exists w', In w' ws /\ as_list (w_context w) (w_fun w') = refilled l xs) <-> parts_choice so l xs)) <->
   ws = [] \/ forall e y, In e l -> snd e = Some y -> ~ kept_whole so y).
Proof.
  intros so l0 r w l ws SO W El Hl Ews. destruct (C28_product so l0 r w l W El) as (ws' & E & _ & H1 & H2); [intros e He X; destruct (Hl e He) as (y & Ey & _); congruence|]. assert (ws' = ws) by congruence. subst ws'.
  assert (Hb : forall e y, In e l -> snd e = Some y -> built_lexeme y) by (intros e y He Ey; destruct (Hl e He) as (z & Ez & B); congruence).
  assert (C : forall xs, List.length xs = List.length l -> ((exists w', In w' ws /\ as_list (w_context w) (w_fun w') = refilled l xs) <-> choice so l xs)).
  { intros xs Lx. split; [|apply H2]. intros (w' & Hw & Ew). destruct (H1 w' Hw) as (_ & _ & ys & Cy & Ey). rewrite Ew in Ey. assert (Ly : List.length ys = List.length l) by (symmetry; apply (Forall2_len _ _ _ Cy)). now rewrite (refilled_inj l xs ys Lx Ly Ey). }
  assert (Z : ws = [] <-> forall xs, ~ choice so l xs).
  { split; [intros -> xs Hx; destruct (H2 xs Hx) as (w' & [] & _)|]. intros N. destruct ws as [|w' ws]; [reflexivity|]. destruct (H1 w' (or_introl eq_refl)) as (_ & _ & ys & Cy & _). elim (N ys Cy). }
  rewrite Z, <- (choices_exact so l SO Hb). split.
  - intros H xs. destruct (Nat.eq_dec (List.length xs) (List.length l)) as [L|L]; [rewrite <- (C xs L); auto|]. split; intros X; elim L; symmetry; apply (Forall2_len _ _ _ X).
  - intros H xs L. rewrite (C xs L). auto.
Qed.
Print Assumptions C28_exact.

(** * C83 *)
Lemma groups_text p q : pok p -> pok q -> pm_str p = pm_str q -> groups p = [] -> groups q = [].
Proof. intros Op Oq E G. apply pm_str_key in E; auto. unfold pkey in E. rewrite G in E. injection E as _ E. destruct (groups q); [reflexivity|discriminate E]. Qed.
Lemma kept_dec so y : kept_whole so y \/ ~ kept_whole so y.
Proof. unfold kept_whole. destruct (Nat.eq_dec (List.length (pm_ss so (pm_flexion y))) 1); [|tauto]. destruct (Nat.eq_dec (List.length (pm_ss so (pm_content y))) 1); [|tauto]. destruct (groups (pm_flexion y)), (groups (pm_content y)); [right; tauto|left; intuition discriminate..]. Qed.
(** A lexeme with singular sequences is in another one exactly when its flexion and its content are in
    those of the other and none is a lexeme that C24 excepts; a lexeme that C24 excepts is only in
    those written alike. *)
Theorem C83_lexemes_exact : forall so a b n, set_order so -> built_lexeme a -> built_lexeme b -> usl_len so (ULexeme a) = Ok (S n) ->
  (usl_in so (ULexeme a) (ULexeme b) = Ok true <->
   (~ kept_whole so a /\ ~ kept_whole so b /\ usl_in so (UPm (pm_flexion a)) (UPm (pm_flexion b)) = Ok true /\ usl_in so (UPm (pm_content a)) (UPm (pm_content b)) = Ok true) \/
   (kept_whole so a /\ kept_whole so b /\ lexeme_str a = lexeme_str b)).
Proof.
  intros so a b n SO Ba Bb La. pose proof (built_lexeme_ok a Ba) as Oa. pose proof (built_lexeme_ok b Bb) as Ob. assert (Pa := lss_ok so SO a Oa). assert (Pb := lss_ok so SO b Ob). rewrite Forall_forall in Pa, Pb.
  rewrite (uin_ok so (ULexeme a) (ULexeme b) _ _ eq_refl eq_refl eq_refl), (uin_ok so (UPm (pm_flexion a)) (UPm (pm_flexion b)) _ _ eq_refl eq_refl eq_refl), (uin_ok so (UPm (pm_content a)) (UPm (pm_content b)) _ _ eq_refl eq_refl eq_refl), !map_map. cbn [usl_str].
  assert (X : exists x, In x (lexeme_ss so a)) by (unfold usl_len in La; cbn in La; rewrite map_length in La; destruct (lexeme_ss so a) as [|x]; [discriminate|exists x; now left]). destruct X as (x0 & X0).
  assert (NK : forall y z, built_lexeme y -> ~ kept_whole so y -> In z (lexeme_ss so y) -> groups (pm_flexion z) = [] /\ groups (pm_content z) = []).
  { intros y z By K Hz. pose proof (built_lexeme_ok y By) as [Of Oc]. apply (proj2 (C24_exact so y SO By) K) in Hz. destruct Hz as [Hf Hc]. apply (pss_plain so SO) in Hf; auto. apply (pss_plain so SO) in Hc; auto. }
  assert (Mix : forall y z, lok y -> lok z -> lexeme_str y = lexeme_str z -> groups (pm_flexion y) = [] /\ groups (pm_content y) = [] -> groups (pm_flexion z) = [] /\ groups (pm_content z) = []).
  { intros y z Oy Oz E [G1 G2]. apply lexeme_str_key in E; auto. destruct E as [E1 E2]. destruct Oy, Oz. split; [apply (groups_text (pm_flexion y))|apply (groups_text (pm_content y))]; auto. }
  destruct (kept_dec so a) as [Ka|Ka], (kept_dec so b) as [Kb|Kb].
  - rewrite (kept_whole_ss so a Ka), (kept_whole_ss so b Kb). cbn [map In]. split; [intros H; right; split; [exact Ka|split; [exact Kb|]]; destruct (H _ (or_introl eq_refl)) as [E|[]]; auto|]. intros [(N & _)|(_ & _ & E)]; [contradiction|]. intros t [<-|[]]. left. auto.
  - rewrite (kept_whole_ss so a Ka). cbn [map]. split; [|intros [(N & _)|(_ & N & _)]; contradiction]. intros H. exfalso. specialize (H _ (or_introl eq_refl)). apply in_map_iff in H. destruct H as (z & E & Hz). pose proof (NK b z Bb Kb Hz) as G. apply (Mix z a (Pb z Hz) Oa E) in G. destruct Ka as (_ & _ & [K|K]); tauto.
  - rewrite (kept_whole_ss so b Kb). split; [|intros [(_ & N & _)|(N & _)]; contradiction]. intros H. exfalso. specialize (H _ (in_map lexeme_str _ _ X0)). cbn [map In] in H. destruct H as [E|[]]. pose proof (NK a x0 Ba Ka X0) as G. symmetry in E. apply (Mix x0 b (Pa x0 X0) Ob E) in G. destruct Kb as (_ & _ & [K|K]); tauto.
  - pose proof (proj2 (C24_exact so a SO Ba) Ka) as Ia. pose proof (proj2 (C24_exact so b SO Bb) Kb) as Ib. apply Ia in X0. destruct X0 as [Xf Xc]. split.
    + intros H. left. split; [exact Ka|]. split; [exact Kb|]. split; intros t Ht; apply in_map_iff in Ht; destruct Ht as (q & <- & Hq).
      * assert (Y : In {| pm_flexion := q; pm_content := pm_content x0 |} (lexeme_ss so a)) by (apply Ia; auto). pose proof (H _ (in_map lexeme_str _ _ Y)) as Z. apply in_map_iff in Z. destruct Z as (z & Ez & Hz). apply lexeme_str_key in Ez; auto. destruct Ez as [Ez _]. cbn in Ez. rewrite <- Ez. apply in_map. now apply Ib in Hz.
      * assert (Y : In {| pm_flexion := pm_flexion x0; pm_content := q |} (lexeme_ss so a)) by (apply Ia; auto). pose proof (H _ (in_map lexeme_str _ _ Y)) as Z. apply in_map_iff in Z. destruct Z as (z & Ez & Hz). apply lexeme_str_key in Ez; auto. destruct Ez as [_ Ez]. cbn in Ez. rewrite <- Ez. apply in_map. now apply Ib in Hz.
    + intros [(_ & _ & Hf & Hc)|(K & _)]; [|contradiction]. intros t Ht. apply in_map_iff in Ht. destruct Ht as (x & <- & Hx). assert (Lx := Pa x Hx). apply Ia in Hx. destruct Hx as [H1 H2]. apply (in_map pm_str), Hf, in_map_iff in H1. apply (in_map pm_str), Hc, in_map_iff in H2. destruct H1 as (f & E1 & H1), H2 as (c & E2 & H2).
      assert (Y : In {| pm_flexion := f; pm_content := c |} (lexeme_ss so b)) by (apply Ib; auto). apply in_map_iff. exists {| pm_flexion := f; pm_content := c |}. split; auto. apply lexeme_str_key; auto.
Qed.
Print Assumptions C83_lexemes_exact.
Definition K83 : lexeme := {| pm_flexion := Q24; pm_content := mk_pm [A_] [] |}.
Example C28_C83_exact_case : built_lexeme K83 /\ kept_whole ident K83 /\ ~ kept_whole ident L83 /\ usl_len ident (ULexeme K83) = Ok 1 /\
  usl_in ident (ULexeme K83) (ULexeme K83) = Ok true /\ usl_in ident (ULexeme S83) (ULexeme L83) = Ok true /\ usl_in ident (ULexeme {| pm_flexion := hd Q24 (pm_ss ident Q24); pm_content := mk_pm [A_] [] |}) (ULexeme K83) = Ok false.
Proof.
  split; [split; [exact Q24_built|exists [A_], []; split; [good|split; [constructor|reflexivity]]]|]. split; [split; [vm_compute; reflexivity|split; [vm_compute; reflexivity|left; vm_compute; discriminate]]|].
  split; [intros (_ & L & _); vm_compute in L; discriminate|]. repeat (split; [vm_compute; reflexivity|]). vm_compute. reflexivity.
Qed.
