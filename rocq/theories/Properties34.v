(** When the singular sequences of a lexeme are exactly those of its parts: C24. *)
From Coq Require Import List String Bool NArith Arith Lia Permutation.
From Verif Require Import Base Script ScriptParser SortProofs ScriptWf ScriptOrderProofs ScriptSpec Commons Usl UslSpec OrderTheory UslProofs UslSsProofs Properties1 Properties8 MemberProofs.
Import ListNotations.
Local Open Scope string_scope.

(** * C24 *)
(** A polymorpheme with groups has exactly one singular sequence when it has five constants, and none
    when it has more. *)
Definition usable_groups (p : pm) : Prop := groups p <> [] /\ forall g, In g (groups p) -> fst g <> [] /\ 1 <= snd g.
Lemma no_choice gs : picks gs (map (fun _ => []) gs).
Proof.
  exists 0. split; [apply Forall_forall; intros; lia|]. induction gs as [|g gs IH]; cbn [map]; constructor.
  - split; [constructor|now left].
  - eapply Forall2_in_impl; [|exact IH]. cbn. intros a b _ [H1 [H2|(H2 & H3)]]; split; auto. right. split; [exact H2|]. destruct H3 as [H3|(h & Hh & E)]; [now left|right; exists h; split; [now right|exact E]].
Qed.
Lemma one_choice g gs m ms : fst g = m :: ms -> 1 <= snd g -> picks (g :: gs) ([m] :: map (fun _ => []) gs).
Proof.
  intros E L. exists 0. split; [apply Forall_forall; intros; lia|]. constructor.
  - split; [rewrite E; constructor; constructor|right; split; [reflexivity|now left]].
  - induction gs as [|h gs IH]; cbn [map]; constructor.
    + split; [constructor|now left].
    + eapply Forall2_in_impl; [|exact IH]. cbn. intros a b _ [H1 [H2|(H2 & H3)]]; split; auto. right. split; [exact H2|]. destruct H3 as [H3|(h' & [Hh|Hh] & E')]; [now left| |]; right; exists h'; (split; [|exact E']); [now left|now right; right].
Qed.
Lemma concat_none {A B} (l : list A) : List.concat (map (fun _ => @nil B) l) = [].
Proof. induction l; auto. Qed.
Theorem C24_single : forall so p, set_order so -> built p -> no_repetition p -> usable_groups p ->
  (List.length (pm_ss so p) = 0 <-> 5 < List.length (constant p)) /\ (List.length (pm_ss so p) = 1 <-> List.length (constant p) = 5).
Proof.
  intros so p SO Hb NR [NE Hg]. pose proof (built_ok p Hb) as Po. destruct Po as [[K1 K2] _]. rewrite pm_ss_groups by auto. destruct (traits_spec so (groups p) (constant p) SO NE K2 K1) as (N & S & _).
  unfold no_repetition in NR. rewrite map_app in NR. pose proof (NoDup_app_l _ _ NR) as NC.
  assert (C1 : 1 <= List.length (constant p)) by (destruct Hb as (cs & gs & _ & _ & ->); cbn [mk_pm constant]; destruct (isort _); cbn; lia).
  assert (D0 : distinct_of (List.concat (map (fun _ => []) (groups p)) ++ constant p) (constant p)).
  { rewrite concat_none. cbn [app]. split; [exact NC|]. split; [apply incl_refl|]. intros x. apply in_map. }
  assert (R0 : List.length (constant p) <= 5 -> In (pm_str (mk_pm (constant p) [])) (map pm_str (traits so (groups p) (constant p)))).
  { intros L. apply S. exists (map (fun _ => []) (groups p)). split; [apply no_choice|]. exists (constant p). auto. }
  assert (Big : forall t, In t (map pm_str (traits so (groups p) (constant p))) -> List.length (constant p) <= 5 /\ (List.length (constant p) = 5 -> t = pm_str (mk_pm (constant p) []))).
  { intros t Ht. apply S in Ht. destruct Ht as (cs & Pk & d & (D1 & D2 & D3) & L & ->). assert (I : incl (map str (constant p)) (map str d)) by (intros x Hx; apply in_map_iff in Hx; destruct Hx as (y & <- & Hy); apply D3, in_or_app; now right).
    pose proof (NoDup_incl_length NC I) as Lc. rewrite !map_length in Lc. split; [lia|]. intros E5. apply mk_pm_flat_str; [|exact K1|].
    - apply Forall_forall. intros x Hx. apply D2, in_app_or in Hx. destruct Hx as [Hx|Hx]; [|rewrite Forall_forall in K1; auto]. apply in_concat in Hx. destruct Hx as (c & Hc & Hx). destruct Pk as (q & _ & F2).
      assert (F2' : Forall2 (fun g c => subseq c (fst g)) (groups p) cs) by (eapply Forall2_in_impl; [|exact F2]; cbn; tauto). clear F2. revert K2 F2'. generalize (groups p) as gs0. clear - Hc Hx. intros gs0 K2 F2.
      revert Hc. induction F2 as [|g c' gs cs Sb F2 IH]; intros Hc; [destruct Hc|]. apply Forall_cons_iff in K2. destruct K2 as [Kg K2]. destruct Hc as [->|Hc]; [|now apply IH]. unfold gok in Kg. rewrite Forall_forall in Kg. apply Kg. clear - Sb Hx. induction Sb; [destruct Hx|destruct Hx as [->|Hx]; [now left|right; auto]|right; auto].
    - apply Permutation_sym, NoDup_Permutation_bis; [exact NC| |exact I]. rewrite !map_length. lia. }
  destruct (Nat.leb_spec (List.length (constant p)) 5) as [L|L].
  - specialize (R0 L). split.
    + split; [|lia]. intros E. destruct (traits so (groups p) (constant p)); [destruct R0|discriminate].
    + split.
      * intros E. destruct (Nat.eq_dec (List.length (constant p)) 5) as [|Ne]; [auto|exfalso]. destruct (groups p) as [|g gs] eqn:Eg; [congruence|]. destruct (Hg g (or_introl eq_refl)) as [Fg Lg]. destruct (fst g) as [|m ms] eqn:Em; [congruence|].
        assert (Nm : ~ In (str m) (map str (constant p))) by (intros H; apply (NoDup_app_disjoint _ _ (str m) NR H); cbn [flat_map]; rewrite Em; now left).
        assert (R1 : In (pm_str (mk_pm (m :: constant p) [])) (map pm_str (traits so (g :: gs) (constant p)))).
        { apply S. exists ([m] :: map (fun _ => []) gs). split; [now apply (one_choice g gs m ms)|]. exists (m :: constant p). split; [|split; [cbn; lia|reflexivity]]. cbn [List.concat app]. rewrite concat_none. cbn [app].
          split; [constructor; auto|]. split; [apply incl_refl|]. intros x. apply in_map. }
        destruct (traits so (g :: gs) (constant p)) as [|t [|]]; try discriminate E. cbn [map] in R0, R1. destruct R0 as [R0|[]], R1 as [R1|[]]. rewrite R1 in R0. clear R1 S Big N.
        apply Forall_cons_iff in K2. destruct K2 as [Kg _]. unfold gok in Kg. rewrite Em in Kg. apply Forall_cons_iff in Kg. destruct Kg as [Km _].
        assert (Ee : is_empty m = false).
        { destruct Hb as (cs0 & gs0 & _ & _ & ->). assert (Hi : In g (groups (mk_pm cs0 gs0))) by (rewrite Eg; now left). unfold mk_pm in Hi. cbn [groups] in Hi. apply (Permutation_in _ (sort_perm _ _)) in Hi. apply in_map_iff in Hi. destruct Hi as (g0 & <- & _). cbn [fst] in Em.
          assert (Hm : In m (isort (filter_empty (fst g0)))) by (rewrite Em; now left). apply (Permutation_in _ (sort_perm _ _)) in Hm. apply filter_In in Hm. destruct Hm as [_ Hm]. now apply negb_true_iff in Hm. }
        apply pm_str_key in R0; [|apply mk_pm_ok; auto; constructor..]. unfold pkey in R0. injection R0 as R0. apply (mk_pm_constant_key (m :: constant p) (constant p) [] []) in R0; [|auto..]. apply Permutation_length in R0. unfold filter_empty in R0. cbn [filter] in R0. rewrite Ee in R0. cbn in R0. lia.
      * intros E5. destruct (traits so (groups p) (constant p)) as [|t [|t' l]]; [destruct R0|reflexivity|exfalso]. destruct (Big (pm_str t)) as [_ H1]; [now left|]. destruct (Big (pm_str t')) as [_ H2]; [right; now left|]. cbn [map] in N. rewrite (H2 E5), (H1 E5) in N. inversion N as [|? ? X _]. apply X. now left.
  - assert (Z : traits so (groups p) (constant p) = []) by (destruct (traits so (groups p) (constant p)) as [|t l]; [reflexivity|exfalso; destruct (Big (pm_str t)) as [X _]; [now left|lia]]).
    rewrite Z. cbn. split; split; intros; lia.
Qed.
Print Assumptions C24_single.

(** The singular sequences of a lexeme are the combinations of those of its flexion and of its content,
    but for the lexemes whose two parts have one singular sequence each and of which one has groups. *)
Theorem C24_exact : forall so l, set_order so -> built_lexeme l ->
  ((forall x, In x (lexeme_ss so l) <-> In (pm_flexion x) (pm_ss so (pm_flexion l)) /\ In (pm_content x) (pm_ss so (pm_content l))) <->
   ~ (List.length (pm_ss so (pm_flexion l)) = 1 /\ List.length (pm_ss so (pm_content l)) = 1 /\ (groups (pm_flexion l) <> [] \/ groups (pm_content l) <> []))).
Proof.
  intros so l SO Hb. split.
  - intros H (L1 & L2 & G). pose proof (built_lexeme_ok l Hb) as [Of Oc].
    assert (E : lexeme_ss so l = [l]) by (unfold lexeme_ss, pm_singular; now rewrite L1, L2).
    rewrite E in H. pose proof (proj1 (H l) (or_introl eq_refl)) as [Hf Hc].
    apply (pss_plain so SO) in Hf; auto. apply (pss_plain so SO) in Hc; auto. destruct G as [G|G]; congruence.
  - intros N x. destruct (pm_singular so (pm_flexion l) && pm_singular so (pm_content l))%bool eqn:S.
    + pose proof S as S'. apply andb_true_iff in S'. unfold pm_singular in S'. rewrite !Nat.eqb_eq in S'. destruct S' as [S1 S2].
      assert (G1 : groups (pm_flexion l) = []) by (destruct (groups (pm_flexion l)) eqn:E; [reflexivity|exfalso; apply N; split; [exact S1|split; [exact S2|left; congruence]]]).
      assert (G2 : groups (pm_content l) = []) by (destruct (groups (pm_content l)) eqn:E; [reflexivity|exfalso; apply N; split; [exact S1|split; [exact S2|right; congruence]]]).
      unfold lexeme_ss. rewrite S. unfold pm_ss. rewrite G1, G2. cbn. destruct l, x; cbn. split; [intros [E|[]]; injection E as <- <-; auto|]. intros [[<-|[]] [<-|[]]]. auto.
    + unfold lexeme_ss. rewrite S, in_flat_map. split.
      * intros (f & Hf & Hx). apply in_map_iff in Hx. destruct Hx as (c & <- & Hc). auto.
      * intros [H1 H2]. exists (pm_flexion x). split; auto. apply in_map_iff. exists (pm_content x). split; auto. destruct x. reflexivity.
Qed.
Print Assumptions C24_exact.

(** In lexemes without repetition, the flexion or the content has groups and five constants, and the
    other part has them too or has no group. *)
Theorem C24_exact_valid : forall so l, set_order so -> built_lexeme l -> (forall p, In p [pm_flexion l; pm_content l] -> groups p = [] \/ no_repetition p /\ usable_groups p) ->
  ((forall x, In x (lexeme_ss so l) <-> In (pm_flexion x) (pm_ss so (pm_flexion l)) /\ In (pm_content x) (pm_ss so (pm_content l))) <->
   ~ ((exists p, In p [pm_flexion l; pm_content l] /\ groups p <> []) /\ forall p, In p [pm_flexion l; pm_content l] -> groups p = [] \/ List.length (constant p) = 5)).
Proof.
  intros so l SO Hb H. rewrite (C24_exact so l SO Hb). destruct Hb as [Bf Bc].
  assert (X : forall p, In p [pm_flexion l; pm_content l] -> (List.length (pm_ss so p) = 1 <-> groups p = [] \/ List.length (constant p) = 5)).
  { intros p Hp. destruct (groups p) as [|g gs] eqn:Eg; [unfold pm_ss; rewrite Eg; cbn; tauto|]. destruct (H p Hp) as [Z|[Nr Us]]; [congruence|]. assert (Bp : built p) by (destruct Hp as [<-|[<-|[]]]; auto). rewrite (proj2 (C24_single so p SO Bp Nr Us)). split; [auto|intros [Z|Z]; [discriminate|exact Z]]. }
  rewrite (X (pm_flexion l)), (X (pm_content l)) by (cbn; auto). cbn [In]. split; intros N C; apply N.
  - destruct C as ((p & Hp & Gp) & C). split; [apply C; auto|]. split; [apply C; auto|]. destruct Hp as [<-|[<-|[]]]; auto.
  - destruct C as (Cf & Cc & G). split; [destruct G as [G|G]; eexists; (split; [|exact G]); auto|]. intros p [<-|[<-|[]]]; auto.
Qed.
Print Assumptions C24_exact_valid.

Definition Q24 := mk_pm [A_; B_; C_; D_; text "e."] [([text "u."], 1)].
Lemma Q24_built : built Q24.
Proof. exists [A_; B_; C_; D_; text "e."], [([text "u."], 1)]. split; [good; text_reg|split; [good; good; text_reg|reflexivity]]. Qed.
Example C24_exact_case : built Q24 /\ no_repetition Q24 /\ usable_groups Q24 /\ List.length (constant Q24) = 5 /\ List.length (pm_ss ident Q24) = 1 /\
  lexeme_ss ident {| pm_flexion := Q24; pm_content := mk_pm [A_] [] |} = [{| pm_flexion := Q24; pm_content := mk_pm [A_] [] |}] /\
  map lexeme_str (lexeme_ss ident {| pm_flexion := Q24; pm_content := mk_pm [A_] [([B_], 1)] |}) = ["(wa. e. a. i. b.)(wa.)"; "(wa. e. a. i. b.)(wa. b.)"].
Proof.
  split; [exact Q24_built|]. split; [unfold no_repetition; vm_compute; repeat constructor; cbn; intuition discriminate|].
  split; [split; [vm_compute; discriminate|intros g Hg; vm_compute in Hg; destruct Hg as [<-|[]]; split; [discriminate|cbn; lia]]|].
  repeat (split; [vm_compute; reflexivity|]). vm_compute. reflexivity.
Qed.
