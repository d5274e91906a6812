(** C92: a word rewritten without the flexions that are not written any more. *)
From Coq Require Import List String Bool Arith Lia Permutation.
From Verif Require Import Base Script FactorBoxProofs Usl Sfun SfunProofs SfunListProofs SfunWordProofs Simplify SimplifySpec SimplifyProofs UslParser MemberSpec Properties9 Properties31 Rewrite RewriteSpec RewriteProofs.
Import ListNotations.
Local Open Scope list_scope.

Lemma rewritten_strips bad x : strips bad x (rewritten bad x).
Proof.
  split; [reflexivity|]. split; [reflexivity|]. intros s Hs. unfold rewritten, mk_pm. cbn [pm_flexion constant].
  assert (F : In s (isort (filter_empty (filter (fun s => negb (ins (str s) bad)) (constant (pm_flexion x))))) <-> In s (constant (pm_flexion x)) /\ ~ In (str s) bad).
  { unfold isort. rewrite FactorBoxProofs.in_sort. unfold filter_empty. rewrite !filter_In, Hs, !negb_true_iff. rewrite <- (ins_In (str s) bad). destruct (ins (str s) bad); intuition congruence. }
  destruct (isort _) as [|y l] eqn:E; [|exact F]. rewrite <- F. cbn [In]. split; [|tauto]. intros [<-|[]]. discriminate.
Qed.

(** An address to keep has no lexeme: a junction. *)
Definition vacant (w : word) : Prop := exists r, In (r, None) (nodes w) /\ keeps w r.
(** A process of empty lexemes, the focus elsewhere than on the valence. *)
Definition unrooted (w : word) : Prop := w_context w = CProcess /\ ~ valence (w_role w) /\ forall s, ~ occupied w s.

Lemma rewrite_kept w : made w -> is_jun (w_fun w) = false ->
  filter (fun e => negb (all_empty (snd e) && aside (role_below w) (fst e))) (actors (w_fun w)) = filter (keepb (Some (rel w))) (actors (w_fun w)).
Proof. intros M J. rewrite (role_below_rel w M J). apply filter_ext. intros e. unfold keepb. cbn [onway]. now rewrite negb_andb. Qed.
Lemma vacant_spec w : made w -> is_jun (w_fun w) = false ->
  (forallb (fun e : role * sf => match actor_of (snd e) with Some _ => true | None => false end) (filter (keepb (Some (rel w))) (actors (w_fun w))) = false <-> vacant w).
Proof.
  intros M J. rewrite <- not_true_iff_false, forallb_forall. unfold vacant. split.
  - intros N. destruct (existsb (fun e : role * sf => match actor_of (snd e) with Some _ => false | None => true end) (filter (keepb (Some (rel w))) (actors (w_fun w)))) eqn:X.
    + apply existsb_exists in X as ([r g] & H & E). apply filter_In in H as [H K]. cbn [snd] in E. exists (context_prefix (w_context w) ++ r). split; [|now apply (keeps_spec w r g M H)]. unfold nodes. apply in_map_iff. exists (r, g). cbn [fst snd]. destruct (actor_of g); [discriminate|auto].
    + exfalso. apply N. intros e He. rewrite <- not_true_iff_false, existsb_exists in X. destruct (actor_of (snd e)) eqn:E; [reflexivity|]. elim X. exists e. rewrite E. auto.
  - intros (r & H & K) N. unfold nodes in H. apply in_map_iff in H as ([r' g] & [= <- E] & H). cbn [fst snd] in *. apply (keeps_spec w r' g M H) in K. specialize (N (r', g)). cbn [snd] in N. rewrite E in N. discriminate N. apply filter_In. auto.
Qed.
Lemma blocked_vacant w : made w -> blocked (Some (rel w)) (actors (w_fun w)) = true -> vacant w.
Proof.
  intros M B. destruct (made_facts w M) as (V & _). apply blocked_spec in B as (r & g & H & K & L). destruct (link_above _ _ _ _ V H L) as (r1 & t & link & cs & -> & Hj). apply (keeps_spec w _ g M H) in K.
  exists (context_prefix (w_context w) ++ r1). split; [unfold nodes; apply in_map_iff; exists (r1, Jun link cs); auto|]. destruct K as [(u & E)|(s & O & [(u & E)|Q])].
  - left. exists (t ++ u). rewrite E. now rewrite <- !app_assoc.
  - right. exists s. split; [exact O|]. left. exists (t ++ u). rewrite E. now rewrite <- !app_assoc.
  - exfalso. destruct Q as (v & E & Hv). assert (L' : linked [v]) by (rewrite <- E; apply linked_app; right; now apply linked_bool). apply linked_bool in L'. cbn in Hv. destruct Hv as [<-|[<-|[<-|[]]]]; discriminate.
Qed.
Definition respelled (c : context) (e : role * option lexeme) : role * option lexeme := (fst e, option_map (rewritten (unwanted (context_prefix c ++ fst e))) (snd e)).
Lemma relabel_lst c f : cvalid lexeme c f -> plain f -> lst lexeme (relabel f) = map (respelled c) (lst lexeme f).
Proof.
  intros V P. assert (P' : plain (relabel f)) by (intros r g H; rewrite actors_relabel in H; apply in_map_iff in H as ([r' g'] & [= <- <-] & H); rewrite relabel_jun; exact (P _ _ H)).
  rewrite !plain_lst by assumption. rewrite actors_relabel, !map_map. apply map_ext_in. intros [r g] H. unfold respelled. cbn [fst snd]. rewrite relabel_actor. unfold label. rewrite (class_c c f r g V H); [reflexivity| |exact (P _ _ H)].
  destruct (existsb isl r) eqn:L; [|reflexivity]. destruct (link_above c f r g V H L) as (r1 & t & link & cs & _ & Hj). specialize (P _ _ Hj). discriminate.
Qed.

Theorem C92_outcome : forall w, made w ->
  (vacant w /\ rewrite_word w = Err AttributeError) \/
  (~ vacant w /\ unrooted w /\ rewrite_word w = Err ValueError) \/
  (~ vacant w /\ ~ unrooted w /\ exists w1 w', simplify_word w = Ok w1 /\ rewrite_word w = Ok w' /\
     made w' /\ w_role w' = w_role w /\ w_context w' = w_context w /\ Forall2 stripped (nodes w1) (nodes w')).
Proof.
  intros w M. destruct (made_facts w M) as (V & _). destruct (is_jun (w_fun w)) eqn:J.
  - left. split.
    + exists (context_prefix (w_context w) ++ []). destruct (w_fun w) as [link cs| | |] eqn:F; try discriminate. split.
      * unfold nodes. rewrite F. apply in_map_iff. exists ([], Jun link cs). split; [reflexivity|]. rewrite actors_jun'. now left.
      * left. unfold focus. exists (skipn (List.length (context_prefix (w_context w))) (w_role w)). now rewrite app_nil_r.
    + unfold rewrite_word. rewrite mapM_rewrite. destruct (w_fun w) as [link cs| | |] eqn:F; try discriminate. rewrite actors_jun'. cbn [filter fst snd]. rewrite aside_nil, andb_false_r. reflexivity.
  - pose proof (vacant_spec w M J) as VS. pose proof (simplify_cases w M) as S. rewrite J in S. unfold rewrite_word. rewrite (rewrite_kept w M J), mapM_rewrite. set (K := filter (keepb (Some (rel w))) (actors (w_fun w))) in *.
    destruct (forallb _ K) eqn:All; [|left; split; [now apply VS|reflexivity]]. right. assert (NV : ~ vacant w) by (intros X; apply VS in X; discriminate).
    destruct (blocked _ _) eqn:B; [elim NV; now apply blocked_vacant|]. pose proof (valence_spec w M) as Vs. cbn [bind]. set (l := map _ K). pose proof (short_fuel lexeme l) as Sf.
    destruct (valence_kept w) eqn:Vk.
    + right. split; [exact NV|]. split; [intros X; apply Vs in X; discriminate|]. destruct S as (w1 & E1 & G). exists w1. pose proof G as (M1 & R1 & C1 & P1 & L1). destruct (made_facts w1 M1) as (V1 & _). rewrite C1 in V1.
      assert (L : l = lst lexeme (relabel (w_fun w1))).
      { rewrite (relabel_lst _ _ V1 P1), L1. unfold ents, l. fold K. rewrite map_map. apply map_ext_in. intros [r g] H. unfold respelled. cbn [fst snd]. unfold label. rewrite forallb_forall in All. specialize (All _ H). cbn [snd] in All. apply filter_In in H as [H Kb].
        rewrite (class_c _ _ r g V H); [reflexivity| |destruct g; [discriminate|reflexivity..]]. destruct (existsb isl r) eqn:X; [|reflexivity]. assert (blocked (Some (rel w)) (actors (w_fun w)) = true) by (apply blocked_spec; eauto). congruence. }
      pose proof (cvalid_relabel _ _ V1) as V2.
      destruct (word_again w (relabel (w_fun w1)) M V2) as (w' & W & E2 & E3 & E4 & M').
      { destruct (rel_kept w M) as (x & H). rewrite <- L1 in H. apply lst_actors in H as (g & H & _). exists (relabel g). rewrite actors_relabel. apply in_map_iff. exists (rel w, g). auto. }
      exists w'. split; [exact E1|]. split; [|split; [exact M'|split; [exact E3|split; [exact E4|]]]].
      * rewrite L in *. destruct (w_context w) eqn:C; cbn [cvalid] in V, V2.
        -- destruct (w_fun w); try solve [destruct V]. destruct (relabel (w_fun w1)) as [| | |x v acts]; try solve [destruct V2]. rewrite proc_exact; [exact W|exact V2|eapply Forall_impl; [|exact Sf]; intros; cbn beta in *; lia].
        -- destruct (w_fun w); try solve [destruct V]; try discriminate. pose proof (from_perm lexeme KD _ V2 _ _ (Permutation_refl _) Sf) as X. cbn [from] in X. rewrite X. exact W.
        -- destruct (w_fun w); try solve [destruct V]; try discriminate; [|destruct V; discriminate]. pose proof (from_perm lexeme KI _ V2 _ _ (Permutation_refl _) Sf) as X. cbn [from] in X. rewrite X. exact W.
      * destruct (given_list w w1 M G) as [N1 _]. 
        assert (All1 : forall e, In e (lst lexeme (w_fun w1)) -> exists x, snd e = Some x).
        { intros e H. rewrite L1 in H. unfold ents in H. apply in_map_iff in H as ([r g] & <- & H). rewrite forallb_forall in All. specialize (All _ H). cbn [snd] in *. destruct (actor_of g) as [x|]; [eauto|discriminate]. }
        assert (N2 : nodes w' = pre lexeme (context_prefix (w_context w)) (map (respelled (w_context w)) (lst lexeme (w_fun w1)))).
        { rewrite <- (relabel_lst _ _ V1 P1). unfold nodes. rewrite E4, E2. rewrite plain_lst; [unfold pre; now rewrite map_map|]. intros r g H. rewrite actors_relabel in H. apply in_map_iff in H as ([r' g'] & [= <- <-] & H). rewrite relabel_jun. exact (P1 _ _ H). }
        rewrite N2, <- N1, as_list_lst, C1. clear -All1. unfold pre. rewrite map_map. induction (lst lexeme (w_fun w1)) as [|e m IH]; constructor.
        -- destruct (All1 e (or_introl eq_refl)) as (x & E). destruct e as [r o]. cbn [snd] in E. subst o. split; [reflexivity|]. cbn [fst snd respelled option_map]. exists x. eexists. split; [reflexivity|]. split; [reflexivity|]. apply rewritten_strips.
        -- apply IH. intros z Hz. apply All1. now right.
    + left. split; [exact NV|]. split; [now apply Vs|]. destruct (proj1 Vs eq_refl) as (C & _ & No). rewrite C in V. cbn [cvalid] in V. destruct (w_fun w) as [| | |x v acts] eqn:F; try solve [destruct V].
      assert (Em : forall r g, In (r, g) (actors (w_fun w)) -> all_empty g = true).
      { intros r g H. destruct (all_empty g) eqn:X; [reflexivity|]. exfalso. apply all_empty_false in X. assert (Vc : cvalid lexeme (w_context w) (w_fun w)) by (rewrite C, F; exact V). apply all_empty_false in X. apply (node_full _ _ _ _ Vc H) in X as (s & h & Hs & Bh & _). apply (No (context_prefix (w_context w) ++ s)). apply occupied_spec. eauto. }
      assert (Kr : forall e, In e (actors (w_fun w)) -> keepb (Some (rel w)) (fst e, relabel (snd e)) = keepb (Some (rel w)) e).
      { intros [r g] H. unfold keepb. cbn [fst snd]. rewrite (Em r g H), (relabel_empty g (Em r g H)). reflexivity. }
      assert (L : l = ents (Some (rel w)) (actors (relabel (w_fun w)))).
      { unfold ents, l, K. rewrite actors_relabel, F. rewrite F in Kr. clear -Kr. induction (actors (Proc x v acts)) as [|e m IH]; [reflexivity|]. cbn [map filter]. rewrite (Kr e (or_introl eq_refl)). destruct (keepb _ e); cbn [map fst snd]; rewrite <- IH by (intros z Hz; apply Kr; now right); [rewrite relabel_actor|]; reflexivity. }
      rewrite L in *. rewrite F in *. pose proof (cvalid_relabel CProcess _ V) as V2. cbn [cvalid relabel] in V2. cbn [relabel] in *. rewrite proc_prune; [|exact V2|eapply Forall_impl; [|exact Sf]; intros; cbn beta in *; lia].
      assert (Bk : blocked (Some (rel w)) (actors (relabel (w_fun w))) = blocked (Some (rel w)) (actors (w_fun w))).
      { unfold blocked. rewrite actors_relabel. rewrite F. clear -Kr. induction (actors (Proc x v acts)) as [|e m IH]; [reflexivity|]. cbn [map existsb fst snd]. rewrite (Kr e (or_introl eq_refl)), IH by (intros z Hz; apply Kr; now right). reflexivity. }
      rewrite F in Bk. cbn [relabel] in Bk. rewrite Bk, B. pose proof (Kr ([v], Proc x v acts)) as Kv. cbn [fst snd relabel] in Kv. unfold valence_kept in Vk. rewrite F in Vk.
      match goal with |- context [keepb ?a ?b] => replace (keepb a b) with false; [reflexivity|] end. symmetry. etransitivity; [apply Kv; rewrite actors_proc; now left|exact Vk].
Qed.
Print Assumptions C92_outcome.

(** The lexemes: those of the word rewritten are those of the word without their unwanted flexions, at the same
    addresses, and every lexeme of the word which is not empty is among them. *)
Lemma rewrite_ok w w' : made w -> rewrite_word w = Ok w' -> exists w1, simplify_word w = Ok w1 /\ given w w1 /\ made w' /\ w_role w' = w_role w /\ w_context w' = w_context w /\ Forall2 stripped (nodes w1) (nodes w').
Proof.
  intros M E. destruct (C92_outcome w M) as [[_ X]|[(_ & _ & X)|(_ & _ & w1 & w2 & E1 & X & M' & R & C & F)]]; [congruence..|]. assert (w2 = w') by congruence. subst w2. exists w1. pose proof (simplify_given w w1 M E1) as G. auto 8.
Qed.
Lemma forall2_l {A B} (R : A -> B -> Prop) l m x : Forall2 R l m -> In x l -> exists y, In y m /\ R x y.
Proof. induction 1 as [|a b l m H F IH]; intros []; [subst; exists b; cbn; auto|]. destruct (IH H0) as (y & Hy & Ry). exists y. cbn. auto. Qed.
Lemma forall2_r {A B} (R : A -> B -> Prop) l m y : Forall2 R l m -> In y m -> exists x, In x l /\ R x y.
Proof. induction 1 as [|a b l m H F IH]; intros []; [subst; exists a; cbn; auto|]. destruct (IH H0) as (x & Hx & Rx). exists x. cbn. auto. Qed.
Theorem C92_lexemes : forall w w', made w -> rewrite_word w = Ok w' ->
  (forall r x', lexeme_at w' r x' -> exists x, lexeme_at w r x /\ strips (unwanted r) x x') /\
  (forall r x, lexeme_at w r x -> lexeme_empty x = false -> exists x', lexeme_at w' r x' /\ strips (unwanted r) x x').
Proof.
  intros w w' M E. destruct (rewrite_ok w w' M E) as (w1 & E1 & G & M' & R & C & F). destruct (given_list w w1 M G) as (N1 & P & HP & L1).
  assert (Nw : forall v r x, In (r, Some x) (nodes v) <-> lexeme_at v r x).
  { intros v r x. unfold lexeme_at, nodes, as_list. rewrite !in_map_iff. split; intros ([s g] & X & H); exists (s, g); (split; [exact X|]).
    - apply filter_In. split; [exact H|]. cbn [snd fst] in *. destruct g; [discriminate|reflexivity..].
    - now apply filter_In in H. }
  split.
  - intros r x' H. apply Nw in H. destruct (forall2_r _ _ _ _ F H) as ([r0 o] & H1 & Er & x & x2 & Ex & Ex' & St). cbn [fst snd] in *. subst r0 o. injection Ex' as <-. exists x. split; [|exact St]. rewrite <- N1, L1 in H1. apply filter_In in H1 as [H1 _]. now apply Nw.
  - intros r x H Hx. apply (C87_lexemes w w1 M E1 r x Hx) in H. apply Nw in H. destruct (forall2_l _ _ _ _ F H) as ([r0 o] & H1 & Er & x2 & x' & Ex & Ex' & St). cbn [fst snd] in *. subst r0 o. injection Ex as <-. exists x'. split; [now apply Nw|exact St].
Qed.
Print Assumptions C92_lexemes.

Definition rewritten_text (s : string) : res string := match word_text s with Some w => do w' <- rewrite_word w; Ok (w_str w') | None => Err CannotParse end.
(** The active voice is removed from the process and the singular from the actant, not from the independent quality. *)
Example C92_case :
  rewritten_text "[E:T:. (E:.-wa.-t.o.-' wa.)(b.) > ! E:.n.- (E:.wo.- wa.)(i.)]" = Ok "[E:T:. (wa.)(b.) > ! E:.n.- (wa.)(i.)]"%string /\
  rewritten_text "[! E:T:. (wa.)(b.) > E:.n.- (E:.wo.-)(b.) > E:.n.- E:U:. (E:.wo.-)(b.)]" = Ok "[! E:T:. (wa.)(b.) > E:.n.- ()(b.) > E:.n.- E:U:. (E:.wo.-)(b.)]"%string.
Proof. split; vm_compute; reflexivity. Qed.
Example C92_case_made : exists w w', word_text "[E:T:. (E:.-wa.-t.o.-' wa.)(b.) > ! E:.n.- (E:.wo.- wa.)(i.)]" = Some w /\ made w /\ rewrite_word w = Ok w'.
Proof. eexists. eexists. split; [vm_compute; reflexivity|]. split; [remade|vm_compute; reflexivity]. Qed.

(** False: that nothing else is removed. The groups of every flexion are, so that a paradigm becomes a singular word. *)
Theorem C92_groups_refuted : exists w w', word_text "[! E:T:. (wa. m1(wo. we.))(b.)]" = Some w /\ made w /\ rewrite_word w = Ok w' /\ w_str w' = "[! E:T:. (wa.)(b.)]"%string /\
  (do l <- word_ss (fun l => l) w; Ok (List.length l)) = Ok 3 /\ (do l <- word_ss (fun l => l) w'; Ok (List.length l)) = Ok 1.
Proof. eexists. eexists. split; [vm_compute; reflexivity|]. split; [remade|]. split; [vm_compute; reflexivity|]. repeat split; vm_compute; reflexivity. Qed.
Print Assumptions C92_groups_refuted.
(** False: that a second time changes nothing. A lexeme of which nothing is left is left out only then. *)
Theorem C92_idempotent_refuted : exists w w' w'', word_text "[! E:T:. (wa.)(b.) > E:.n.- (E:.wo.-)]" = Some w /\ made w /\ rewrite_word w = Ok w' /\ rewrite_word w' = Ok w'' /\
  w_str w' = "[! E:T:. (wa.)(b.) > E:.n.- ()]"%string /\ w_str w'' = "[! E:T:. (wa.)(b.)]"%string.
Proof. eexists. eexists. eexists. split; [vm_compute; reflexivity|]. split; [remade|]. split; [vm_compute; reflexivity|]. split; [vm_compute; reflexivity|]. split; reflexivity. Qed.
Print Assumptions C92_idempotent_refuted.
(** A junction raises AttributeError, a process of empty lexemes ValueError; the script then keeps the word as it is. *)
Example C92_case_raises :
  rewritten_text "[! E:T:. (wa.)(b.) > E:.n.- E:S:.-k.u.-' j.-U:.-'d.o.-l.o.-', (wa.)(b.) > E:.n.- E:S:.-k.u.-' j.-A:.-'d.o.-l.o.-', (wa.)(i.)]" = Err AttributeError /\
  rewritten_text "[E:T:. () > ! E:.n.- ()]" = Err ValueError.
Proof. split; vm_compute; reflexivity. Qed.
