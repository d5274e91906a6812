(** C87: a word without its empty leaves. *)
From Coq Require Import List String Bool Arith Lia Permutation.
From Verif Require Import Base Script ScriptParser Usl Sfun SfunProofs SfunListProofs SfunWordProofs Properties9 UslParser MemberSpec Simplify SimplifySpec SimplifyProofs.
Import ListNotations.
Local Open Scope list_scope.

(** ** A word and its function *)
Definition rel (w : word) : role := skipn (List.length (context_prefix (w_context w))) (w_role w).
Lemma made_facts w : made w -> cvalid lexeme (w_context w) (w_fun w) /\ mk_word (w_fun w) (w_role w) (w_context w) = Ok w /\ vrole (w_role w) /\ (exists g, In (rel w, g) (actors (w_fun w))) /\ w_role w <> [].
Proof.
  intros (l & r & H). unfold word_of in H. destruct r as [|a r]; [discriminate|]. destruct (from_list l) as [[c f]|] eqn:Ef; [|discriminate]. cbn [bind] in H. unfold mk_role in H. destruct (forallb (fun s => ins s ADDRESS_SCRIPTS) (a :: r)) eqn:Er; [|discriminate]. cbn [bind fst snd] in H.
  pose proof (mk_word_fields _ _ _ _ H) as (E1 & E2 & E3). apply from_list_inv in Ef. destruct Ef as [V _]. rewrite <- E1, <- E3 in V. rewrite <- E1, <- E2, <- E3 in H. rewrite <- E2 in Er.
  assert (Vr : vrole (w_role w)) by (apply Forall_forall; intros s Hs; rewrite forallb_forall in Er; now apply ins_In, Er). split; [exact V|]. split; [exact H|]. split; [exact Vr|]. split; [|rewrite E2; discriminate].
  unfold mk_word, render, role_expansion in H. cbn [expand] in H. fold (rel w) in H. destruct (node_at (w_fun w) (rel w)) as [g|] eqn:En; [|discriminate]. apply node_at_some in En. destruct En as (r' & Hr' & Eq). exists g.
  apply role_eqb_eq in Eq; [now subst r'| |eapply actors_roles; eauto]. unfold rel, vrole in *. rewrite Forall_forall in *. intros s Hs. apply Vr. rewrite <- (firstn_skipn (List.length (context_prefix (w_context w))) (w_role w)). apply in_app_iff. now right.
Qed.
Lemma occupied_spec w s : occupied w s <-> exists r h, s = context_prefix (w_context w) ++ r /\ In (r, h) (actors (w_fun w)) /\ blank (actor_of h) = false.
Proof.
  unfold occupied, lexeme_at, as_list. split.
  - intros (x & H & E). apply in_map_iff in H. destruct H as ([r h] & [= <- Ex] & H). apply filter_In in H. destruct H as [H _]. exists r, h. split; [reflexivity|]. split; [exact H|]. rewrite Ex. exact E.
  - intros (r & h & -> & H & B). destruct (actor_of h) as [x|] eqn:E; [|discriminate]. exists x. split; [|exact B]. apply in_map_iff. exists (r, h). cbn [fst snd]. rewrite E. split; [reflexivity|]. apply filter_In. split; [exact H|]. destruct h; [discriminate|reflexivity|reflexivity|reflexivity].
Qed.
Lemma prefix_valence c (r : role) : valence (context_prefix c ++ r) -> c = CProcess.
Proof. intros (v & E & Hv). destruct c; [reflexivity| |]; cbn in E; injection E as <- _; cbn in Hv; intuition discriminate. Qed.
Lemma app_cancel {A} (p a b : list A) : p ++ a = p ++ b -> a = b. Proof. apply app_inv_head. Qed.
Lemma keeps_spec w r g : made w -> In (r, g) (actors (w_fun w)) -> (keepb (Some (rel w)) (r, g) = true <-> keeps w (context_prefix (w_context w) ++ r)).
Proof.
  intros M H. destruct (made_facts w M) as (V & _). unfold keepb. cbn [fst snd onway]. rewrite orb_true_iff, !negb_true_iff, aside_spec, (node_full _ _ _ _ V H). unfold keeps. rewrite or_comm. unfold focus. fold (rel w). split.
  - intros [(t & E)|(s & h & Hs & B & Q)].
    + left. exists t. now rewrite E, app_assoc.
    + right. exists (context_prefix (w_context w) ++ s). split; [apply occupied_spec; eauto|]. destruct Q as [(t & ->)|Q]; [left; exists t; now rewrite app_assoc|].
      destruct (w_context w) eqn:C; [now right| |]; exfalso; destruct Q as (v & -> & Hv); cbn [cvalid] in V; pose proof (actors_inner _ _ _ V _ _ H) as F; apply Forall_cons_iff in F; destruct F as [[->|[->|[J|J]]] _];
        try (cbn in Hv; intuition discriminate); apply ins_In in J; cbn in Hv; destruct Hv as [<-|[<-|[<-|[]]]]; discriminate.
  - intros [(t & E)|(s & O & Q)].
    + left. exists t. rewrite <- app_assoc in E. now apply app_cancel in E.
    + right. apply occupied_spec in O. destruct O as (s' & h & -> & Hs & B). exists s', h. split; [exact Hs|]. split; [exact B|]. destruct Q as [(t & E)|Q].
      * left. exists t. rewrite <- app_assoc in E. now apply app_cancel in E.
      * right. pose proof (prefix_valence _ _ Q) as C. rewrite C in Q. exact Q.
Qed.
Lemma linked_bool r : linked r <-> existsb isl r = true.
Proof. unfold linked. rewrite Exists_exists, existsb_exists. split; intros (a & Ha & L); exists a; split; auto; now apply ins_In. Qed.
Lemma linked_app a b : linked (a ++ b) <-> linked a \/ linked b.
Proof. apply Exists_app. Qed.
Lemma prefix_linked c : ~ linked (context_prefix c).
Proof. rewrite linked_bool. destruct c; discriminate. Qed.
Lemma through_spec w : made w -> (blocked (Some (rel w)) (actors (w_fun w)) = true <-> through w).
Proof.
  intros M. destruct (made_facts w M) as (V & _ & _ & (g & Hg) & _). rewrite blocked_spec. unfold through. split.
  - intros (r & h & H & K & L). apply linked_bool in L. apply (keeps_spec w r h M H) in K. destruct K as [(t & E)|(s & O & [(t & ->)|Q])].
    + left. rewrite E. apply linked_app. left. apply linked_app. now right.
    + right. exists ((context_prefix (w_context w) ++ r) ++ t). split; [exact O|]. apply linked_app. left. apply linked_app. now right.
    + exfalso. destruct Q as (v & E & Hv). assert (linked [v]) as L' by (rewrite <- E; apply linked_app; now right). apply linked_bool in L'. cbn in Hv. destruct Hv as [<-|[<-|[<-|[]]]]; discriminate.
  - intros [L|(s & O & L)].
    + unfold focus in L. fold (rel w) in L. apply linked_app in L. destruct L as [L|L]; [elim (prefix_linked _ L)|]. exists (rel w), g. split; [exact Hg|]. split; [|now apply linked_bool].
      unfold keepb. cbn [fst snd onway]. replace (aside (rel w) (rel w)) with false; [apply orb_true_r|]. symmetry. apply aside_spec. exists []. now rewrite app_nil_r.
    + apply occupied_spec in O. destruct O as (r & h & -> & H & B). apply linked_app in L. destruct L as [L|L]; [elim (prefix_linked _ L)|]. exists r, h. split; [exact H|]. split; [|now apply linked_bool].
      unfold keepb. cbn [fst snd]. now rewrite (self_full h B).
Qed.
Lemma kept_ents w q : kept_entries q (w_fun w) = ents (Some q) (actors (w_fun w)).
Proof. unfold kept_entries, ents. f_equal. apply filter_ext. intros e. unfold keepb. cbn [onway]. now rewrite negb_andb. Qed.
Lemma role_below_rel w : made w -> is_jun (w_fun w) = false -> role_below w = rel w.
Proof.
  intros M J. destruct (made_facts w M) as (V & _). unfold role_below, rel. destruct (w_context w), (w_fun w); cbn [cvalid pvalid valid] in V; try discriminate; try (destruct V; discriminate); try solve [destruct V]; try reflexivity; destruct (w_role w); reflexivity.
Qed.

(** The word made of the kept function. *)
Lemma word_again w f' : made w -> cvalid lexeme (w_context w) f' -> (exists g, In (rel w, g) (actors f')) ->
  exists w', mk_word f' (w_role w) (w_context w) = Ok w' /\ w_fun w' = f' /\ w_role w' = w_role w /\ w_context w' = w_context w /\ made w'.
Proof.
  intros M V' (g & Hg). destruct (made_facts w M) as (V & E & Vr & _ & Nr).
  assert (W : exists w', mk_word f' (w_role w) (w_context w) = Ok w').
  { unfold mk_word, render, role_expansion in *. fold (rel w) in *. destruct (expand_ok lexeme (w_context w) f' V' (S (maxl (map (fun e => List.length (fst e)) (actors f')))) (rel w) g Hg) as (m & ->); [lia|]. cbn [bind].
    destruct (class_from_address (w_role w)) as [k|e] eqn:C; [cbn; eauto|]. exfalso. destruct (expand _ _ _); cbn [bind] in E; discriminate. }
  destruct W as (w' & W). pose proof (mk_word_fields _ _ _ _ W) as (E1 & E2 & E3). exists w'. split; [exact W|]. split; [exact E1|]. split; [exact E2|]. split; [exact E3|].
  exists (as_list (w_context w) f'), (w_role w). unfold word_of. destruct (w_role w) as [|a r] eqn:R; [easy|]. rewrite from_list_exact by exact V'. cbn [bind]. unfold mk_role.
  replace (forallb (fun s => ins s ADDRESS_SCRIPTS) (a :: r)) with true; [cbn [bind fst snd]; exact W|]. symmetry. apply forallb_forall. intros s Hs. apply ins_In. unfold vrole in Vr. rewrite Forall_forall in Vr. auto.
Qed.

(** The case in which a word is given: it is made of the kept entries, without junction. *)
Definition given (w w' : word) : Prop :=
  made w' /\ w_role w' = w_role w /\ w_context w' = w_context w /\ plain (w_fun w') /\ lst lexeme (w_fun w') = ents (Some (rel w)) (actors (w_fun w)).
Lemma rel_kept w : made w -> exists x, In (rel w, x) (ents (Some (rel w)) (actors (w_fun w))).
Proof.
  intros M. destruct (made_facts w M) as (_ & _ & _ & (g & Hg) & _). exists (actor_of g). apply ents_in. exists g. split; [exact Hg|]. split; [|reflexivity]. unfold keepb. cbn [fst snd onway].
  replace (aside (rel w) (rel w)) with false; [apply orb_true_r|]. symmetry. apply aside_spec. exists []. now rewrite app_nil_r.
Qed.
Lemma give w f' : made w -> cvalid lexeme (w_context w) f' -> plain f' -> lst lexeme f' = ents (Some (rel w)) (actors (w_fun w)) ->
  exists w', mk_word f' (w_role w) (w_context w) = Ok w' /\ given w w'.
Proof.
  intros M V' P L. destruct (word_again w f' M V') as (w' & W & E1 & E2 & E3 & M').
  { destruct (rel_kept w M) as (x & H). rewrite <- L in H. apply lst_actors in H. destruct H as (g & H & _). eauto. }
  exists w'. split; [exact W|]. unfold given. rewrite E1. auto.
Qed.
Definition valence_kept (w : word) : bool := match w_fun w with Proc x v acts => keepb (Some (rel w)) ([v], Proc x v acts) | _ => true end.
Lemma simplify_cases w : made w ->
  if is_jun (w_fun w) then simplify_word w = Err TypeError
  else if blocked (Some (rel w)) (actors (w_fun w)) then simplify_word w = Err IndexError
  else if valence_kept w then exists w', simplify_word w = Ok w' /\ given w w'
  else simplify_word w = Err ValueError.
Proof.
  intros M. destruct (is_jun (w_fun w)) eqn:J.
  - unfold simplify_word. destruct (w_fun w); try discriminate. reflexivity.
  - destruct (made_facts w M) as (V & _). unfold simplify_word. rewrite (role_below_rel w M J), kept_ents. pose proof (short_fuel lexeme (ents (Some (rel w)) (actors (w_fun w)))) as S.
    assert (K : forall k, valid lexeme k (w_fun w) -> keepf (Some (rel w)) (w_fun w) = true) by (intros; unfold keepf, keepb; cbn [fst snd]; rewrite onway_nil; apply orb_true_r).
    pose proof (fun f' => give w f' M) as G. unfold valence_kept. destruct (w_context w) eqn:C; cbn [cvalid] in V.
    + destruct (w_fun w) as [| | |x v acts] eqn:F; try solve [destruct V]. rewrite proc_prune; [|exact V|eapply Forall_impl; [|exact S]; intros; cbn beta in *; lia].
      destruct (blocked _ _) eqn:B; [reflexivity|]. destruct (keepb _ _) eqn:Kv; [|reflexivity]. cbn [bind fst snd]. apply G; [now apply prune_pvalid|now apply prune_proc_plain|now apply prune_proc_lst].
    + destruct (w_fun w) as [| |x d i|] eqn:F; try solve [destruct V]; try discriminate. destruct (blocked _ _) eqn:B.
      * pose proof (from_blocked KD _ _ _ V B S) as E. cbn [from] in E. now rewrite E.
      * pose proof (from_prune KD _ _ _ V (K _ V) B S) as E. cbn [from] in E. rewrite E. cbn [bind fst snd]. apply G; [now apply prune_valid|now apply prune_plain|apply prune_lst; auto; now apply (K KD)].
    + destruct (w_fun w) as [|x|x d i|] eqn:F; try solve [destruct V]; try discriminate; [|destruct V; discriminate]. destruct (blocked _ _) eqn:B.
      * pose proof (from_blocked KI _ _ _ V B S) as E. cbn [from] in E. now rewrite E.
      * pose proof (from_prune KI _ _ _ V (K _ V) B S) as E. cbn [from] in E. rewrite E. cbn [bind fst snd]. apply G; [now apply prune_valid|now apply prune_plain|apply prune_lst; auto; now apply (K KI)].
Qed.
Lemma valence_spec w : made w -> (valence_kept w = false <-> w_context w = CProcess /\ ~ valence (w_role w) /\ forall s, ~ occupied w s).
Proof.
  intros M. destruct (made_facts w M) as (V & _ & _ & (g & Hg) & _). unfold valence_kept. destruct (w_context w) eqn:C; cbn [cvalid] in V.
  - destruct (w_fun w) as [| | |x v acts] eqn:F; try solve [destruct V]. assert (H : In ([v], Proc x v acts) (actors (w_fun w))) by (rewrite F, actors_proc; now left).
    pose proof (keeps_spec w [v] _ M H) as K. rewrite C in K. cbn [context_prefix app] in K. destruct (keepb (Some (rel w)) ([v], Proc x v acts)) eqn:Kb.
    + split; [discriminate|]. intros (_ & Nv & No). exfalso. destruct (proj1 K Kb) as [(t & E)|(s & O & _)]; [|now apply (No s)]. apply Nv. unfold focus in E. rewrite C in E. cbn [context_prefix app List.length skipn] in E.
      unfold rel in Hg. rewrite C in Hg. cbn [context_prefix List.length skipn] in Hg. destruct (proc_node _ _ _ _ _ V Hg) as [[-> _]|(a & r' & f & E' & _ & Aa & _)].
      * exists v. split; [reflexivity|]. apply V.
      * exfalso. rewrite E' in E. injection E as -> _. apply (valence_actant v); [apply V|exact Aa].
    + split; [|reflexivity]. intros _. split; [reflexivity|]. assert (Q : ~ keeps w [v]) by (intros Q; apply K in Q; pose proof (eq_trans (eq_sym Kb) Q) as Q2; discriminate Q2). split.
      * intros (v' & E & Hv). apply Q. left. unfold focus. rewrite C. cbn [context_prefix app List.length skipn]. unfold rel in Hg. rewrite C in Hg. cbn [context_prefix List.length skipn] in Hg.
        destruct (proc_node _ _ _ _ _ V Hg) as [[-> _]|(a & r' & f & E' & _ & Aa & _)]; [exists []; reflexivity|]. exfalso. rewrite E' in E. injection E as -> _. apply (valence_actant v'); auto.
      * intros s O. apply Q. right. exists s. split; [exact O|]. right. exists v. split; [reflexivity|]. apply V.
  - destruct (w_fun w); try solve [destruct V]; split; try discriminate; intros (E & _); discriminate.
  - destruct (w_fun w); try solve [destruct V]; split; try discriminate; intros (E & _); discriminate.
Qed.
Lemma entry_dec : forall a b : role, {a = b} + {a <> b}. Proof. apply list_eq_dec, string_dec. Qed.
Definition picked (w : word) (s : role) : bool :=
  existsb (fun a : role * sf => if entry_dec (context_prefix (w_context w) ++ fst a) s then keepb (Some (rel w)) a else false) (actors (w_fun w)).
Lemma picked_spec w r g : made w -> In (r, g) (actors (w_fun w)) -> picked w (context_prefix (w_context w) ++ r) = keepb (Some (rel w)) (r, g).
Proof.
  intros M H. unfold picked. destruct (made_facts w M) as (V & _). pose proof (actors_nodup_c _ _ _ V) as N. destruct (keepb (Some (rel w)) (r, g)) eqn:K.
  - apply existsb_exists. exists (r, g). split; [exact H|]. cbn [fst]. destruct (entry_dec _ _); [exact K|easy].
  - destruct (existsb _ _) eqn:X; [|reflexivity]. apply existsb_exists in X. destruct X as ([r' g'] & H' & X). cbn [fst] in X. destruct (entry_dec _ _) as [E|]; [|discriminate]. apply app_cancel in E. subst r'.
    assert (g' = g) by (eapply nodup_fst; eauto). subst g'. exact (eq_trans (eq_sym X) K).
Qed.
Lemma given_list w w' : made w -> given w w' -> as_list (w_context w') (w_fun w') = nodes w' /\
  exists P, (forall e, In e (nodes w) -> (P e = true <-> keeps w (fst e))) /\ as_list (w_context w') (w_fun w') = filter P (nodes w).
Proof.
  intros M (M' & E2 & E3 & Pl & L). split.
  - rewrite as_list_lst, plain_lst by exact Pl. unfold pre, nodes. now rewrite map_map.
  - exists (fun e => picked w (fst e)). split.
    + intros e He. unfold nodes in He. apply in_map_iff in He. destruct He as ([r g] & <- & H). cbn [fst snd]. rewrite (picked_spec w r g M H). now apply keeps_spec.
    + rewrite as_list_lst, L, E3. unfold pre, ents, nodes. rewrite map_map. cbn [fst snd].
      assert (Z : forall l, incl l (actors (w_fun w)) -> map (fun x => (context_prefix (w_context w) ++ fst x, actor_of (snd x))) (filter (keepb (Some (rel w))) l) =
        filter (fun e => picked w (fst e)) (map (fun e => (context_prefix (w_context w) ++ fst e, actor_of (snd e))) l)).
      { induction l as [|[r g] l IH]; intros Hl; [reflexivity|]. cbn [filter map fst snd]. rewrite (picked_spec w r g M) by (apply Hl; now left). rewrite <- IH by (intros z Hz; apply Hl; now right). destruct (keepb _ _); reflexivity. }
      apply Z, incl_refl.
Qed.

(** The outcome, for every word: a root which is a junction raises TypeError; a kept address through a junction,
    IndexError; a process without any lexeme, the focus being elsewhere than the valence, ValueError. Otherwise a
    word with the same focus, the addresses of which are those above the focus or a lexeme which is not
    empty, in the same order and with the same lexemes. *)
Theorem C87_outcome : forall w, made w ->
  (is_jun (w_fun w) = true /\ simplify_word w = Err TypeError) \/
  (is_jun (w_fun w) = false /\ through w /\ simplify_word w = Err IndexError) \/
  (is_jun (w_fun w) = false /\ ~ through w /\ (w_context w = CProcess /\ ~ valence (w_role w) /\ forall s, ~ occupied w s) /\ simplify_word w = Err ValueError) \/
  (is_jun (w_fun w) = false /\ ~ through w /\ ~ (w_context w = CProcess /\ ~ valence (w_role w) /\ forall s, ~ occupied w s) /\
   exists w', simplify_word w = Ok w' /\ made w' /\ w_role w' = w_role w /\ w_context w' = w_context w /\ as_list (w_context w') (w_fun w') = nodes w' /\
     exists P, (forall e, In e (nodes w) -> (P e = true <-> keeps w (fst e))) /\ nodes w' = filter P (nodes w)).
Proof.
  intros w M. pose proof (simplify_cases w M) as S. destruct (is_jun (w_fun w)) eqn:J; [left; auto|]. right. pose proof (through_spec w M) as T. destruct (blocked _ _) eqn:B.
  - left. split; [reflexivity|]. split; [now apply T|exact S].
  - right. assert (~ through w) as NT by (intros X; apply T in X; discriminate). pose proof (valence_spec w M) as VS. destruct (valence_kept w).
    + right. split; [reflexivity|]. split; [exact NT|]. split; [intros X; apply VS in X; discriminate|]. destruct S as (w' & E & G). exists w'. split; [exact E|]. destruct (given_list w w' M G) as (E1 & E2). rewrite E1 in E2. destruct G as (M' & R & C & _). auto 10.
    + left. split; [reflexivity|]. split; [exact NT|]. split; [now apply VS|exact S].
Qed.
Print Assumptions C87_outcome.

Lemma simplify_given w w' : made w -> simplify_word w = Ok w' -> given w w'.
Proof.
  intros M E. pose proof (simplify_cases w M) as S. destruct (is_jun _); [congruence|]. destruct (blocked _ _); [congruence|]. destruct (valence_kept w); [|congruence]. destruct S as (w2 & E2 & G). assert (w2 = w') by congruence. now subst.
Qed.
(** With the focus on an address of the word, the word given is the word without the other addresses. *)
Theorem C87_addresses : forall w w', made w -> simplify_word w = Ok w' -> In (focus w) (map fst (as_list (w_context w) (w_fun w))) ->
  exists P, (forall e, In e (as_list (w_context w) (w_fun w)) -> (P e = true <-> keeps w (fst e))) /\
    as_list (w_context w') (w_fun w') = filter P (as_list (w_context w) (w_fun w)).
Proof.
  intros w w' M E Hf. pose proof (simplify_given w w' M E) as G. destruct (given_list w w' M G) as (_ & P & HP & L). exists P.
  assert (Sub : forall e, In e (as_list (w_context w) (w_fun w)) -> In e (nodes w)) by (intros e He; unfold as_list in He; unfold nodes; apply in_map_iff in He; destruct He as (a & <- & Ha); apply filter_In in Ha; apply in_map_iff; exists a; tauto).
  split; [intros e He; apply HP, Sub, He|]. rewrite L. unfold nodes, as_list. destruct (made_facts w M) as (V & _). pose proof (actors_nodup_c _ _ _ V) as N.
  assert (Jn : forall r g, In (r, g) (actors (w_fun w)) -> is_jun g = true -> P (context_prefix (w_context w) ++ r, actor_of g) = false).
  { intros r g H J. destruct (P (context_prefix (w_context w) ++ r, actor_of g)) eqn:X; [|reflexivity]. exfalso. apply HP in X; [|apply in_map_iff; exists (r, g); auto]. cbn [fst] in X. destruct g as [link cs| | |]; try discriminate. clear J.
    pose proof (simplify_cases w M) as S. destruct (is_jun (w_fun w)) eqn:Jw; [congruence|]. destruct (blocked _ _) eqn:B; [congruence|].
    assert (NT : ~ through w) by (intros T; apply through_spec in T; congruence).
    (* a kept junction is the focus *)
    apply (keeps_spec w r _ M H) in X. unfold keepb in X. cbn [fst snd onway] in X. apply orb_true_iff in X. destruct X as [X|X].
    - apply negb_true_iff, all_empty_false in X. destruct X as (t & h & Ht & Bh). rewrite actors_jun' in Ht. destruct Ht as [[= <- <-]|Ht]; [discriminate|]. destruct (children_linked _ _ _ _ Ht) as (a & t' & Et). cbn [fst] in Et. subst t.
      assert (Q : In (r ++ link :: a :: t', h) (actors (w_fun w)) /\ In link JUNCTION_SCRIPTS).
      { destruct (jun_facts _ _ _ _ _ V H) as [Lk Up]. split; [|exact Lk]. apply Up. rewrite actors_jun'. now right. }
      destruct Q as [Q Lk]. apply NT. right. exists (context_prefix (w_context w) ++ r ++ link :: a :: t'). split; [apply occupied_spec; eauto|]. apply linked_app. right. apply linked_app. right. now constructor.
    - apply negb_true_iff, aside_spec in X. destruct X as (t & X). destruct (made_facts w M) as (_ & _ & _ & (g & Hg) & _).
      (* the focus is an address, not a junction *)
      apply in_map_iff in Hf. destruct Hf as ([s x] & Es & Hs). cbn [fst] in Es. subst s. unfold as_list in Hs. apply in_map_iff in Hs. destruct Hs as ([r2 g2] & Er & Hs). cbn [fst snd] in Er. apply filter_In in Hs. destruct Hs as [Hs Js]. unfold focus in Er. fold (rel w) in Er. injection Er as Er _. apply app_cancel in Er. subst r2.
      assert (Down : In (t, g2) (actors (Jun link cs))).
      { rewrite X in Hs. now apply (proj2 (jun_facts _ _ _ _ _ V H)). }
      rewrite actors_jun' in Down. destruct Down as [[= _ <-]|Down]; [discriminate|]. assert (Lk : blocked (Some (rel w)) (actors (w_fun w)) = true); [|congruence].
      apply blocked_spec. exists (rel w), g2. split; [exact Hs|]. split.
      + unfold keepb. cbn [fst snd onway]. replace (aside (rel w) (rel w)) with false; [apply orb_true_r|]. symmetry. apply aside_spec. exists []. now rewrite app_nil_r.
      + rewrite X. destruct (children_linked _ _ _ _ Down) as (a & t' & Et). cbn [fst] in Et. subst t. rewrite existsb_app. cbn [existsb].
        assert (Hl : isl link = true); [|rewrite Hl; cbn; apply orb_true_r].
        apply ins_In, (jun_facts _ _ _ _ _ V H). }
  clear L HP Sub Hf N. revert Jn. generalize (actors (w_fun w)) as l. induction l as [|[r g] l IH]; intros Jn; [reflexivity|]. cbn [map filter fst snd].
  assert (IH' := IH (fun r g H => Jn r g (or_intror H))). destruct (is_jun g) eqn:J; cbn [negb map filter fst snd].
  - rewrite (Jn r g (or_introl eq_refl) J). exact IH'.
  - rewrite IH'. reflexivity.
Qed.
Print Assumptions C87_addresses.

(** No lexeme is lost, none moves. *)
Theorem C87_lexemes : forall w w', made w -> simplify_word w = Ok w' -> forall r x, lexeme_empty x = false -> (lexeme_at w' r x <-> lexeme_at w r x).
Proof.
  intros w w' M E r x Hx. pose proof (simplify_given w w' M E) as (M' & E2 & E3 & Pl & L). unfold lexeme_at. rewrite !as_list_lst, L, E3. split.
  - intros H. apply pre_in in H. apply pre_in. cbn [fst snd] in *. destruct H as (s & -> & H). exists s. split; [reflexivity|]. apply ents_in in H. destruct H as (g & H & _ & Ex). unfold lst. apply in_map_iff. exists (s, g). cbn [fst snd]. split; [now rewrite Ex|]. apply filter_In. split; [exact H|]. destruct g; [discriminate|reflexivity|reflexivity|reflexivity].
  - intros H. apply pre_in in H. apply pre_in. cbn [fst snd] in *. destruct H as (s & -> & H). exists s. split; [reflexivity|]. apply lst_actors in H. destruct H as (g & H & _ & Ex). apply ents_in. exists g. split; [exact H|]. split; [|congruence]. unfold keepb. cbn [fst snd]. rewrite (self_full g); [reflexivity|]. rewrite Ex. exact Hx.
Qed.
Print Assumptions C87_lexemes.
Lemma occupied_same w w' : made w -> simplify_word w = Ok w' -> forall s, occupied w' s <-> occupied w s.
Proof. intros M E s. unfold occupied. split; intros (x & H & Hx); exists x; (split; [now apply (C87_lexemes w w' M E s x Hx)|exact Hx]). Qed.
Lemma focus_same w w' : w_role w' = w_role w -> w_context w' = w_context w -> focus w' = focus w.
Proof. unfold focus. now intros -> ->. Qed.
Lemma given_keeps w w' : made w -> simplify_word w = Ok w' -> forall e, In e (nodes w') -> keeps w' (fst e) /\ In e (nodes w) /\ keeps w (fst e).
Proof.
  intros M E e He. pose proof (simplify_given w w' M E) as G. destruct (given_list w w' M G) as (E1 & P & HP & L). rewrite <- E1, L in He. apply filter_In in He. destruct He as [He Pe]. apply HP in Pe; [|exact He].
  split; [|auto]. destruct G as (_ & E2 & E3 & _). destruct Pe as [A|(s & O & Q)]; [left; now rewrite (focus_same w w' E2 E3)|right]. exists s. split; [now apply (occupied_same w w' M E)|exact Q].
Qed.

(** No empty leaf is left, but at the focus. *)
Theorem C87_leaves : forall w w', made w -> simplify_word w = Ok w' -> forall r x, In (r, x) (nodes w') -> leaf w' r ->
  (forall l, x = Some l -> lexeme_empty l = true) -> r = focus w.
Proof.
  intros w w' M E r x H Lf Hx. destruct (given_keeps w w' M E _ H) as (K & _). cbn [fst] in K. pose proof (simplify_given w w' M E) as G. destruct (given_list w w' M G) as (E1 & _). destruct G as (M' & E2 & E3 & Pl & L).
  assert (Hfoc : In (focus w') (map fst (nodes w'))).
  { destruct (rel_kept w M) as (y & Hy). rewrite <- L in Hy. rewrite <- E1, as_list_lst. apply in_map_iff. exists (focus w', y). split; [reflexivity|]. apply pre_in. exists (rel w). cbn [fst snd]. split; [|exact Hy]. unfold focus, rel. now rewrite E2, E3. }
  rewrite <- (focus_same w w' E2 E3). destruct K as [A|(s & O & Q)]; [symmetry; now apply Lf; [|left]|]. exfalso.
  assert (Hs : In s (map fst (nodes w'))). { destruct O as (y & Hy & _). unfold lexeme_at in Hy. rewrite E1 in Hy. apply in_map_iff. exists (s, Some y). auto. }
  assert (s = r) as -> by (apply Lf; [exact Hs|exact Q]). destruct O as (y & Hy & By). unfold lexeme_at in Hy. rewrite E1 in Hy.
  assert (N : NoDup (map fst (nodes w'))).
  { destruct (made_facts w' M') as (V & _). pose proof (actors_nodup_c _ _ _ V) as N. unfold nodes. rewrite map_map. cbn [fst]. rewrite <- (map_map fst (app (context_prefix (w_context w')))). now apply map_app_nodup. }
  assert (x = Some y) by (eapply nodup_fst; eauto). specialize (Hx y H0). congruence.
Qed.
Print Assumptions C87_leaves.

(** A second time changes nothing. *)
Theorem C87_idempotent : forall w w', made w -> simplify_word w = Ok w' -> simplify_word w' = Ok w'.
Proof.
  intros w w' M E. pose proof (simplify_given w w' M E) as G. pose proof G as (M' & E2 & E3 & Pl & L). destruct (made_facts w' M') as (V & W & _).
  assert (K : forall e, In e (actors (w_fun w')) -> keepb (Some (rel w')) e = true).
  { intros [r g] H. apply (keeps_spec w' r g M' H). apply (given_keeps w w' M E (context_prefix (w_context w') ++ r, actor_of g)). unfold nodes. apply in_map_iff. now exists (r, g). }
  assert (J : is_jun (w_fun w') = false).
  { destruct (w_context w') eqn:C; cbn [cvalid] in V; [destruct (w_fun w'); try solve [destruct V]; reflexivity| |]; apply (Pl []), (actors_root _ _ _ V). }
  assert (En : ents (Some (rel w')) (actors (w_fun w')) = lst lexeme (w_fun w')) by (rewrite plain_lst by exact Pl; unfold ents; rewrite filter_true; auto).
  unfold simplify_word. rewrite (role_below_rel w' M' J), kept_ents, En. pose proof (short_fuel lexeme (lst lexeme (w_fun w'))) as S.
  destruct (w_context w') eqn:C; cbn [cvalid] in V.
  - destruct (w_fun w') as [| | |x v acts] eqn:F; try solve [destruct V]. rewrite proc_exact; [|exact V|eapply Forall_impl; [|exact S]; intros; cbn beta in *; lia]. cbn [bind fst snd]. exact W.
  - destruct (w_fun w') as [| |x d i|] eqn:F; try solve [destruct V]; try discriminate. pose proof (from_perm lexeme KD _ V _ _ (Permutation_refl _) S) as X. cbn [from] in X. rewrite X. exact W.
  - destruct (w_fun w') as [|x|x d i|] eqn:F; try solve [destruct V]; try discriminate; [|destruct V; discriminate]. pose proof (from_perm lexeme KI _ V _ _ (Permutation_refl _) S) as X. cbn [from] in X. rewrite X. exact W.
Qed.
Print Assumptions C87_idempotent.

Definition word_text (s : string) : option word := match usl_parse (fun l => l) s with Ok (UWord w, _) => Some w | _ => None end.
Definition simplified (s : string) : res string := match word_text s with Some w => do w' <- simplify_word w; Ok (w_str w') | None => Err CannotParse end.
Ltac remade := match goal with |- made ?w => exists (as_list (w_context w) (w_fun w)), (w_role w); vm_compute; reflexivity end.
(** An empty quality and an empty actant are left out; the empty initiator stays, it has a quality. *)
Example C87_case :
  simplified "[! E:T:. (wa.)(b.) > E:.n.- () > E:.n.- E:A:. (wa.)(i.) > E:.d.- () > E:.d.- E:A:. () > E:.n.- E:U:. ()]" =
  Ok "[! E:T:. (wa.)(b.) > E:.n.- () > E:.n.- E:A:. (wa.)(i.)]"%string.
Proof. vm_compute. reflexivity. Qed.
Example C87_case_focus :
  simplified "[E:T:. (wa.)(b.) > ! E:.n.- () > E:.n.- E:A:. ()]" = Ok "[E:T:. (wa.)(b.) > ! E:.n.- ()]"%string.
Proof. vm_compute. reflexivity. Qed.

(** False: it does not simplify every word. No word with a lexeme in a junction can be simplified, ... *)
Theorem C87_junctions_refuted : forall w, made w -> (exists s, occupied w s /\ linked s) -> simplify_word w = Err TypeError \/ simplify_word w = Err IndexError.
Proof.
  intros w M H. destruct (C87_outcome w M) as [[_ E]|[(_ & _ & E)|[(_ & N & _)|(_ & N & _)]]]; auto; elim N; now right.
Qed.
Print Assumptions C87_junctions_refuted.
Example C87_junctions_case :
  simplified "[! E:T:. (wa.)(b.) > E:.n.- E:S:.-k.u.-' j.-U:.-'d.o.-l.o.-', (wa.)(b.) > E:.n.- E:S:.-k.u.-' j.-A:.-'d.o.-l.o.-', (wa.)(i.)]" = Err IndexError /\
  simplified "[! E:A:. E:S:.-k.u.-' j.-U:.-'d.o.-l.o.-', (wa.)(b.) > E:A:. E:S:.-k.u.-' j.-A:.-'d.o.-l.o.-', (wa.)(i.)]" = Err TypeError.
Proof. split; vm_compute; reflexivity. Qed.
(** ... nor a process of empty lexemes with the focus on an actant, ... *)
Theorem C87_empty_process_refuted : exists w, word_text "[E:T:. () > ! E:.n.- ()]" = Some w /\ made w /\ simplify_word w = Err ValueError.
Proof. eexists. split; [vm_compute; reflexivity|]. split; [remade|vm_compute; reflexivity]. Qed.
Print Assumptions C87_empty_process_refuted.
(** ... and one with the focus on a junction of empty lexemes gives a word which is printed with None, and which
    the parser does not read. *)
Definition nolex : lexeme := {| pm_flexion := {| constant := [Null 0]; groups := [] |}; pm_content := {| constant := [Null 0]; groups := [] |} |}.
Definition some_lexeme : lexeme := {| pm_flexion := {| constant := [Null 0]; groups := [] |}; pm_content := {| constant := [Prim PA]; groups := [] |} |}.
Definition empty_junction : list (role * option lexeme) :=
  [(["E:T:."], Some some_lexeme); (["E:.n.-"; "E:S:.-k.u.-'"; "j.-U:.-'d.o.-l.o.-',"], Some nolex); (["E:.n.-"; "E:S:.-k.u.-'"; "j.-A:.-'d.o.-l.o.-',"], Some nolex)]%string.
Theorem C87_none_refuted : exists w w', word_of empty_junction ["E:.n.-"%string] = Ok w /\ simplify_word w = Ok w' /\
  w_str w = "[E:T:. ()(A:) > ! E:.n.- E:S:.-k.u.-' j.-U:.-'d.o.-l.o.-', () > ! E:.n.- E:S:.-k.u.-' j.-A:.-'d.o.-l.o.-', ()]"%string /\
  w_str w' = "[E:T:. ()(A:) > ! E:.n.- None]"%string /\ usl_parse (fun l => l) (w_str w') = Err CannotParse.
Proof. eexists. eexists. repeat split; vm_compute; reflexivity. Qed.
Print Assumptions C87_none_refuted.
