(** Proofs about Check.v. *)
From Coq Require Import List String Bool Arith NArith Lia Permutation.
From Verif Require Import Base Script ScriptSpec ScriptOrderProofs OrderTheory ScriptCtorProofs SortProofs ScriptMoreProofs
  Usl UslSpec UslProofs UslSsProofs Sfun SfunProofs SfunListProofs SfunWordProofs Check CheckSpec.
Import ListNotations.
Local Open Scope string_scope.

Lemma sorted_isort l : Forall nf l -> sorted_scripts (isort l) = true.
Proof.
  intros F. unfold sorted_scripts. assert (G : Forall nf (isort l)) by (apply isort_Forall; auto).
  apply (seq_eqb_key order_script); [apply isort_Forall; auto|auto|].
  apply (o_sort_sorted order_script); [auto|]. apply isort_weak; auto.
Qed.

Lemma dedup_length l : List.length (dedup script_eqb l) = List.length l <-> NoDup (map str l).
Proof.
  destruct (dedup_distinct_of l) as (N & I & C). split; intros H.
  - apply NoDup_incl_NoDup with (l := map str (dedup script_eqb l)); [auto|rewrite !map_length; lia|].
    intros x X. apply in_map_iff in X. destruct X as (y & <- & Y). now apply in_map, I.
  - apply Nat.le_antisymm.
    + rewrite <- (map_length str (dedup _ _)), <- (map_length str l). apply NoDup_incl_length; auto.
      intros x X. apply in_map_iff in X. destruct X as (y & <- & Y). now apply in_map, I.
    + rewrite <- (map_length str (dedup _ _)), <- (map_length str l). apply NoDup_incl_length; auto.
      intros x X. apply in_map_iff in X. destruct X as (y & <- & Y). now apply C.
Qed.

Lemma flat_map_app_perm {A B} (f : A -> list B) l l' : Permutation l l' -> Permutation (flat_map f l) (flat_map f l').
Proof. intros P. now apply Permutation_flat_map. Qed.

(** All the morphemes of a polymorpheme. *)
Definition everything (p : pm) : list script := (constant p ++ flat_map fst (groups p))%list.
Lemma filter_flat gs : filter_empty (flat_map fst gs) = flat_map (fun g : group => filter_empty (fst g)) gs.
Proof. induction gs as [|g gs IH]; [reflexivity|]. cbn. unfold filter_empty in *. now rewrite filter_app, IH. Qed.
Lemma groups_everything cs gs : Permutation (flat_map fst (groups (mk_pm cs gs))) (filter_empty (flat_map fst gs)).
Proof.
  cbn [groups mk_pm]. eapply perm_trans; [apply Permutation_flat_map, sort_perm|]. rewrite filter_flat.
  induction gs as [|g gs IH]; [constructor|]. cbn. apply Permutation_app; [apply sort_perm|exact IH].
Qed.
Lemma mk_everything cs gs :
  Permutation (everything (mk_pm cs gs)) (meaningful (cs ++ flat_map fst gs)) \/
  Permutation (everything (mk_pm cs gs)) (Null 0 :: meaningful (cs ++ flat_map fst gs)).
Proof.
  unfold everything, meaningful. rewrite filter_app. change (filter _ cs) with (filter_empty cs). change (filter _ (flat_map fst gs)) with (filter_empty (flat_map fst gs)).
  pose proof (groups_everything cs gs) as G. cbn [constant mk_pm]. assert (S : Permutation (isort (filter_empty cs)) (filter_empty cs)) by apply sort_perm.
  destruct (isort (filter_empty cs)) as [|x l].
  - right. apply Permutation_nil in S. rewrite S. cbn. now constructor.
  - left. now apply Permutation_app.
Qed.
Lemma null_not_meaningful l : Forall nf l -> ~ In (str (Null 0)) (map str (meaningful l)).
Proof.
  intros F H. apply in_map_iff in H. destruct H as (m & E & H). apply filter_In in H. destruct H as [H N].
  rewrite Forall_forall in F. rewrite (is_empty_str m (Null 0)) in N; [discriminate| | |exact E]; [apply F; auto|cbv; lia].
Qed.
Lemma everything_ok cs gs : Forall nf cs -> Forall gok gs ->
  (NoDup (map str (everything (mk_pm cs gs))) <-> NoDup (map str (meaningful (cs ++ flat_map fst gs)))) /\
  ((forall m, In m (everything (mk_pm cs gs)) -> cardinal m = 1%N) <-> (forall m, In m (meaningful (cs ++ flat_map fst gs)) -> cardinal m = 1%N)).
Proof.
  intros Fc Fg. assert (F : Forall nf (cs ++ flat_map fst gs)).
  { apply Forall_app. split; auto. rewrite Forall_forall in *. intros m H. apply in_flat_map in H. destruct H as (g & Hg & H).
    specialize (Fg _ Hg). unfold gok in Fg. rewrite Forall_forall in Fg. auto. }
  pose proof (null_not_meaningful _ F) as Z. destruct (mk_everything cs gs) as [P|P].
  - split.
    + split; apply Permutation_NoDup; [|apply Permutation_sym]; now apply Permutation_map.
    + split; intros H m M; apply H; [eapply Permutation_in; [apply Permutation_sym|]; eauto|eapply Permutation_in; eauto].
  - split.
    + transitivity (NoDup (map str (Null 0 :: meaningful (cs ++ flat_map fst gs)))).
      * split; apply Permutation_NoDup; [|apply Permutation_sym]; now apply Permutation_map.
      * cbn [map]. split; [now inversion 1|now constructor].
    + split; intros H m M.
      * apply H. eapply Permutation_in; [apply Permutation_sym; eauto|]. now right.
      * apply (Permutation_in _ P) in M. destruct M as [<-|M]; [reflexivity|auto].
Qed.

Lemma existsb_false {A} (f : A -> bool) l : existsb f l = false <-> forall x, In x l -> f x = false.
Proof.
  split.
  - intros H x X. destruct (f x) eqn:E; auto. assert (existsb f l = true) by (apply existsb_exists; eauto). congruence.
  - intros H. destruct (existsb f l) eqn:E; auto. apply existsb_exists in E. destruct E as (x & X & E). rewrite H in E by auto. discriminate.
Qed.

Lemma meaningful_length l : List.length (isort (filter_empty l)) = List.length (meaningful l).
Proof. apply Permutation_length, sort_perm. Qed.
Lemma isort_nil l : isort (filter_empty l) = [] <-> meaningful l = [].
Proof. split; intros H; apply length_zero_iff_nil; pose proof (meaningful_length l) as E; rewrite H in E; now rewrite <- E || rewrite E. Qed.

Theorem check_pm_ok cs gs : Forall nf cs -> Forall gok gs ->
  (check_pm (mk_pm cs gs) = Ok tt <-> acceptable cs gs) /\ (check_pm (mk_pm cs gs) <> Ok tt -> check_pm (mk_pm cs gs) = Err ValueError).
Proof.
  intros Fc Fg. destruct (everything_ok cs gs Fc Fg) as [HN HC]. pose proof (mk_pm_ok cs gs Fc Fg) as [[Kc Kg] _].
  assert (S1 : seq_eqb group_eqb (sort group_lt (groups (mk_pm cs gs))) (groups (mk_pm cs gs)) = true).
  { apply (seq_eqb_key order_group); [eapply Permutation_Forall; [apply Permutation_sym, sort_perm|]; auto|auto|].
    apply (o_sort_sorted order_group); [auto|]. apply (o_sorted order_group). rewrite Forall_map. eapply Forall_impl; [|exact Fg].
    intros g Hg. apply isort_Forall, filter_nf, Hg. }
  assert (GI : forall g, In g (groups (mk_pm cs gs)) <-> exists h, In h gs /\ g = (isort (filter_empty (fst h)), snd h)).
  { intros g. cbn [groups mk_pm]. split.
    - intros H. apply (Permutation_in _ (sort_perm _ _)) in H. apply in_map_iff in H. destruct H as (h & <- & H). eauto.
    - intros (h & H & ->). eapply Permutation_in; [apply Permutation_sym, sort_perm|]. now apply (in_map (fun g : group => (isort (filter_empty (fst g)), snd g))). }
  assert (S2 : existsb (fun g => negb (sorted_scripts (fst g))) (groups (mk_pm cs gs)) = false).
  { apply existsb_false. intros g H. apply GI in H. destruct H as (h & H & ->). cbn [fst]. rewrite sorted_isort; [reflexivity|].
    apply filter_nf. rewrite Forall_forall in Fg. apply (Fg _ H). }
  assert (S3 : sorted_scripts (constant (mk_pm cs gs)) = true).
  { cbn [constant mk_pm]. destruct (isort (filter_empty cs)) as [|x l] eqn:E; [vm_compute; reflexivity|]. rewrite <- E. apply sorted_isort, filter_nf, Fc. }
  unfold check_pm. fold (everything (mk_pm cs gs)). rewrite S1, S2, S3. cbn [negb].
  set (b1 := existsb _ _). set (b2 := existsb _ _). set (b3 := negb _). set (b4 := existsb _ _).
  assert (B12 : b1 = false /\ b2 = false <-> forall ms n, In (ms, n) gs -> meaningful ms <> [] -> 1 <= n <= 3 /\ n <= List.length (meaningful ms)).
  { subst b1 b2. rewrite !existsb_false. split.
    - intros [H1 H2] ms n H M. assert (G : In (isort (filter_empty ms), n) (groups (mk_pm cs gs))) by (apply GI; exists (ms, n); auto).
      specialize (H1 _ G). specialize (H2 _ G). cbn [fst snd] in *. rewrite meaningful_length in H2.
      destruct (isort (filter_empty ms)) eqn:E; [apply isort_nil in E; contradiction|]. cbn [andb] in *.
      apply orb_false_iff in H1. destruct H1 as [H0 H1]. apply Nat.eqb_neq in H0. apply Nat.ltb_ge in H1, H2. unfold POLYMORPHEME_MAX_MULTIPLICITY in H1. lia.
    - intros H. split; intros g G; apply GI in G; destruct G as ([ms n] & G & ->); cbn [fst snd]; specialize (H _ _ G);
        rewrite ?meaningful_length; destruct (isort (filter_empty ms)) eqn:E; try reflexivity; cbn [andb].
      + assert (M : meaningful ms <> []) by (intros M; apply isort_nil in M; congruence). specialize (H M).
        apply orb_false_iff. split; [apply Nat.eqb_neq; lia|apply Nat.ltb_ge; unfold POLYMORPHEME_MAX_MULTIPLICITY; lia].
      + assert (M : meaningful ms <> []) by (intros M; apply isort_nil in M; congruence). specialize (H M). apply Nat.ltb_ge. lia. }
  assert (B3 : b3 = false <-> NoDup (map str (everything (mk_pm cs gs)))) by (subst b3; rewrite negb_false_iff, Nat.eqb_eq; apply dedup_length).
  assert (B4 : b4 = false <-> forall m, In m (everything (mk_pm cs gs)) -> cardinal m = 1%N).
  { subst b4. rewrite existsb_false. split; intros H m M; specialize (H m M); [rewrite negb_false_iff, N.eqb_eq in H; exact H|rewrite H; reflexivity]. }
  clearbody b1 b2 b3 b4. unfold acceptable. cbn zeta. rewrite <- HN, <- HC, <- B3, <- B4, <- B12.
  split; [|intros H]; destruct b1, b2, b3, b4; (try split; intros; try discriminate; auto; try tauto; intuition congruence).
Qed.


(** ** Addresses *)
Lemma check_two (a : res unit) (b : res unit) : (a = Ok tt \/ a = Err ValueError) -> (b = Ok tt \/ b = Err ValueError) ->
  ((do _ <- a; b) = Ok tt <-> a = Ok tt /\ b = Ok tt) /\ ((do _ <- a; b) = Ok tt \/ (do _ <- a; b) = Err ValueError).
Proof. intros [-> | ->] [-> | ->]; cbn; intuition congruence. Qed.
Lemma assert_two b : assert_that b = Ok tt \/ assert_that b = Err ValueError.
Proof. destruct b; cbn; auto. Qed.
Lemma check_address_two ty r : check_address ty r = Ok tt \/ check_address ty r = Err ValueError.
Proof.
  unfold check_address. apply check_two; [apply assert_two|]. apply check_two; [destruct existsb; [apply assert_two|auto]|].
  apply check_two; [apply assert_two|]. destruct ty as [[]|]; auto using assert_two.
Qed.
Lemma check_pm_two p : check_pm p = Ok tt \/ check_pm p = Err ValueError.
Proof. unfold check_pm. repeat match goal with |- context [if ?b then _ else _] => destruct b; auto end. Qed.
Lemma check_lexeme_two l : check_lexeme l = Ok tt \/ check_lexeme l = Err ValueError.
Proof. apply check_two; apply check_pm_two. Qed.

Lemma count_cons set a l : count_from set (a :: l) = (if ins a set then 1 else 0) + count_from set l.
Proof. unfold count_from. cbn. destruct (ins a set); reflexivity. Qed.
Lemma count_zero set l : (forall s, In s l -> ins s set = false) -> count_from set l = 0.
Proof. induction l as [|a l IH]; intros H; [reflexivity|]. rewrite count_cons, (H a) by now left. apply IH. intros. apply H. now right. Qed.
Lemma count_app set l l' : count_from set (l ++ l')%list = count_from set l + count_from set l'.
Proof. induction l as [|a l IH]; [reflexivity|]. cbn [app]. rewrite !count_cons, IH. lia. Qed.
Lemma inner_address s : inner s -> ins s ADDRESS_SCRIPTS = true.
Proof.
  intros H. apply ins_In. unfold ADDRESS_SCRIPTS. rewrite !in_app_iff. destruct H as [->|[->|[H|H]]]; auto; right; right; left; cbn; auto.
Qed.
Lemma inner_no_role s : inner s -> ins s (VALENCES ++ ACTANTS) = false.
Proof.
  intros H. unfold ins. rewrite existsb_app. apply orb_false_iff. split; [|apply inner_not_actant, H].
  destruct H as [->|[->|[H|H]]]; try reflexivity; [revert s H|revert s H]; apply Forall_forall; repeat (constructor; [vm_compute; reflexivity|]); constructor.
Qed.
Lemma junction_no_quality s : In s JUNCTION_SCRIPTS \/ In s JUNCTION_INDEX -> ins s [INDEPENDANT_QUALITY] = false /\ ins s [DEPENDANT_QUALITY] = false.
Proof. intros [H|H]; revert s H; apply Forall_forall; repeat (constructor; [vm_compute; auto|]); constructor. Qed.

Definition qualities (k : kind) (r : role) : Prop :=
  match k with
  | KI => count_from [INDEPENDANT_QUALITY] r = 0 /\ count_from [DEPENDANT_QUALITY] r = 0
  | KD => count_from [INDEPENDANT_QUALITY] r <= 1
  end.
Lemma actors_qualities f : forall k, valid lexeme k f -> forall r g, In (r, g) (actors f) -> qualities k r.
Proof.
  induction f as [link cs IH|x|x d i IHd IHi|x v acts IH] using sfun_ind'; intros k V r g H.
  - apply valid_jun in V. destruct V as (L & N & V). rewrite actors_jun' in H. destruct H as [[= <- _]|H]; [destruct k; cbn; auto|].
    apply children_actors_in in H. destruct H as (j & c & r' & E & E' & H). cbn [fst snd Nat.add] in E', H. subst r.
    assert (J : j < List.length cs) by (apply nth_error_Some; congruence).
    rewrite Forall_forall in IH, V. apply nth_error_In in E. specialize (IH c E k (V c E) r' g H).
    destruct (junction_no_quality link (or_introl L)) as [A1 A2].
    destruct (junction_no_quality (nth j JUNCTION_INDEX "")) as [A3 A4]; [right; apply nth_In; cbn; lia|].
    unfold qualities in *. destruct k; rewrite !count_cons, ?A1, ?A2, ?A3, ?A4; cbn [Nat.add]; exact IH.
  - destruct H as [[= <- _]|[]]. destruct k; cbn; auto.
  - cbn [valid] in V. destruct V as (-> & Vd & Vi). rewrite actors_dep in H. destruct H as [[= <- _]|H]; [cbn; auto|].
    apply in_app_iff in H. rewrite !under_in in H. destruct H as [(r' & E & H)|(r' & E & H)]; cbn in E; subst r.
    + destruct i as [f|]; [|destruct H]. destruct (IHi f eq_refl KI Vi r' g H) as [C _]. unfold qualities. rewrite count_cons, C. cbn. lia.
    + destruct d as [f|]; [|destruct H]. specialize (IHd f eq_refl KD Vd r' g H). unfold qualities in *. rewrite count_cons. exact IHd.
  - destruct V.
Qed.

(** Which kinds of functions are met under a function of a class. *)
Definition fits (ty : option context) (k : kind) : Prop := match ty with Some CIndependant => k = KI | _ => True end.
Lemma existsb_count set l : existsb (fun s => ins s set) l = true -> 1 <= count_from set l.
Proof. intros H. apply existsb_exists in H. destruct H as (s & S & H). unfold count_from. destruct (filter _ l) eqn:E; [|cbn; lia]. assert (X : In s []) by (rewrite <- E; apply filter_In; auto). destruct X. Qed.
Lemma check_address_ok ty r : (forall s, In s r -> ins s ADDRESS_SCRIPTS = true) -> count_from (VALENCES ++ ACTANTS) r <= 1 -> count_from [INDEPENDANT_QUALITY] r <= 1 ->
  (ty = Some CDependant \/ ty = Some CIndependant -> count_from (VALENCES ++ ACTANTS) r = 0) -> (ty = Some CIndependant -> count_from [DEPENDANT_QUALITY] r = 0) ->
  check_address ty r = Ok tt.
Proof.
  intros A R Q Z D. unfold check_address. replace (forallb _ r) with true by (symmetry; apply forallb_forall; auto). cbn [assert_that bind].
  destruct (existsb (fun s => ins s (VALENCES ++ ACTANTS)) r) eqn:E.
  - apply existsb_count in E. replace (count_from _ r) with 1 in * by lia. cbn [Nat.eqb assert_that bind].
    apply Nat.leb_le in Q. rewrite Q. cbn [assert_that bind]. destruct ty as [[]|]; auto; [exfalso|exfalso]; assert (1 = 0) by auto; discriminate.
  - cbn [bind]. apply Nat.leb_le in Q. rewrite Q. cbn [assert_that bind]. destruct ty as [[]|]; auto.
    + rewrite Z by auto. reflexivity.
    + replace (count_from (VALENCES ++ ACTANTS ++ [DEPENDANT_QUALITY]) r) with 0; [reflexivity|]. symmetry.
      specialize (Z (or_intror eq_refl)). specialize (D eq_refl). apply count_zero. intros s S.
      destruct (ins s (VALENCES ++ ACTANTS ++ [DEPENDANT_QUALITY])) eqn:X; auto. exfalso. rewrite app_assoc in X. unfold ins in X. rewrite existsb_app in X.
      apply orb_true_iff in X. destruct X as [X|X].
      * assert (1 <= count_from (VALENCES ++ ACTANTS) r) by (apply existsb_count, existsb_exists; eauto). lia.
      * assert (1 <= count_from [DEPENDANT_QUALITY] r) by (apply existsb_count, existsb_exists; eauto). lia.
Qed.
Lemma inner_address_ok ty k r : Forall inner r -> qualities k r -> fits ty k -> check_address ty r = Ok tt.
Proof.
  intros I Q F. rewrite Forall_forall in I. assert (Z : count_from (VALENCES ++ ACTANTS) r = 0) by (apply count_zero; intros; apply inner_no_role; auto).
  apply check_address_ok; [intros; apply inner_address; auto|lia| |auto|].
  - destruct k; cbn in Q; lia.
  - intros ->. cbn in F. subst k. apply Q.
Qed.

(** ** Functions *)
Definition entry_ok (x : option lexeme) : Prop := exists l, x = Some l /\ check_lexeme l = Ok tt.
Definition all_ok (f : sfun lexeme) : Prop := forall r g, In (r, g) (actors f) -> is_jun g = false -> entry_ok (actor_of g).
Lemma all_ok_lst f : all_ok f <-> (forall r x, In (r, x) (lst lexeme f) -> entry_ok x).
Proof.
  split.
  - intros H r x I. apply lst_actors in I. destruct I as (g & G & J & <-). eauto.
  - intros H r g G J. apply (H r). unfold lst. apply in_map_iff. exists (r, g). split; auto. apply filter_In. split; auto. cbn. now rewrite J.
Qed.
Lemma all_ok_jun link cs : all_ok (Jun link cs) <-> Forall all_ok cs.
Proof.
  unfold all_ok. rewrite actors_jun'. split.
  - intros H. apply Forall_forall. intros c C r g G J. apply In_nth_error in C. destruct C as (j & C).
    apply (H (link :: nth j JUNCTION_INDEX "" :: r) g); [right|auto]. apply children_actors_in. exists j, c, r. cbn. auto.
  - intros H r g [[= <- <-]|G] J; [discriminate|]. apply children_actors_in in G. destruct G as (j & c & r' & C & _ & G). cbn [snd] in G.
    rewrite Forall_forall in H. apply nth_error_In in C. eapply H; eauto.
Qed.
Lemma all_ok_dep x d i : all_ok (Dep x d i) <-> entry_ok x /\ (forall g, i = Some g -> all_ok g) /\ (forall g, d = Some g -> all_ok g).
Proof.
  unfold all_ok. rewrite actors_dep. split.
  - intros H. split; [apply (H [] (Dep x d i)); [now left|reflexivity]|]. split; intros g -> r h G J.
    + apply (H (INDEPENDANT_QUALITY :: r) h); [right|auto]. apply in_app_iff. left. apply under_in. exists r. auto.
    + apply (H (DEPENDANT_QUALITY :: r) h); [right|auto]. apply in_app_iff. right. apply under_in. exists r. auto.
  - intros (H & Hi & Hd) r g [[= <- <-]|G] J; [exact H|]. apply in_app_iff in G. rewrite !under_in in G. destruct G as [(r' & _ & G)|(r' & _ & G)]; cbn [snd] in G.
    + destruct i as [f|]; [|destruct G]. eapply Hi; eauto.
    + destruct d as [f|]; [|destruct G]. eapply Hd; eauto.
Qed.
Lemma all_ok_proc x v acts : all_ok (Proc x v acts) <-> entry_ok x /\ Forall (fun p => all_ok (snd p)) acts.
Proof.
  unfold all_ok. rewrite actors_proc. split.
  - intros H. split; [apply (H [v] (Proc x v acts)); [now left|reflexivity]|]. apply Forall_forall. intros [a h] A r g G J. cbn [snd] in *.
    apply (H (a :: r) g); [right|auto]. apply in_concat. exists (under [a] (actors h)). split; [apply in_map_iff; exists (a, h); auto|]. apply under_in. exists r. auto.
  - intros (H & F) r g [[= <- <-]|G] J; [exact H|]. apply in_concat in G. destruct G as (l & L & G). apply in_map_iff in L. destruct L as ([a h] & <- & A).
    apply under_in in G. destruct G as (r' & _ & G). cbn [fst snd] in *. rewrite Forall_forall in F. apply (F _ A r' g); auto.
Qed.

Definition judged (a : res unit) (P : Prop) : Prop := (a = Ok tt <-> P) /\ (a = Ok tt \/ a = Err ValueError).
Lemma judged_then a b P Q : judged a P -> judged b Q -> judged (do _ <- a; b) (P /\ Q).
Proof. intros [H1 H2] [H3 H4]. destruct (check_two a b H2 H4) as [H5 H6]. split; [rewrite H5, H1, H3; reflexivity|exact H6]. Qed.
Lemma judged_iff a P Q : (P <-> Q) -> judged a P -> judged a Q.
Proof. intros E [H1 H2]. split; [now rewrite H1|auto]. Qed.
Lemma judged_ok : judged (Ok tt) True.
Proof. split; [tauto|auto]. Qed.
Lemma mapM_unit {A} (f : A -> res unit) l : (forall x, In x l -> f x = Ok tt) -> exists u, mapM f l = Ok u.
Proof. induction l as [|a l IH]; intros H; [cbn; eauto|]. cbn. rewrite (H a) by now left. destruct IH as (u & ->); [intros; apply H; now right|]. cbn. eauto. Qed.
Lemma judged_node ty f : (forall r g, In (r, g) (actors f) -> check_address ty r = Ok tt) -> judged (check_node ty f) (is_jun f = false -> entry_ok (actor_of f)).
Proof.
  intros H. unfold check_node. destruct (mapM_unit (fun e => check_address ty (fst e)) (actors f)) as (u & ->); [intros [r g]; apply H|]. cbn [bind].
  destruct (is_jun f).
  - cbn. split; [split; [discriminate|auto]|auto].
  - unfold entry_ok. destruct (actor_of f) as [l|]; cbn.
    + destruct (check_lexeme_two l) as [E|E]; rewrite E; cbn.
      * split; [split; eauto|auto].
      * split; [split; [discriminate|]|auto]. intros X. destruct (X eq_refl) as (l' & [= <-] & X'). congruence.
    + split; [split; [discriminate|]|auto]. intros X. destruct (X eq_refl) as (l' & Z & _). discriminate.
Qed.

Lemma check_fun_jun ty link cs : check_fun ty (Jun link cs) = (do _ <- check_node ty (Jun link cs);
  (fix go (l : list (sfun lexeme)) : res unit := match l with [] => Ok tt | c :: r => do _ <- check_fun ty c; go r end) cs).
Proof. reflexivity. Qed.
Lemma check_fun_dep ty x d i : check_fun ty (Dep x d i) = (do _ <- check_node ty (Dep x d i);
  do _ <- match i with Some g => do _ <- assert_that (quality_class g); check_fun ty g | None => Ok tt end;
  match d with Some g => do _ <- assert_that (actant_class g); check_fun ty g | None => Ok tt end).
Proof. reflexivity. Qed.
Lemma check_fun_proc ty x v acts : check_fun ty (Proc x v acts) = (do _ <- check_node ty (Proc x v acts);
  (fix go (l : list (string * sfun lexeme)) : res unit :=
       match l with [] => Ok tt | p :: r => do _ <- assert_that (actant_class (snd p)); do _ <- check_fun ty (snd p); go r end) acts).
Proof. reflexivity. Qed.

Lemma check_fun_ok f : forall ty k, valid lexeme k f -> fits ty k -> judged (check_fun ty f) (all_ok f).
Proof.
  induction f as [link cs IH|x|x d i IHd IHi|x v acts IH] using sfun_ind'; intros ty k V F.
  - assert (N : judged (check_node ty (Jun link cs)) (is_jun (Jun link cs) = false -> entry_ok (actor_of (Jun link cs)))).
    { apply judged_node. intros r g G. eapply inner_address_ok; eauto; [eapply actors_inner; eauto|eapply actors_qualities; eauto]. }
    rewrite check_fun_jun. eapply judged_iff; [|apply (judged_then _ _ _ (Forall all_ok cs) N)].
    + rewrite all_ok_jun. split; [tauto|split; [discriminate|auto]].
    + apply valid_jun in V. destruct V as (_ & _ & V). clear N. induction cs as [|c cs IHc]; [eapply judged_iff; [|apply judged_ok]; split; auto|].
      inversion IH as [|? ? H1 H2]; subst. inversion V as [|? ? V1 V2]; subst. eapply judged_iff; [symmetry; apply Forall_cons_iff|]. apply judged_then; eauto.
  - cbn [check_fun]. eapply judged_iff; [|apply judged_then; [apply judged_node|apply judged_ok]].
    + unfold all_ok. cbn. split; [intros [H _] r g [[= <- <-]|[]] _; auto|]. intros H. split; [|auto]. intros _. apply (H [] (Indep x)); auto.
    + intros r g G. eapply inner_address_ok; eauto; [eapply actors_inner; eauto|eapply actors_qualities; eauto].
  - assert (N : judged (check_node ty (Dep x d i)) (is_jun (Dep x d i) = false -> entry_ok (actor_of (Dep x d i)))).
    { apply judged_node. intros r g G. eapply inner_address_ok; eauto; [eapply actors_inner; eauto|eapply actors_qualities; eauto]. }
    cbn [valid] in V. destruct V as (-> & Vd & Vi). rewrite check_fun_dep.
    eapply judged_iff; [|apply (judged_then _ _ _ ((forall g, i = Some g -> all_ok g) /\ (forall g, d = Some g -> all_ok g)) N); apply judged_then].
    + rewrite all_ok_dep. cbn. tauto.
    + destruct i as [g|]; [|eapply judged_iff; [|apply judged_ok]; split; [discriminate|auto]].
      replace (quality_class g) with true by (destruct g; cbn in Vi; try reflexivity; [destruct Vi; discriminate|destruct Vi]). cbn [assert_that bind].
      assert (Fi : fits ty KI) by (destruct ty as [[]|]; cbn; auto). eapply judged_iff; [|apply (IHi g eq_refl ty KI Vi Fi)]. split; [intros H h [= <-]; auto|auto].
    + destruct d as [g|]; [|eapply judged_iff; [|apply judged_ok]; split; [discriminate|auto]].
      replace (actant_class g) with true by (destruct g; cbn in Vd; try reflexivity; [discriminate|destruct Vd]). cbn [assert_that bind].
      eapply judged_iff; [|apply (IHd g eq_refl ty KD Vd F)]. split; [intros H h [= <-]; auto|auto].
  - destruct V.
Qed.

Lemma actant_address_ok r a : In a ACTANTS -> Forall inner r -> qualities KD r -> check_address (Some CProcess) (a :: r) = Ok tt.
Proof.
  intros A I Q. rewrite Forall_forall in I. assert (Z : count_from (VALENCES ++ ACTANTS) r = 0) by (apply count_zero; intros; apply inner_no_role; auto).
  apply check_address_ok.
  - intros s [<-|S]; [|apply inner_address; auto]. apply ins_In. unfold ADDRESS_SCRIPTS. rewrite !in_app_iff. auto.
  - rewrite count_cons, Z. destruct (ins _ _); lia.
  - rewrite count_cons. replace (ins a [INDEPENDANT_QUALITY]) with false; [exact Q|]. symmetry. revert a A. apply Forall_forall. repeat (constructor; [vm_compute; reflexivity|]). constructor.
  - intros [H|H]; discriminate.
  - discriminate.
Qed.
Lemma valence_address_ok v : In v VALENCES -> check_address (Some CProcess) [v] = Ok tt.
Proof. revert v. apply Forall_forall. repeat (constructor; [vm_compute; reflexivity|]). constructor. Qed.
Lemma proc_address_ok x v acts r g : pvalid lexeme (Proc x v acts) -> In (r, g) (actors (Proc x v acts)) -> check_address (Some CProcess) r = Ok tt.
Proof.
  cbn [pvalid]. intros (Hv & _ & F). rewrite actors_proc. intros [[= <- <-]|G]; [now apply valence_address_ok|].
  apply in_concat in G. destruct G as (l & L & G). apply in_map_iff in L. destruct L as ([a h] & <- & A). apply under_in in G. destruct G as (r' & E & G).
  cbn [fst snd] in *. subst r. rewrite Forall_forall in F. destruct (F _ A) as [A1 A2]. cbn [fst snd] in *.
  apply actant_address_ok; [auto|eapply actors_inner; eauto|eapply (actors_qualities h KD); eauto].
Qed.
Lemma check_cfun_ok c f : cvalid lexeme c f -> judged (check_fun (fun_class f) f) (all_ok f).
Proof.
  destruct c; cbn [cvalid]; intros V.
  - destruct f as [| | |x v acts]; try solve [destruct V]. cbn [fun_class].
    assert (N : judged (check_node (Some CProcess) (Proc x v acts)) (is_jun (Proc x v acts) = false -> entry_ok (actor_of (Proc x v acts)))).
    { apply judged_node. intros r g G. eapply proc_address_ok; eauto. }
    rewrite check_fun_proc. eapply judged_iff; [|apply (judged_then _ _ _ (Forall (fun p => all_ok (snd p)) acts) N)].
    + rewrite all_ok_proc. cbn. tauto.
    + clear N. cbn [pvalid] in V. destruct V as (_ & _ & V). induction acts as [|[a h] acts IH]; [eapply judged_iff; [|apply judged_ok]; split; auto|].
      inversion V as [|? ? [V1 V2] V3]; subst. cbn [fst snd] in *. replace (actant_class h) with true by (destruct h; cbn in V2; try reflexivity; [discriminate|destruct V2]).
      cbn [assert_that bind]. eapply judged_iff; [symmetry; apply Forall_cons_iff|]. apply judged_then; [|auto]. cbn [snd]. apply (check_fun_ok h _ KD V2). exact Logic.I.
  - apply (check_fun_ok f _ KD V). destruct f; cbn in V |- *; auto.
  - apply (check_fun_ok f _ KI V). destruct f; cbn in V |- *; auto.
Qed.
