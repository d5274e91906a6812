(** Lemmas about GitInterface.diff. *)
From Coq Require Import List String Ascii Bool NArith Arith Lia Permutation.
From Verif Require Import Base ScriptStrProofs Database DatabaseSpec DatabaseProofs DatabaseRefine Git Diff DiffSpec.
Import ListNotations.
Local Open Scope string_scope.

(** ** Lines *)
Lemma git_line cur b s : ~ occurs "010" b -> git_lines_aux cur (b ++ nl ++ s) = (cur ++ b ++ nl) :: git_lines_aux "" s.
Proof.
  revert cur. induction b as [|c b IH]; intros cur; rewrite ?occurs_cons; intros Hn; [reflexivity|].
  simpl append. cbn [git_lines_aux]. destruct (Ascii.eqb_spec c "010") as [->|]; [tauto|].
  rewrite IH by tauto. f_equal. rewrite string_app_assoc. reflexivity.
Qed.
Definition a_line (l : string) : Prop := exists b, l = b ++ nl /\ ~ occurs "010" b.
Lemma git_lines_lines ls : Forall a_line ls -> git_lines (sconcat ls) = ls.
Proof.
  unfold git_lines. induction 1 as [|x ls (b & -> & Hn) _ IH]; [reflexivity|].
  cbn [sconcat]. rewrite string_app_assoc, git_line by auto. simpl append at 1. rewrite IH. reflexivity.
Qed.
Lemma git_lines_concat cur s : sconcat (git_lines_aux cur s) = cur ++ s.
Proof.
  revert cur. induction s as [|c s IH]; intros cur; cbn [git_lines_aux].
  - destruct (String.eqb_spec cur "") as [->|_]; [reflexivity|]. cbn. reflexivity.
  - destruct (Ascii.eqb_spec c "010") as [->|_].
    + cbn [sconcat]. rewrite IH, string_app_assoc. reflexivity.
    + rewrite IH, string_app_assoc. reflexivity.
Qed.
Lemma git_lines_inj a b : git_lines a = git_lines b -> a = b.
Proof. intros H. pose proof (git_lines_concat "" a) as A. pose proof (git_lines_concat "" b) as B. unfold git_lines in H. rewrite H, B in A. now cbn in A. Qed.
Lemma git_lines_occurs c cur s l : In l (git_lines_aux cur s) -> occurs c l -> occurs c cur \/ occurs c s.
Proof.
  revert cur. induction s as [|x s IH]; intros cur; cbn [git_lines_aux].
  - destruct (String.eqb cur ""); [intros []|]. intros [<-|[]]. auto.
  - destruct (Ascii.eqb_spec x "010") as [->|_].
    + intros [<-|H] O.
      * rewrite occurs_app in O. destruct O as [O|O]; [auto|]. right. rewrite occurs_cons. unfold nl in O. rewrite occurs_cons in O. destruct O as [O|O]; [auto|destruct O].
      * destruct (IH _ H O) as [K|K]; [destruct K|]. right. rewrite occurs_cons. auto.
    + intros H O. destruct (IH _ H O) as [K|K].
      * rewrite occurs_app in K. destruct K as [K|K]; [auto|]. right. rewrite occurs_cons in K |- *. destruct K as [K|K]; [auto|destruct K].
      * right. rewrite occurs_cons. auto.
Qed.
Lemma a_line_ends l : a_line l -> ends_line l = true.
Proof.
  intros (b & -> & _). induction b as [|c b IH]; [reflexivity|]. cbn [append ends_line]. destruct (b ++ nl) eqn:E; [destruct b; discriminate|]. exact IH.
Qed.

(** ** Alignments *)
Definition dels (s : list edit) : list string := List.concat (map (fun e => match e with Del l => [l] | _ => [] end) s).
Definition adds (s : list edit) : list string := List.concat (map (fun e => match e with Add l => [l] | _ => [] end) s).
Definition keeps (s : list edit) : list string := List.concat (map (fun e => match e with Keep l => [l] | _ => [] end) s).
Lemma align_turns s : turns (old_side s) (dels s) (adds s) (new_side s).
Proof.
  exists (keeps s). induction s as [|[l|l|l] s [H1 H2]]; cbn; (split; [try constructor; auto|try constructor; auto]).
Qed.
Lemma cat_app {A B} (f : A -> list B) a b : List.concat (map f (a ++ b)%list) = (List.concat (map f a) ++ List.concat (map f b))%list.
Proof. now rewrite map_app, concat_app. Qed.
Lemma kept_sides k : Forall kept_line k -> dels k = [] /\ adds k = [] /\ old_side k = new_side k.
Proof.
  induction 1 as [|[l|l|l] k K _ (A & B & C)]; try destruct K; [now repeat split|]. unfold dels, adds, old_side, new_side in *. cbn in *. rewrite C. auto.
Qed.
Lemma cut_facts s hs : cut s hs -> dels (List.concat hs) = dels s /\ adds (List.concat hs) = adds s /\ (forall e, In e (List.concat hs) -> In e s) /\ (hs = [] -> Forall kept_line s) /\ (hs <> [] -> List.concat hs <> [] /\ s <> []).
Proof.
  induction 1 as [s F|k h s hs F N _ (A & B & C & D & E)].
  - destruct (kept_sides s F) as (X & Y & _). cbn. rewrite X, Y. repeat split; auto. intros e [].
  - destruct (kept_sides k F) as (X & Y & _). cbn [List.concat]. unfold dels, adds in *. rewrite !cat_app, X, Y, A, B. split; [reflexivity|]. split; [reflexivity|]. split; [|split].
    + intros e He. apply in_app_iff in He. rewrite !in_app_iff. destruct He; auto.
    + discriminate.
    + intros _. assert (h <> []) by (intros ->; apply N; constructor). destruct h; [congruence|]. split; [discriminate|]. now destruct k.
Qed.
Lemma in_sides s e : In e s -> match e with Keep l => In l (old_side s) | Del l => In l (old_side s) | Add l => In l (new_side s) end.
Proof.
  intros H. unfold old_side, new_side. destruct e as [l|l|l]; apply in_concat; exists [l]; (split; [|now left]); apply in_map_iff; [exists (Keep l)|exists (Add l)|exists (Del l)]; auto.
Qed.

(** ** A patch *)
Lemma binary_text o : ~ occurs "000" (Diff.text o) -> binary o = false.
Proof.
  intros H. unfold binary. destruct (existsb _ _) eqn:E; [|reflexivity]. exfalso. apply existsb_exists in E. destruct E as (c & Hc & Ec). apply Ascii.eqb_eq in Ec. subst c. apply H. unfold occurs. rewrite <- (firstn_skipn (80 * 100)). apply in_app_iff. auto.
Qed.
(** The lines shown, of hunks whose lines all end. *)
Definition tail_line (e : edit) : string := match e with Keep l | Add l | Del l => l end.
Lemma plines_ended hs : Forall (fun e => ends_line (tail_line e) = true) hs ->
  map l_content (filter (fun l => negb (in_new l)) (List.concat (map plines hs))) = dels hs /\
  map l_content (filter (fun l => (in_new l && negb (in_old l))%bool) (List.concat (map plines hs))) = adds hs.
Proof.
  induction 1 as [|[l|l|l] hs E _ [IH1 IH2]]; [split; reflexivity| | |]; cbn [tail_line] in E; cbn [map List.concat plines]; rewrite E; cbn; rewrite ?IH1, ?IH2; split; reflexivity.
Qed.
Lemma rev_head {A} (l : list A) : l <> [] -> exists x r, rev l = x :: r /\ In x l.
Proof. intros H. destruct (rev l) as [|x r] eqn:E; [apply (f_equal (@rev A)) in E; rewrite rev_involutive in E; now destruct l|]. exists x, r. split; [reflexivity|]. apply in_rev. rewrite E. now left. Qed.
Lemma plines_content e x : In x (plines e) -> l_content x = tail_line e \/ ends_line (tail_line e) = false /\ l_content x = no_newline.
Proof. destruct e as [l|l|l]; cbn [plines tail_line]; (intros [<-|H]; [now left|]); destruct (ends_line l); [destruct H| |destruct H| |destruct H|]; destruct H as [<-|[]]; auto. Qed.
Lemma plines_some e : exists x r, plines e = x :: r.
Proof. destruct e; cbn; eauto. Qed.
Lemma plines_nil hs : List.concat (map plines hs) = [] -> hs = [].
Proof. destruct hs as [|e hs]; [reflexivity|]. cbn. destruct (plines_some e) as (x & r & ->). discriminate. Qed.

(** ** Splitting *)
Lemma split_none cur s : ~ occurs """" s -> split_quote cur s = [cur ++ s].
Proof.
  revert cur. induction s as [|c s IH]; intros cur; [now rewrite string_app_nil|]. rewrite occurs_cons. intros H. cbn [split_quote]. destruct (Ascii.eqb_spec c """") as [->|_]; [tauto|]. rewrite IH by tauto. rewrite string_app_assoc. reflexivity.
Qed.
Lemma split_first cur s r : ~ occurs """" s -> exists q, split_quote cur (s ++ String """" r) = (cur ++ s) :: q.
Proof.
  revert cur. induction s as [|c s IH]; intros cur H; [rewrite string_app_nil; cbn; eauto|]. rewrite occurs_cons in H. cbn [append split_quote]. destruct (Ascii.eqb_spec c """") as [->|_]; [tauto|]. destruct (IH (cur ++ String c "")) as [q ->]; [tauto|]. rewrite string_app_assoc. eauto.
Qed.
Lemma split_second i r : ~ occurs """" i -> nth_error (split_quote "" (String """" (i ++ String """" r))) 1 = Some i.
Proof. intros H. cbn [split_quote]. rewrite Ascii.eqb_refl. cbn [nth_error]. destruct (split_first "" i r H) as [q ->]. reflexivity. Qed.

(** ** The trees *)
Lemma dedup_str_aux seen l x : In x (dedup_aux String.eqb seen l) <-> In x l /\ ~ In x seen.
Proof.
  revert seen. induction l as [|y l IH]; intros seen; cbn [dedup_aux]; [cbn; tauto|]. destruct (memb String.eqb y seen) eqn:E.
  - rewrite IH. unfold memb in E. apply existsb_exists in E. destruct E as (z & Hz & Ez). apply String.eqb_eq in Ez. subst z. cbn. split; [tauto|]. intros [[->|H] K]; [contradiction|auto].
  - cbn. rewrite IH. cbn. assert (N : ~ In y seen). { intros H. unfold memb in E. rewrite <- not_true_iff_false in E. apply E. apply existsb_exists. exists y. split; [exact H|apply String.eqb_refl]. }
    split; [intros [->|[H K]]; [auto|tauto]|]. intros [[->|H] K]; [now left|]. destruct (string_dec y x) as [->|Hx]; [now left|right; tauto].
Qed.
Lemma dedup_str l x : In x (dedup String.eqb l) <-> In x l.
Proof. unfold dedup. rewrite dedup_str_aux. cbn. tauto. Qed.
Lemma dedup_str_nodup l : NoDup (dedup String.eqb l).
Proof.
  unfold dedup. generalize (@nil string). induction l as [|y l IH]; intros seen; cbn [dedup_aux]; [constructor|]. destruct (memb String.eqb y seen); [apply IH|]. constructor; [|apply IH]. rewrite dedup_str_aux. cbn. tauto.
Qed.
Lemma fs_get_in fs p c : fs_get fs p = Some c -> In p (map fst fs).
Proof.
  unfold fs_get. destruct (find (fun f => String.eqb p (fst f)) fs) as [f|] eqn:E; [|discriminate]. intros _. apply find_some in E. destruct E as [H E]. apply String.eqb_eq in E. subst p. now apply in_map.
Qed.
Lemma opt_eqb_eq a b : opt_eqb a b = true <-> a = b.
Proof. destruct a, b; cbn; rewrite ?String.eqb_eq; split; congruence. Qed.

Section Diff.
  Variable hunks_of : option string -> option string -> list (list edit).
  Variable order : list string -> list string.
  Hypothesis HO : forall o n, hunks_between o n (hunks_of o n).
  Hypothesis OO : forall l, Permutation (order l) l.
  Notation entry := (patch_entry hunks_of).

  Lemma changed_in a b p : In p (changed_paths order a b) <-> fs_get a p <> fs_get b p.
  Proof.
    unfold changed_paths. split.
    - intros H. apply (Permutation_in _ (OO _)) in H. apply filter_In in H. destruct H as [_ H]. intros E. apply opt_eqb_eq in E. rewrite E in H. discriminate.
    - intros H. apply (Permutation_in _ (Permutation_sym (OO _))). apply filter_In. split.
      + apply dedup_str. apply in_app_iff. destruct (fs_get a p) eqn:E; [left; eauto using fs_get_in|]. destruct (fs_get b p) eqn:E'; [right; eauto using fs_get_in|congruence].
      + destruct (opt_eqb _ _) eqn:E; [|reflexivity]. apply opt_eqb_eq in E. contradiction.
  Qed.
  Lemma changed_nodup a b : NoDup (changed_paths order a b).
  Proof. unfold changed_paths. eapply Permutation_NoDup; [apply Permutation_sym, OO|]. apply NoDup_filter, dedup_str_nodup. Qed.

  (** Of two texts without zeros there is an entry exactly when they differ. *)
  Lemma entry_none o n : binary o = false -> binary n = false -> Diff.text o = Diff.text n -> o <> n -> entry o n = Ok None.
  Proof.
    intros Bo Bn E N. unfold patch_entry. rewrite Bo, Bn. cbn [orb]. destruct (HO o n) as (s & Ho & Hn & C).
    assert (T : Diff.text o = "" /\ Diff.text n = "") by (destruct o, n; cbn in *; subst; auto; congruence). destruct T as [T1 T2]. rewrite T1 in Ho. rewrite T2 in Hn.
    assert (s = []) by (destruct s as [|[l|l|l] s]; [reflexivity|discriminate|discriminate|discriminate]). subst s.
    destruct (cut_facts _ _ C) as (_ & _ & _ & _ & F). assert (hunks_of o n = []) as -> by (destruct (hunks_of o n) eqn:Eh; [reflexivity|]; destruct F as [_ F]; congruence). reflexivity.
  Qed.
  Lemma entry_lines o n : binary o = false -> binary n = false -> Diff.text o <> Diff.text n ->
    exists hs l r, hs = List.concat (hunks_of o n) /\ rev (List.concat (map plines hs)) = l :: r /\
      (exists e, In e hs /\ In l (plines e)) /\
      forall e, In e hs -> In (tail_line e) (git_lines (Diff.text o)) \/ In (tail_line e) (git_lines (Diff.text n)).
  Proof.
    intros Bo Bn D. destruct (HO o n) as (s & Ho & Hn & C). destruct (cut_facts _ _ C) as (_ & _ & I & K & F).
    assert (Nh : hunks_of o n <> []). { intros E. apply D. destruct (kept_sides s (K E)) as (_ & _ & X). apply git_lines_inj. now rewrite <- Ho, <- Hn. }
    destruct (F Nh) as [Nc _]. exists (List.concat (hunks_of o n)). destruct (rev_head (List.concat (map plines (List.concat (hunks_of o n))))) as (l & r & E & Hl); [intros X; now apply plines_nil in X|].
    exists l, r. split; [reflexivity|]. split; [exact E|]. split.
    - apply in_concat in Hl. destruct Hl as (ls & Hls & Hl). apply in_map_iff in Hls. destruct Hls as (e & <- & He). eauto.
    - intros e He. apply I in He. rewrite <- Ho, <- Hn. apply in_sides in He. destruct e; cbn [tail_line]; auto.
  Qed.
  Lemma entry_some o n r : binary o = false -> binary n = false -> Diff.text o <> Diff.text n -> entry o n = Ok r -> exists e, r = Some e.
  Proof.
    intros Bo Bn D. destruct (entry_lines o n Bo Bn D) as (hs & l & t & Eh & Er & _). unfold patch_entry. rewrite Bo, Bn. cbn [orb]. rewrite <- Eh, Er. destruct (nth_error _ 1); [|discriminate]. intros [= <-]. eauto.
  Qed.
  Lemma entry_flags o n e : entry o n = Ok (Some e) -> (e_new e = true <-> o = None) /\ (e_removed e = true <-> n = None).
  Proof. unfold patch_entry. destruct (rev _); [discriminate|]. destruct (nth_error _ 1); [|discriminate]. intros [= <-]. cbn. destruct o, n; split; split; congruence. Qed.
  Lemma entry_turns o n e old new : binary o = false -> binary n = false -> entry o n = Ok (Some e) ->
    Diff.text o = sconcat old -> Diff.text n = sconcat new -> Forall a_line old -> Forall a_line new -> turns old (e_deleted e) (e_added e) new.
  Proof.
    intros Bo Bn E Eo En Fo Fn. destruct (HO o n) as (s & Ho & Hn & C). destruct (cut_facts _ _ C) as (A & B & I & _). rewrite Eo, git_lines_lines in Ho by auto. rewrite En, git_lines_lines in Hn by auto. subst old new.
    revert E. unfold patch_entry. rewrite Bo, Bn. cbn [orb]. destruct (rev _); [discriminate|]. destruct (nth_error _ 1); [|discriminate]. intros [= <-]. cbn [e_deleted e_added].
    destruct (plines_ended (List.concat (hunks_of o n))) as [-> ->].
    - apply Forall_forall. intros x Hx. apply I, in_sides in Hx. rewrite Forall_forall in Fo, Fn. apply a_line_ends. destruct x; cbn [tail_line]; auto.
    - rewrite A, B. apply align_turns.
  Qed.
  (** Without a quote in either version, there is nothing to name. *)
  Lemma entry_unquoted o n : binary o = false -> binary n = false -> Diff.text o <> Diff.text n ->
    ~ occurs """" (Diff.text o) -> ~ occurs """" (Diff.text n) -> entry o n = Err IndexError.
  Proof.
    intros Bo Bn D Qo Qn. destruct (entry_lines o n Bo Bn D) as (hs & l & t & Eh & Er & (e & He & Hl) & I). unfold patch_entry. rewrite Bo, Bn. cbn [orb]. rewrite <- Eh, Er.
    rewrite split_none; [reflexivity|]. destruct (plines_content e l Hl) as [->|[_ ->]].
    - intros O. destruct (I e He) as [X|X]; destruct (git_lines_occurs _ _ _ _ X O) as [Y|Y]; auto; destruct Y.
    - unfold occurs, no_newline. cbn. intuition discriminate.
  Qed.
  (** If every line starts with a quoted text, always the same, that is the one reported. *)
  Lemma entry_named o n old new i : ~ occurs """" i -> binary o = false -> binary n = false -> Diff.text o <> Diff.text n ->
    Diff.text o = sconcat old -> Diff.text n = sconcat new -> Forall a_line old -> Forall a_line new ->
    Forall (fun l => exists q, l = String """" (i ++ String """" q)) old -> Forall (fun l => exists q, l = String """" (i ++ String """" q)) new ->
    exists e, entry o n = Ok (Some e) /\ e_ieml e = i.
  Proof.
    intros Pi Bo Bn D Eo En Fo Fn Qo Qn. destruct (entry_lines o n Bo Bn D) as (hs & l & t & Eh & Er & (e & He & Hl) & I). unfold patch_entry. rewrite Bo, Bn. cbn [orb]. rewrite <- Eh, Er.
    rewrite Eo, En, !git_lines_lines in I by auto. rewrite Forall_forall in Fo, Fn, Qo, Qn.
    assert (X : nth_error (split_quote "" (l_content l)) 1 = Some i).
    { destruct (plines_content e l Hl) as [->|[X _]].
      - destruct (I e He) as [H|H]; [destruct (Qo _ H) as [q ->]|destruct (Qn _ H) as [q ->]]; now apply split_second.
      - rewrite a_line_ends in X; [discriminate|]. destruct (I e He); auto. }
    rewrite X. eexists. split; reflexivity.
  Qed.

  Lemma mapM_ok_iff {A B} (f : A -> res B) l r : mapM f l = Ok r -> Forall2 (fun x y => f x = Ok y) l r.
  Proof. revert r. induction l as [|x l IH]; intros r; cbn; [intros [= <-]; constructor|]. destruct (f x) eqn:E; [|discriminate]. cbn. destruct (mapM f l) eqn:E'; [|discriminate]. cbn. intros [= <-]. constructor; auto. Qed.
  Lemma diff_in a b d : diff_trees hunks_of order a b = Ok d ->
    NoDup (map fst d) /\ (forall p, fs_get a p <> fs_get b p -> exists e, entry (fs_get a p) (fs_get b p) = Ok e /\ match e with Some e => In (p, e) d | None => ~ In p (map fst d) end) /\
    (forall p e, In (p, e) d -> fs_get a p <> fs_get b p /\ entry (fs_get a p) (fs_get b p) = Ok (Some e)).
  Proof.
    unfold diff_trees. destruct (mapM _ _) as [l|] eqn:E; [|discriminate]. cbn [bind]. intros [= <-]. apply mapM_ok_iff in E. pose proof (changed_nodup a b) as ND.
    assert (S : forall p, In p (changed_paths order a b) <-> fs_get a p <> fs_get b p) by apply changed_in.
    assert (T : forall p, fs_get a p <> fs_get b p -> In p (changed_paths order a b)) by (intros; now apply S).
    assert (S' : forall p, In p (changed_paths order a b) -> fs_get a p <> fs_get b p) by (intros; now apply S). clear S.
    enough (G : NoDup (map fst (List.concat l)) /\ (forall p, In p (map fst (List.concat l)) -> In p (changed_paths order a b)) /\
      (forall p, In p (changed_paths order a b) -> exists e, entry (fs_get a p) (fs_get b p) = Ok e /\ match e with Some e => In (p, e) (List.concat l) | None => ~ In p (map fst (List.concat l)) end) /\
      (forall p e, In (p, e) (List.concat l) -> entry (fs_get a p) (fs_get b p) = Ok (Some e))).
    { destruct G as (G1 & G2 & G3 & G4). split; [exact G1|]. split; [auto|]. intros p e H. split; [apply S', G2; apply in_map_iff; exists (p, e); auto|auto]. }
    clear T S'. revert ND E. generalize (changed_paths order a b). intros ps ND E. revert ND. induction E as [|p y ps l Hp E IH]; intros ND; [cbn; repeat split; [constructor|tauto|tauto|tauto]|].
    apply NoDup_cons_iff in ND. destruct ND as [Np ND]. destruct (IH ND) as (G1 & G2 & G3 & G4). destruct (entry (fs_get a p) (fs_get b p)) as [e|] eqn:Ee; [|discriminate]. cbn [bind] in Hp. injection Hp as <-. destruct e as [e|]; cbn [List.concat app map fst].
    - split; [constructor; [intros H; apply Np, G2, H|exact G1]|]. split; [intros q [->|H]; [now left|right; auto]|]. split.
      + intros q [->|H]; [exists (Some e); split; [exact Ee|now left]|]. destruct (G3 q H) as ([e'|] & E1 & E2); [exists (Some e')|exists None]; (split; [exact E1|]); cbn [In map fst]; [now right|]. intros [->|K]; contradiction.
      + intros q e' [[= <- <-]|H]; [exact Ee|auto].
    - split; [exact G1|]. split; [intros q H; right; auto|]. split; [|auto]. intros q [->|H]; [exists None; split; [exact Ee|intros H; apply Np, G2, H]|auto].
  Qed.
  Lemma diff_ok a b : (forall p, fs_get a p <> fs_get b p -> exists e, entry (fs_get a p) (fs_get b p) = Ok e) -> exists d, diff_trees hunks_of order a b = Ok d.
  Proof.
    intros H. unfold diff_trees. assert (K : forall p, In p (changed_paths order a b) -> exists e, entry (fs_get a p) (fs_get b p) = Ok e) by (intros p Hp; apply H; now apply changed_in). clear H.
    revert K. generalize (changed_paths order a b). intros ps K. enough (exists l, mapM (fun p => do e <- entry (fs_get a p) (fs_get b p); Ok match e with Some e => [(p, e)] | None => [] end) ps = Ok l) as [l ->] by (cbn; eauto).
    induction ps as [|p ps IH]; [cbn; eauto|]. destruct IH as [l IH]; [intros q Hq; apply K; now right|]. destruct (K p (or_introl eq_refl)) as [e Ee]. cbn [mapM]. rewrite Ee. cbn [bind]. cbn [mapM] in IH. rewrite IH. cbn [bind]. eauto.
  Qed.
  Lemma mapM_errs {A B} (f : A -> res B) l x : In x l -> (forall y e, f y = Err e -> e = IndexError) -> f x = Err IndexError -> mapM f l = Err IndexError.
  Proof.
    intros H F E. induction l as [|y l IH]; [destruct H|]. cbn. destruct (f y) as [z|e] eqn:Ey; [|cbn; f_equal; eauto]. cbn. destruct H as [->|H]; [congruence|]. rewrite (IH H). reflexivity.
  Qed.
  Lemma diff_errs a b p : fs_get a p <> fs_get b p -> entry (fs_get a p) (fs_get b p) = Err IndexError -> diff_trees hunks_of order a b = Err IndexError.
  Proof.
    intros H E. unfold diff_trees. rewrite (mapM_errs _ _ p); [reflexivity|now apply changed_in| |now rewrite E].
    intros q e. unfold patch_entry. destruct (rev _); [discriminate|]. destruct (nth_error _ 1); [discriminate|]. cbn. congruence.
  Qed.
End Diff.

(** ** Shuffles and maps *)
Lemma shuffle_map {A B} (f : A -> B) x y l : shuffle x y (map f l) -> exists x' y', x = map f x' /\ y = map f y' /\ shuffle x' y' l.
Proof.
  intros H. remember (map f l) as m eqn:E. revert l E. induction H as [|z a b m H IH|z a b m H IH]; intros l E.
  - destruct l; [|discriminate]. exists [], []. repeat split. constructor.
  - destruct l as [|w l]; [discriminate|]. cbn in E. injection E as -> ->. destruct (IH l eq_refl) as (x' & y' & -> & -> & S). exists (w :: x'), y'. repeat split. now constructor.
  - destruct l as [|w l]; [discriminate|]. cbn in E. injection E as -> ->. destruct (IH l eq_refl) as (x' & y' & -> & -> & S). exists x', (w :: y'). repeat split. now constructor.
Qed.
Lemma shuffle_in {A} (x y l : list A) z : shuffle x y l -> In z x \/ In z y -> In z l.
Proof. induction 1; cbn in *; intuition. Qed.
Lemma map_inj_in {A B} (f : A -> B) (P : A -> Prop) l l' : (forall x y, P x -> P y -> f x = f y -> x = y) -> Forall P l -> Forall P l' -> map f l = map f l' -> l = l'.
Proof.
  intros I F. revert l'. induction F as [|x l Hx _ IH]; intros [|y l'] F' E; try discriminate; [reflexivity|]. apply Forall_cons_iff in F'. destruct F' as [Hy F']. cbn in E. injection E as E1 E2. f_equal; auto.
Qed.
Lemma turns_map {A B} (f : A -> B) (P : A -> Prop) old new d a : (forall x y, P x -> P y -> f x = f y -> x = y) -> Forall P old -> Forall P new ->
  turns (map f old) d a (map f new) -> exists d' a', d = map f d' /\ a = map f a' /\ turns old d' a' new /\ Forall P d' /\ Forall P a'.
Proof.
  intros I Fo Fn (k & H1 & H2). apply shuffle_map in H1, H2. destruct H1 as (d' & k1 & -> & -> & S1), H2 as (a' & k2 & -> & E & S2). rewrite Forall_forall in Fo, Fn.
  assert (k1 = k2). { apply (map_inj_in f P); [exact I| | |exact E]; apply Forall_forall; intros x Hx; [apply Fo; eapply shuffle_in; eauto|apply Fn; eapply shuffle_in; eauto]. } subst k2.
  exists d', a'. repeat split; auto; [exists k1; auto| |]; apply Forall_forall; intros x Hx; [apply Fo; eapply shuffle_in; eauto|apply Fn; eapply shuffle_in; eauto].
Qed.

(** ** Lines of records *)
Lemma csv_dlines l : Forall (fun r : drecord => let '(_, l, d, _) := r in In l LANGUAGES /\ In d DESCRIPTORS_CLASS) l -> csv_rows (sconcat (map dline l)) = map fields l.
Proof. induction 1 as [|[[[i la] d] v] l [H1 H2] _ IH]; [reflexivity|]. cbn [map sconcat fields]. unfold dline at 1. rewrite csv_dline by auto using lang_word, desc_word. unfold csv_rows in *. now rewrite IH. Qed.
Lemma csv_slines l : Forall (fun r : srecord => let '(_, k, _) := r in In k STRUCTURE_KEYS) l -> csv_rows (sconcat (map sline l)) = map sfields l.
Proof. induction 1 as [|[[i k] v] l H _ IH]; [reflexivity|]. cbn [map sconcat sfields]. unfold sline at 1. rewrite csv_sline by auto using key_word. unfold csv_rows in *. now rewrite IH. Qed.
