(** Transactions which are killed, and transactions at the same time. *)
From Coq Require Import List String Ascii Bool NArith Arith Lia.
From Verif Require Import Base Database DatabaseProofs DatabaseRefine Git GitProofs Schedule ScheduleSpec.
Import ListNotations.
Local Open Scope string_scope.

Lemma tidy_status r : status r = [] <-> tidy_folder r.
Proof.
  rewrite status_clean. unfold clean, tidy_folder, same_files. split.
  - intros H. split; intros p Hp; apply (H p Hp).
  - intros [H1 H2] p Hp. auto.
Qed.

Lemma tree_of_app cs h ix w d : h < List.length cs ->
  tree_of {| commits := (cs ++ d)%list; head := h; index := ix; work := w |} h =
  match nth_error cs h with Some c => c_tree c | None => [] end.
Proof. intros H. unfold tree_of. cbn [commits]. rewrite nth_error_app1 by exact H. reflexivity. Qed.

(** Whatever files and index are left, opening the folder gives the HEAD. *)
Lemma open_head r : tidy_folder (open_folder r) /\ head (open_folder r) = head r /\
  commits (open_folder r) = commits r /\ same_files (work (open_folder r)) (tree_of r (head r)).
Proof.
  unfold open_folder. destruct (reset_spec r (head r)) as (C & H & I & W).
  split; [|split; [exact H|split; [exact C|exact W]]]. split.
  - intros p Hp. rewrite W, I by exact Hp. reflexivity.
  - intros p Hp. rewrite I, H. unfold tree_of. rewrite C. reflexivity.
Qed.

Lemma staged_files r : same_files (staged_index r) (work r).
Proof. destruct (commit_spec r _ eq_refl) as [W _]. exact W. Qed.

Lemma recovery r ws r' : sound r -> tidy_folder r -> killed r ws r' ->
  tidy_folder (open_folder r') /\
  (undone r (open_folder r') \/ done r (fold_left (fun w f => f w) ws (work r)) (open_folder r')).
Proof.
  intros [Hs _] [T1 T2] K. destruct (open_head r') as (O1 & O2 & O3 & O4). split; [exact O1|].
  assert (U : head r' = head r -> (exists cs, commits r' = (commits r ++ cs)%list) -> undone r (open_folder r')).
  { intros Hh [cs Hc]. split; [congruence|]. split; [|exists cs; congruence].
    intros p Hp. rewrite O4 by exact Hp. rewrite Hh. unfold tree_of at 1. rewrite Hc, nth_error_app1 by exact Hs.
    change (fs_get (tree_of r (head r)) p = fs_get (work r) p). rewrite T1, T2 by exact Hp. reflexivity. }
  destruct K as [n Hn|n p c Hn|r1 E1|r1 E1|r1 E1|ix w].
  - left. apply U; [reflexivity|]. exists []. rewrite app_nil_r. reflexivity.
  - left. apply U; [reflexivity|]. exists []. rewrite app_nil_r. reflexivity.
  - left. subst r1. apply U; [reflexivity|]. exists []. rewrite app_nil_r. reflexivity.
  - left. subst r1. apply U; [reflexivity|]. eexists. reflexivity.
  - right. exists (staged_index r1). rewrite O3, O2. subst r1. cbn [commits with_work with_index with_commit move_head head].
    split; [reflexivity|]. split; [reflexivity|]. set (r1 := with_work r _) in *.
    split; [exact (staged_files r1)|].
    intros p Hp. rewrite O4 by exact Hp. unfold tree_of. cbn [commits with_work with_index with_commit move_head head].
    change (commits r1) with (commits r). rewrite nth_error_app2, Nat.sub_diag by lia. cbn [nth_error c_tree].
    rewrite (staged_files r1 p Hp). reflexivity.
  - left. apply U; [reflexivity|]. exists []. rewrite app_nil_r. reflexivity.
Qed.

(** A folder that was left without anything to commit is in one of the two states. *)
Lemma unnoticed r ws r' : sound r -> tidy_folder r -> killed r ws r' -> tidy_folder r' ->
  undone r r' \/ done r (fold_left (fun w f => f w) ws (work r)) r'.
Proof.
  intros [Hs _] [T1 T2] K [N1 N2].
  assert (U : head r' = head r -> (exists cs, commits r' = (commits r ++ cs)%list) -> undone r r').
  { intros Hh [cs Hc]. split; [exact Hh|]. split; [|exists cs; exact Hc].
    intros p Hp. rewrite N1, N2 by exact Hp. rewrite Hh. unfold tree_of at 1. rewrite Hc, nth_error_app1 by exact Hs.
    change (fs_get (tree_of r (head r)) p = fs_get (work r) p). rewrite T1, T2 by exact Hp. reflexivity. }
  destruct K as [n Hn|n p c Hn|r1 E1|r1 E1|r1 E1|ix w].
  - left. apply U; [reflexivity|]. exists []. rewrite app_nil_r. reflexivity.
  - left. apply U; [reflexivity|]. exists []. rewrite app_nil_r. reflexivity.
  - left. subst r1. apply U; [reflexivity|]. exists []. rewrite app_nil_r. reflexivity.
  - left. subst r1. apply U; [reflexivity|]. eexists. reflexivity.
  - right. exists (staged_index r1). subst r1. split; [reflexivity|]. split; [reflexivity|].
    set (r1 := with_work r _) in *. split; [exact (staged_files r1)|]. intros p Hp. reflexivity.
  - left. apply U; [reflexivity|]. exists []. rewrite app_nil_r. reflexivity.
Qed.

(** * Several users *)
Lemma reset_commits r c : commits (reset r c) = commits r.
Proof. apply reset_spec. Qed.
Lemma reset_head r c : head (reset r c) = c.
Proof. apply reset_spec. Qed.

Lemma in_history_app r r' cs c d : commits r' = (commits r ++ cs)%list -> in_history r c d -> in_history r' c d.
Proof.
  intros E. induction 1 as [|d k p Hd Hp _ IH]; [constructor|].
  econstructor; [|exact Hp|exact IH]. rewrite E, nth_error_app1; [exact Hd|]. apply nth_error_Some. congruence.
Qed.

Lemma sound_app r cs h t p : sound r -> p < List.length (commits r) -> h = List.length (commits r) ->
  cs = (commits r ++ [{| c_tree := t; c_parents := [p] |}])%list ->
  forall ix w, sound {| commits := cs; head := h; index := ix; work := w |}.
Proof.
  intros [S1 S2] Hp -> -> ix w. split; cbn [head commits]; [rewrite app_length; simpl; lia|].
  intros n c q Hn Hq. destruct (Nat.lt_ge_cases n (List.length (commits r))) as [L|L].
  - rewrite nth_error_app1 in Hn by exact L. eauto.
  - rewrite nth_error_app2 in Hn by exact L. destruct (n - List.length (commits r)) as [|m] eqn:E; [|destruct m; discriminate].
    injection Hn as <-. cbn [c_parents] in Hq. destruct Hq as [<-|[]]. lia.
Qed.

(** The new commits of one event: none, or one on top of the HEAD. *)
Lemma happen_history w e : inside_sound w ->
  inside_sound (fst (happen w e)) /\
  (commits (folder (fst (happen w e))) = commits (folder w) \/
   exists i t, e = Return i /\ snd (happen w e) = Some (Ok tt) /\ places w i = Inside (head (folder w)) /\
     commits (folder (fst (happen w e))) =
       (commits (folder w) ++ [{| c_tree := t; c_parents := [head (folder w)] |}])%list /\
     head (folder (fst (happen w e))) = List.length (commits (folder w)) /\
     same_files t (work (folder w)) /\ same_files (work (folder (fst (happen w e)))) (work (folder w))).
Proof.
  intros [[S1 S2] P].
  assert (PP : forall (cs : list commit) i p, (forall c, p = Inside c -> c < List.length cs) -> List.length (commits (folder w)) <= List.length cs ->
            forall j c, put (places w) i p j = Inside c -> c < List.length cs).
  { intros cs i p Hp L j c. unfold put. destruct (Nat.eqb j i); intros H; [auto|]. specialize (P j c H). lia. }
  destruct e as [i|i f|i|i e|i ix wk|]; cbn [happen].
  - destruct (places w i) eqn:E; [|split; [split; [split; assumption|assumption]|left; reflexivity]].
    destruct (status (folder w)) eqn:Es; (split; [|left; reflexivity]); cbn [fst folder].
    + split; [split; assumption|]. cbn [places]. apply PP; [|apply Nat.le_refl]. intros c [= <-]. exact S1.
    + split; [split; assumption|assumption].
  - destruct (places w i); (split; [|left; reflexivity]); (split; [split; assumption|assumption]).
  - destruct (places w i) as [|c] eqn:E; [split; [split; [split; assumption|assumption]|left; reflexivity]|].
    unfold exit_return. destruct (status (folder w)) as [|x st] eqn:Es.
    + cbn [fst folder]. split; [|left; reflexivity]. split; [split; assumption|]. cbn [places]. apply PP; [|apply Nat.le_refl]. discriminate.
    + destruct (Nat.eqb_spec (head (folder w)) c) as [Eh|Nh]; cbn [fst folder snd].
      * subst c. split.
        -- split; [|cbn [places folder]; apply PP; [discriminate|]].
           ++ unfold move_head, with_commit, with_index; cbn [commits index work].
              eapply sound_app; [split; eassumption|exact S1|reflexivity|reflexivity].
           ++ cbn [commits move_head with_commit with_index]. rewrite app_length. lia.
        -- right. exists i, (staged_index (folder w)). repeat split; try reflexivity; try assumption.
           apply staged_files.
      * split; [|left; rewrite reset_commits; reflexivity]. split.
        -- cbn [folder]. split; [rewrite reset_head, reset_commits; eauto|]. rewrite reset_commits. exact S2.
        -- cbn [places folder]. rewrite reset_commits. apply PP; [discriminate|apply Nat.le_refl].
  - destruct (places w i) as [|c] eqn:E; (split; [|left; cbn [fst folder]; rewrite ?reset_commits; reflexivity]); cbn [fst].
    + split; [split; assumption|assumption].
    + split; cbn [folder places].
      * split; [rewrite reset_head, reset_commits; eauto|]. rewrite reset_commits. exact S2.
      * rewrite reset_commits. apply PP; [discriminate|apply Nat.le_refl].
  - destruct (places w i) as [|c] eqn:E; (split; [|left; reflexivity]); cbn [fst].
    + split; [split; assumption|assumption].
    + split; cbn [folder places]; [split; assumption|]. apply PP; [discriminate|apply Nat.le_refl].
  - split; [|left; cbn [fst folder]; unfold open_folder; rewrite reset_commits; reflexivity]. cbn [fst]. split; cbn [folder places].
    + unfold open_folder. split; [rewrite reset_head, reset_commits; exact S1|]. rewrite reset_commits. exact S2.
    + unfold open_folder. rewrite reset_commits. exact P.
Qed.

Lemma happens_history es : forall w, inside_sound w ->
  inside_sound (happens w es) /\ exists cs, commits (folder (happens w es)) = (commits (folder w) ++ cs)%list.
Proof.
  induction es as [|e es IH]; intros w H; cbn [happens].
  - split; [exact H|]. exists []. rewrite app_nil_r. reflexivity.
  - destruct (happen_history w e H) as [H1 H2]. destruct (IH _ H1) as [H3 [cs Hc]]. split; [exact H3|].
    rewrite Hc. destruct H2 as [->|(i & t & _ & _ & _ & -> & _)]; [eauto|]. rewrite <- app_assoc. eauto.
Qed.

(** If nobody else is inside when one commits, nobody is ever late and nothing is lost. *)
Lemma happen_alone w e : nobody_late w -> commits_alone w e ->
  nobody_late (fst (happen w e)) /\
  (head (folder (fst (happen w e))) = head (folder w) /\ commits (folder (fst (happen w e))) = commits (folder w) \/
   exists t, commits (folder (fst (happen w e))) =
       (commits (folder w) ++ [{| c_tree := t; c_parents := [head (folder w)] |}])%list /\
     head (folder (fst (happen w e))) = List.length (commits (folder w))) /\
  (forall i, e = Return i -> places w i <> Outside -> snd (happen w e) = Some (Ok tt) /\
     tidy_folder (folder (fst (happen w e))) /\ same_files (work (folder (fst (happen w e)))) (work (folder w))).
Proof.
  intros N A.
  assert (PP : forall i p h, h = head (folder w) -> (forall c, p = Inside c -> c = h) ->
               forall j c, put (places w) i p j = Inside c -> c = h).
  { intros i p h -> Hp j c. unfold put. destruct (Nat.eqb j i); intros H; [auto|]. apply (N j c H). }
  destruct e as [i|i f|i|i e|i ix wk|]; cbn [happen].
  - destruct (places w i) eqn:E; [|repeat split; auto; discriminate].
    destruct (status (folder w)) eqn:Es; cbn [fst snd folder]; (split; [|split; [auto|discriminate]]); [|exact N].
    intros j c. cbn [places folder]. apply PP; [reflexivity|]. congruence.
  - destruct (places w i); cbn [fst snd folder]; (split; [|split; [auto|discriminate]]); exact N.
  - destruct (places w i) as [|c] eqn:E.
    { cbn [fst snd]. split; [exact N|]. split; [auto|]. intros j [= <-] H. congruence. }
    pose proof (N i c E) as Hc. unfold exit_return. destruct (status (folder w)) as [|x st] eqn:Es.
    + cbn [fst snd folder]. split; [intros j d; cbn [places folder]; apply PP; [reflexivity|discriminate]|].
      split; [auto|]. intros j [= <-] _. split; [reflexivity|]. split; [apply tidy_status; exact Es|intros p Hp; reflexivity].
    + subst c. rewrite Nat.eqb_refl. cbn [fst snd folder]. destruct A as [A|A]; [apply tidy_status in A; congruence|].
      split; [|split].
      * intros j d. cbn [places folder]. unfold put. destruct (Nat.eqb_spec j i) as [->|Nj]; [discriminate|].
        rewrite (A j Nj). discriminate.
      * right. exists (staged_index (folder w)). split; reflexivity.
      * intros j [= <-] _. split; [reflexivity|]. split; [|intros p Hp; reflexivity]. split.
        -- intros p Hp. cbn [work index move_head with_commit with_index]. symmetry. apply staged_files. exact Hp.
        -- intros p Hp. unfold tree_of. cbn [commits index head move_head with_commit with_index].
           rewrite nth_error_app2, Nat.sub_diag by lia. reflexivity.
  - destruct (places w i) as [|c] eqn:E; cbn [fst snd]; (split; [|split; [|discriminate]]); [exact N|auto| |].
    + intros j d. cbn [places folder]. rewrite reset_head, (N i c E). apply PP; [reflexivity|discriminate].
    + left. cbn [folder]. rewrite reset_head, reset_commits. split; [apply (N i c E)|reflexivity].
  - destruct (places w i) as [|c] eqn:E; cbn [fst snd]; (split; [|split; [auto|discriminate]]); [exact N|].
    intros j d. cbn [places folder]. apply PP; [reflexivity|discriminate].
  - cbn [fst snd folder]. unfold open_folder. rewrite reset_head, reset_commits. split; [|split; [auto|discriminate]].
    intros j d H. cbn [folder]. rewrite reset_head. apply (N j d H).
Qed.

Lemma happens_alone es : forall w, nobody_late w -> all_commits_alone w es ->
  nobody_late (happens w es) /\
  forall c, in_history (folder w) c (head (folder w)) ->
    in_history (folder (happens w es)) c (head (folder (happens w es))).
Proof.
  induction es as [|e es IH]; intros w N A; cbn [happens]; [auto|]. cbn [all_commits_alone] in A. destruct A as [A1 A2].
  destruct (happen_alone w e N A1) as (N1 & H1 & _). destruct (IH _ N1 A2) as [N2 H2]. split; [exact N2|].
  intros c Hc. apply H2. destruct H1 as [[Hh Hk]|(t & Hk & Hh)].
  - rewrite Hh. eapply (in_history_app _ _ []); [rewrite app_nil_r; exact Hk|exact Hc].
  - rewrite Hh. eapply before; [rewrite Hk, nth_error_app2, Nat.sub_diag by lia; reflexivity|left; reflexivity|].
    eapply in_history_app; [exact Hk|exact Hc].
Qed.
