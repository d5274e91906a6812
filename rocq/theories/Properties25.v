(** Properties of transactions which are killed (C79) or which run at the same time (C80). *)
From Coq Require Import List String Ascii Bool NArith Arith Lia.
From Verif Require Import Base Database Git GitProofs Schedule ScheduleSpec ScheduleProofs.
Import ListNotations.
Local Open Scope string_scope.

(** * C79: a killed transaction is undone or done *)
(** Opening the folder again after a kill, at any moment, gives a folder with nothing to commit, in
    which nothing of the transaction is left or all of it is the last commit. *)
Theorem C79_killed_is_undone_or_done : forall r ws r', sound r -> tidy_folder r -> killed r ws r' ->
  tidy_folder (open_folder r') /\
  (undone r (open_folder r') \/ done r (fold_left (fun w f => f w) ws (work r)) (open_folder r')).
Proof. exact recovery. Qed.
Print Assumptions C79_killed_is_undone_or_done.

(** Until then no transaction starts, unless the folder is in one of these two states already. *)
Theorem C79_leftovers_are_noticed : forall r ws r', sound r -> tidy_folder r -> killed r ws r' ->
  undone r r' \/ done r (fold_left (fun w f => f w) ws (work r)) r' \/
  forall body a, transaction r' body a = (Err ValueError, r').
Proof.
  intros r ws r' S T K. destruct (status r') as [|x st] eqn:E.
  - destruct (unnoticed r ws r' S T K (proj1 (tidy_status r') E)); auto.
  - right. right. intros body a. unfold transaction. rewrite E. reflexivity.
Qed.
Print Assumptions C79_leftovers_are_noticed.

(** The transaction that was not killed is [transaction] of C45. *)
Theorem C79_not_killed : forall r f, status r = [] ->
  transaction r (fun w => (Ok tt, f w)) NoAccident = exit_return (with_work r (f (work r))) (head r).
Proof.
  intros r f H. unfold transaction, exit_return, exit_ok. rewrite H. fold (with_work r (f (work r))).
  destruct (status (with_work r (f (work r)))) eqn:E; [reflexivity|].
  change (head (with_work r (f (work r)))) with (head r). rewrite Nat.eqb_refl. unfold staged_index. rewrite E. reflexivity.
Qed.
Print Assumptions C79_not_killed.

Definition a_folder : repo :=
  let t := [("morpheme/a.desc", "x"); ("morpheme/b.desc", "y")] in
  {| commits := [{| c_tree := []; c_parents := [] |}; {| c_tree := t; c_parents := [0] |}]; head := 1; index := t; work := t |}.
Definition two_changes : list (fsys -> fsys) :=
  [fun w => fs_set w "morpheme/a.desc" "xx"; fun w => fs_set w "word/c.desc" "new"].
Lemma a_folder_sound : sound a_folder /\ tidy_folder a_folder.
Proof.
  split; [split; [simpl; lia|]|apply tidy_status; reflexivity].
  intros [|[|[|]]] c p; simpl; intros [= <-]; simpl; [intros []|intros [<-|[]]; lia].
Qed.
(** Killed in the middle of the second change, and between the index and the HEAD. *)
Example C79_case :
  (exists r', killed a_folder two_changes r' /\ fs_get (work r') "word/c.desc" = Some "n" /\
     map (fs_get (work (open_folder r'))) ["morpheme/a.desc"; "word/c.desc"] = [Some "x"; None]) /\
  (exists r', killed a_folder two_changes r' /\ fs_get (index r') "word/c.desc" = Some "new" /\ head r' = 1 /\
     map (fs_get (work (open_folder r'))) ["morpheme/a.desc"; "word/c.desc"] = [Some "x"; None]) /\
  (exists r', killed a_folder two_changes r' /\ head r' = 2 /\
     map (fs_get (work (open_folder r'))) ["morpheme/a.desc"; "word/c.desc"] = [Some "xx"; Some "new"]).
Proof.
  split; [|split].
  - eexists. split; [apply (Killed_writing _ _ 1 "word/c.desc" "n"); simpl; lia|]. vm_compute. auto.
  - eexists. split; [eapply Killed_staged; reflexivity|]. vm_compute. auto.
  - eexists. split; [eapply Killed_committed; reflexivity|]. vm_compute. auto.
Qed.

(** * C80: several users *)
(** In every schedule, with kills, commits are only added, each new one on top of what was HEAD, with
    the visible files of the folder, by the user who is told so; HEAD is always a commit. *)
Theorem C80_history_only_grows : forall w es, inside_sound w ->
  sound (folder (happens w es)) /\ exists cs, commits (folder (happens w es)) = (commits (folder w) ++ cs)%list.
Proof. intros w es H. destruct (happens_history es w H) as [[H1 _] H2]. auto. Qed.
Print Assumptions C80_history_only_grows.

Theorem C80_new_commits : forall w e, inside_sound w ->
  commits (folder (fst (happen w e))) = commits (folder w) \/
  exists i t, e = Return i /\ snd (happen w e) = Some (Ok tt) /\
     commits (folder (fst (happen w e))) =
       (commits (folder w) ++ [{| c_tree := t; c_parents := [head (folder w)] |}])%list /\
     head (folder (fst (happen w e))) = List.length (commits (folder w)) /\
     same_files t (work (folder w)) /\ same_files (work (folder (fst (happen w e)))) (work (folder w)).
Proof.
  intros w e H. destruct (happen_history w e H) as [_ [E|(i & t & E1 & E2 & _ & E3)]]; [auto|].
  right. exists i, t. auto.
Qed.
Print Assumptions C80_new_commits.

(** Nobody enters while the visible changes of somebody else are not committed. *)
Theorem C80_no_entry_over_changes : forall w i, places w i = Outside -> ~ tidy_folder (folder w) ->
  happen w (Enter i) = (w, Some (Err ValueError)).
Proof.
  intros w i H N. cbn [happen]. rewrite H. destruct (status (folder w)) eqn:E; [|reflexivity].
  exfalso. apply N. apply tidy_status. exact E.
Qed.
Print Assumptions C80_no_entry_over_changes.

(** Who raises is told so, and the folder is that of the commit at which the transaction was entered. *)
Theorem C80_a_raise_goes_back : forall w i c e, places w i = Inside c ->
  let w' := fst (happen w (Raise i e)) in
  snd (happen w (Raise i e)) = Some (Err e) /\ places w' i = Outside /\ (forall j, j <> i -> places w' j = places w j) /\
  tidy_folder (folder w') /\ head (folder w') = c /\ same_files (work (folder w')) (tree_of (folder w) c).
Proof.
  intros w i c e H w'. unfold w'. clear w'. cbn [happen]. rewrite H. cbn [fst snd folder places].
  destruct (reset_spec (folder w) c) as (C & Hh & I & W). unfold put. split; [reflexivity|]. split; [now rewrite Nat.eqb_refl|].
  split; [intros j Hj; apply Nat.eqb_neq in Hj; now rewrite Hj|]. split; [|split; [exact Hh|exact W]]. split.
  - intros p Hp. rewrite W, I by exact Hp. reflexivity.
  - intros p Hp. rewrite I, Hh. unfold tree_of. rewrite C. reflexivity.
Qed.
Print Assumptions C80_a_raise_goes_back.

(** If nobody else is inside a transaction when one commits, every transaction which returns is
    committed and no commit ever leaves the history of HEAD, whoever raises or is killed. *)
Theorem C80_nothing_is_lost_when_alone : forall w es, nobody_late w -> all_commits_alone w es ->
  forall c, in_history (folder w) c (head (folder w)) ->
    in_history (folder (happens w es)) c (head (folder (happens w es))).
Proof. intros w es N A. apply (happens_alone es w N A). Qed.
Print Assumptions C80_nothing_is_lost_when_alone.

Theorem C80_returned_is_committed_when_alone : forall w es i, nobody_late w -> all_commits_alone w (es ++ [Return i]) ->
  places (happens w es) i <> Outside ->
  let w1 := happens w es in
  snd (happen w1 (Return i)) = Some (Ok tt) /\ tidy_folder (folder (fst (happen w1 (Return i)))) /\
  same_files (work (folder (fst (happen w1 (Return i))))) (work (folder w1)).
Proof.
  intros w es i N A P w1. assert (nobody_late w1 /\ commits_alone w1 (Return i)) as [N1 A1].
  { clear P. subst w1. revert w N A. induction es as [|e es IH]; intros w N A; cbn [happens app all_commits_alone] in *.
    - split; [exact N|apply A].
    - destruct A as [A1 A2]. apply IH; [apply (happen_alone w e N A1)|exact A2]. }
  destruct (happen_alone w1 (Return i) N1 A1) as (_ & _ & H). apply (H i eq_refl P).
Qed.
Print Assumptions C80_returned_is_committed_when_alone.

(** * C81: one transaction is not undone by another *)
(** What holds of it: under the guard above. *)
Theorem C81_stays_committed_partial : forall w es, nobody_late w -> all_commits_alone w es ->
  forall c, in_history (folder w) c (head (folder w)) ->
    in_history (folder (happens w es)) c (head (folder (happens w es))).
Proof. exact C80_nothing_is_lost_when_alone. Qed.
Print Assumptions C81_stays_committed_partial.

(** Two users in turn, the second one killed, a third one after it. *)
Definition nobody (r : repo) : world := {| folder := r; places := fun _ => Outside |}.
Definition add_file (p c : string) (w : fsys) : fsys := fs_set w p c.
Definition in_turn : list event :=
  [Enter 0; Change 0 (add_file "a" "1"); Return 0; Enter 1; Enter 2; Change 1 (add_file "b" "2"); Kill 1 [] []; Raise 2 KeyError; Open;
   Enter 2; Change 2 (add_file "c" "3"); Return 2].
Example C80_case : nobody_late (nobody a_folder) /\ inside_sound (nobody a_folder) /\ all_commits_alone (nobody a_folder) in_turn /\
  head (folder (happens (nobody a_folder) in_turn)) = 3 /\
  map (fs_get (work (folder (happens (nobody a_folder) in_turn)))) ["a"; "b"; "c"] = [Some "1"; None; Some "3"].
Proof.
  split; [intros i c; discriminate|]. split; [split; [apply a_folder_sound|intros i c; discriminate]|]. split; [|vm_compute; auto].
  unfold in_turn. cbn [all_commits_alone commits_alone]. split; [exact I|]. split; [exact I|]. split.
  - right. intros [|j] H; [congruence|]. reflexivity.
  - do 8 (split; [exact I|]). split; [|exact I]. right. intros [|[|[|j]]] H; try reflexivity. congruence.
Qed.

(** Refuted: a commit stays in the history. The second user entered before the first one committed
    and raises: HEAD goes back, and the commit and the files of the first user are gone. *)
Theorem C81_a_failure_drops_the_commit_of_another_refuted : exists es c,
  let w := happens (nobody a_folder) es in
  snd (happen w (Return 0)) = Some (Ok tt) /\
  let w1 := fst (happen w (Return 0)) in
  head (folder w1) = c /\ fs_get (work (folder w1)) "a" = Some "1" /\
  let w2 := fst (happen w1 (Raise 1 KeyError)) in
  ~ in_history (folder w2) c (head (folder w2)) /\ fs_get (work (folder w2)) "a" = None.
Proof.
  exists [Enter 0; Enter 1; Change 0 (add_file "a" "1")], 2. split; [reflexivity|]. split; [reflexivity|]. split; [reflexivity|].
  split; [|reflexivity]. set (w2 := fst _).
  assert (H : head (folder w2) = 1) by reflexivity. rewrite H.
  assert (D : forall d, in_history (folder w2) 2 d -> 2 <= d).
  { induction 1 as [|d k p Hd Hp _ IH]; [lia|]. destruct d as [|[|d]]; [| |lia].
    - vm_compute in Hd. injection Hd as <-. destruct Hp.
    - vm_compute in Hd. injection Hd as <-. destruct Hp as [<-|[]]. lia. }
  intros C. specialize (D _ C). lia.
Qed.
Print Assumptions C81_a_failure_drops_the_commit_of_another_refuted.

(** Refuted: two transactions which both return are both committed. The second one gets an exception
    and takes the commit of the first one away. *)
Theorem C81_two_returns_refuted : exists es,
  let w := happens (nobody a_folder) es in
  snd (happen w (Return 0)) = Some (Ok tt) /\
  let w1 := happens (fst (happen w (Return 0))) [Change 1 (add_file "b" "2")] in
  snd (happen w1 (Return 1)) = Some (Err ValueError) /\
  let w2 := fst (happen w1 (Return 1)) in
  head (folder w2) = head a_folder /\ map (fs_get (work (folder w2))) ["a"; "b"] = [None; None].
Proof.
  exists [Enter 0; Enter 1; Change 0 (add_file "a" "1")]. vm_compute. auto.
Qed.
Print Assumptions C81_two_returns_refuted.

(** Refuted: a commit only has the changes of its own transaction. *)
Theorem C81_isolation_refuted : exists es,
  let w := happens (nobody a_folder) es in
  snd (happen w (Return 0)) = Some (Ok tt) /\
  let w1 := fst (happen w (Return 0)) in
  fs_get (tree_of (folder w1) (head (folder w1))) "half made" = Some "by user 1".
Proof.
  exists [Enter 0; Enter 1; Change 1 (add_file "half made" "by user 1"); Change 0 (add_file "a" "1")]. vm_compute. auto.
Qed.
Print Assumptions C81_isolation_refuted.
