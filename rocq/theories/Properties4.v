(** Properties of transactions, pulls, caches and updates of descriptors: C45-C48. *)
From Coq Require Import List String Ascii Bool NArith Arith Lia Permutation.
From Verif Require Import Base Database Git GitProofs.
Import ListNotations.
Local Open Scope string_scope.

(** * C45 *)
(** The files of a working directory that are not hidden, as a finite map. *)
Definition same_visible (a b : fsys) : Prop := forall p, dotted p = false -> fs_get a p = fs_get b p.
(** Nothing to commit: the visible files, the index and HEAD agree. *)
Definition nothing_to_commit (r : repo) : Prop :=
  same_visible (work r) (index r) /\ same_visible (index r) (tree_of r (head r)).

Lemma clean_nothing r : clean r <-> nothing_to_commit r.
Proof.
  unfold clean, nothing_to_commit, same_visible. split.
  - intros H. split; intros p Hp; apply (H p Hp).
  - intros [H1 H2] p Hp. split; auto.
Qed.
Lemma status_nothing r : status r = [] <-> nothing_to_commit r.
Proof. rewrite status_clean. apply clean_nothing. Qed.

(** A transaction on a dirty working directory is refused and changes nothing. *)
Theorem C45_dirty_is_refused : forall r body a, ~ nothing_to_commit r ->
  transaction r body a = (Err ValueError, r).
Proof.
  intros r body a H. unfold transaction. destruct (status r) eqn:E; [|reflexivity].
  exfalso. apply H. apply status_nothing. exact E.
Qed.
Print Assumptions C45_dirty_is_refused.

(** The state after a failure: same history, same visible files, nothing to commit. *)
Definition rolled_back (r r' : repo) : Prop :=
  commits r' = commits r /\ head r' = head r /\ same_visible (work r') (work r) /\ nothing_to_commit r'.

Lemma reset_rolled_back r ix w : nothing_to_commit r ->
  rolled_back r (reset {| commits := commits r; head := head r; index := ix; work := w |} (head r)).
Proof.
  intros [H1 H2]. set (r1 := {| commits := _ |}).
  destruct (reset_spec r1 (head r)) as (C & Hh & Ix & W).
  assert (Et : tree_of r1 (head r) = tree_of r (head r)) by reflexivity. rewrite Et in *.
  split; [exact C|]. split; [exact Hh|]. split.
  - intros p Hp. rewrite W by exact Hp. rewrite H1, H2 by exact Hp. reflexivity.
  - split.
    + intros p Hp. rewrite W, Ix by exact Hp. reflexivity.
    + intros p Hp. rewrite Ix, Hh. unfold tree_of. rewrite C. reflexivity.
Qed.

(** If the body raises, wherever it had got, everything is as before. *)
Theorem C45_failure_is_rolled_back : forall r body a e w, nothing_to_commit r -> body (work r) = (Err e, w) ->
  fst (transaction r body a) = Err e /\ rolled_back r (snd (transaction r body a)).
Proof.
  intros r body a e w H Hb. unfold transaction. pose proof H as H'. apply status_nothing in H'. rewrite H', Hb.
  split; [reflexivity|]. apply reset_rolled_back. exact H.
Qed.
Print Assumptions C45_failure_is_rolled_back.

(** So it is if committing fails after any number of files were staged. *)
Theorem C45_failed_commit_is_rolled_back : forall r body n w, nothing_to_commit r -> body (work r) = (Ok tt, w) ->
  ~ same_visible w (work r) ->
  fst (transaction r body (FailsAfter n)) = Err ValueError /\ rolled_back r (snd (transaction r body (FailsAfter n))).
Proof.
  intros r body n w H Hb Hw. unfold transaction. pose proof H as H'. apply status_nothing in H'. rewrite H', Hb.
  unfold exit_ok. set (r1 := {| commits := commits r; head := head r; index := index r; work := w |}).
  destruct (status r1) as [|f st] eqn:E.
  - exfalso. apply Hw. apply status_nothing in E. destruct E as [E _], H as [H _]. intros p Hp. specialize (E p Hp). specialize (H p Hp). simpl in E. congruence.
  - split; [reflexivity|]. exact (reset_rolled_back r _ _ H).
Qed.
Print Assumptions C45_failed_commit_is_rolled_back.

(** If the body leaves the visible files as they were, no commit is made. *)
Theorem C45_no_change_no_commit : forall r body a w, nothing_to_commit r -> body (work r) = (Ok tt, w) ->
  same_visible w (work r) ->
  transaction r body a = (Ok tt, {| commits := commits r; head := head r; index := index r; work := w |}).
Proof.
  intros r body a w H Hb Hw. unfold transaction. pose proof H as H'. apply status_nothing in H'. rewrite H', Hb.
  unfold exit_ok. set (r1 := {| commits := _ |}). assert (status r1 = []) as ->; [|reflexivity].
  apply status_nothing. destruct H as [H1 H2]. split; [|exact H2]. intros p Hp. simpl. rewrite Hw, H1 by exact Hp. reflexivity.
Qed.
Print Assumptions C45_no_change_no_commit.

(** Otherwise HEAD is one new commit on top of the old HEAD. Its visible files are those
    of the working directory, its hidden ones those of the index; older commits stay. *)
Theorem C45_commit : forall r body w, nothing_to_commit r -> body (work r) = (Ok tt, w) -> ~ same_visible w (work r) ->
  exists t r', transaction r body NoAccident = (Ok tt, r') /\
    commits r' = (commits r ++ [{| c_tree := t; c_parents := [head r] |}])%list /\
    head r' = List.length (commits r) /\ work r' = w /\
    same_visible t w /\ (forall p, dotted p = true -> fs_get t p = fs_get (index r) p) /\
    nothing_to_commit r'.
Proof.
  intros r body w H Hb Hw. unfold transaction. pose proof H as H'. apply status_nothing in H'. rewrite H', Hb.
  unfold exit_ok. set (r1 := {| commits := _ |}). destruct (status r1) as [|f st] eqn:E.
  { exfalso. apply Hw. apply status_nothing in E. destruct E as [E _], H as [H _]. intros p Hp. specialize (E p Hp). specialize (H p Hp). simpl in E. congruence. }
  rewrite <- E. set (ix := fold_left _ _ _). destruct (commit_spec r1 ix eq_refl) as [W D].
  exists ix. eexists. split; [reflexivity|]. cbn [commits head work index]. split; [reflexivity|]. split; [reflexivity|].
  split; [reflexivity|]. split; [exact W|]. split; [exact D|]. split.
  - intros p Hp. cbn [work index]. symmetry. apply (W p Hp).
  - intros p Hp. cbn [index head]. unfold tree_of. cbn [commits]. rewrite nth_error_app2, Nat.sub_diag by (simpl; lia).
    reflexivity.
Qed.
Print Assumptions C45_commit.

(** Any number of transactions, failing or not, one after the other: the working directory
    stays clean, and the new commits extend the history, each on top of the HEAD it found. *)
Fixpoint transactions (r : repo) (l : list ((fsys -> res unit * fsys) * accident)) : repo :=
  match l with [] => r | (b, a) :: l => transactions (snd (transaction r b a)) l end.
(** [chain h n cs]: commits numbered from [n] on, the first one on top of [h]. *)
Fixpoint chain (h n : nat) (cs : list commit) : Prop :=
  match cs with [] => True | c :: cs => c_parents c = [h] /\ chain n (S n) cs end.
Theorem C45_history : forall l r, nothing_to_commit r ->
  let r' := transactions r l in
  nothing_to_commit r' /\
  exists cs, commits r' = (commits r ++ cs)%list /\ chain (head r) (List.length (commits r)) cs /\
    head r' = match cs with [] => head r | _ => List.length (commits r) + List.length cs - 1 end.
Proof.
  induction l as [|[b a] l IH]; intros r H; cbn [transactions].
  - split; [exact H|]. exists []. rewrite app_nil_r. simpl. auto.
  - assert (K : forall r1, snd (transaction r b a) = r1 -> commits r1 = commits r /\ head r1 = head r /\ nothing_to_commit r1 \/
              exists t, commits r1 = (commits r ++ [{| c_tree := t; c_parents := [head r] |}])%list /\
                        head r1 = List.length (commits r) /\ nothing_to_commit r1).
    { intros r1 E1. destruct (b (work r)) as [out w] eqn:Eb. destruct out as [[]|e].
      - assert (D : same_visible w (work r) \/ ~ same_visible w (work r)).
        { destruct (status {| commits := commits r; head := head r; index := index r; work := w |}) as [|[p f] st] eqn:E.
          - left. apply status_nothing in E. destruct E as [E _], H as [H _]. intros p Hp. specialize (E p Hp). specialize (H p Hp). simpl in E. congruence.
          - right. intros C. assert (status {| commits := commits r; head := head r; index := index r; work := w |} = []) as N.
            { apply status_nothing. destruct H as [H1 H2]. split; [|exact H2]. intros q Hq. simpl. rewrite C, H1 by exact Hq. reflexivity. }
            rewrite N in E. discriminate. }
        destruct D as [D|D].
        + left. rewrite (C45_no_change_no_commit r b a w H Eb D) in E1. simpl in E1. subst r1. simpl. split; [reflexivity|].
          split; [reflexivity|]. destruct H as [H1 H2]. split; [|exact H2]. intros q Hq. simpl. rewrite D, H1 by exact Hq. reflexivity.
        + destruct a as [|n].
          * right. destruct (C45_commit r b w H Eb D) as (t & r2 & Er & C & Hh & _ & _ & _ & N). rewrite Er in E1. simpl in E1. subst r2.
            exists t. auto.
          * left. destruct (C45_failed_commit_is_rolled_back r b n w H Eb D) as (_ & C & Hh & _ & N). rewrite E1 in *. auto.
      - left. destruct (C45_failure_is_rolled_back r b a e w H Eb) as (_ & C & Hh & _ & N). rewrite E1 in *. auto. }
    destruct (K _ eq_refl) as [(C & Hh & N)|(t & C & Hh & N)]; clear K; destruct (IH _ N) as (N' & cs & C' & Ch & Hd);
      (split; [exact N'|]).
    + exists cs. rewrite C' , C. split; [reflexivity|]. rewrite C, Hh in Ch. split; [exact Ch|]. rewrite Hd, C, Hh. reflexivity.
    + eexists (_ :: cs). rewrite C', C, <- app_assoc. split; [reflexivity|]. rewrite C, Hh, app_length in Ch. cbn [List.length] in Ch.
      replace (List.length (commits r) + 1) with (S (List.length (commits r))) in Ch by lia. split; [split; [reflexivity|exact Ch]|].
      rewrite Hd, C, Hh, app_length. destruct cs; simpl; lia.
Qed.
Print Assumptions C45_history.

(** A repository with a hidden file, and a body that edits, adds and removes files. *)
Definition some_repo : repo :=
  let t := [("morpheme/a.desc", "x"); ("morpheme/b.desc", "y"); (".git-note", "n")] in
  {| commits := [{| c_tree := []; c_parents := [] |}; {| c_tree := t; c_parents := [0] |}]; head := 1; index := t;
     work := (t ++ [(".cache", "z")])%list |}.
Definition some_body (ok : bool) (w : fsys) : res unit * fsys :=
  (if ok then Ok tt else Err KeyError,
   fs_set (fs_set (fs_del w "morpheme/b.desc") "morpheme/a.desc" "xx") "word/c.desc" "new").
Lemma some_repo_clean : nothing_to_commit some_repo.
Proof. apply status_nothing. reflexivity. Qed.
Example C45_case : ~ same_visible (snd (some_body true (work some_repo))) (work some_repo) /\
  (let r' := snd (transaction some_repo (some_body true) NoAccident) in
   fst (transaction some_repo (some_body true) NoAccident) = Ok tt /\ head r' = 2 /\
   map (fs_get (tree_of r' 2)) ["morpheme/a.desc"; "morpheme/b.desc"; "word/c.desc"; ".cache"; ".git-note"]
   = [Some "xx"; None; Some "new"; None; Some "n"]) /\
  (let r' := snd (transaction some_repo (some_body false) NoAccident) in
   head r' = 1 /\ map (fs_get (work r')) ["morpheme/a.desc"; "morpheme/b.desc"; "word/c.desc"; ".cache"]
   = [Some "x"; Some "y"; None; Some "z"]) /\
  (let r' := snd (transaction some_repo (some_body true) (FailsAfter 2)) in
   head r' = 1 /\ map (fs_get (work r')) ["morpheme/a.desc"; "morpheme/b.desc"; "word/c.desc"; ".cache"]
   = [Some "x"; Some "y"; None; Some "z"]) /\
  head (transactions some_repo [(some_body true, NoAccident); (some_body false, NoAccident);
                                (fun w => (Ok tt, fs_set w "q" "r"), NoAccident)]) = 3.
Proof.
  split; [intros C; specialize (C "word/c.desc" eq_refl); discriminate|].
  vm_compute. repeat split.
Qed.
