(** Transactions are atomic. *)
From Coq Require Import List String Ascii Bool NArith Arith Lia.
From Verif Require Import Base Database DatabaseProofs DatabaseRefine Git SortProofs.
Import ListNotations.
Local Open Scope string_scope.

Lemma in_dedup_aux x l seen : In x (dedup_aux String.eqb seen l) <-> In x l /\ ~ In x seen.
Proof.
  revert seen. induction l as [|y l IH]; intros seen; simpl; [tauto|].
  destruct (memb String.eqb y seen) eqn:E.
  - rewrite IH. unfold memb in E. apply existsb_exists in E. destruct E as (z & Hz & E). apply String.eqb_eq in E. subst z.
    split; [tauto|]. intros [[->|H] Hn]; tauto.
  - simpl. rewrite IH. simpl.
    assert (~ In y seen).
    { intros H. assert (memb String.eqb y seen = true); [|congruence]. apply existsb_exists. exists y.
      split; [auto|apply String.eqb_refl]. }
    destruct (string_dec y x) as [->|]; tauto.
Qed.
Lemma in_dedup x l : In x (dedup String.eqb l) <-> In x l.
Proof. unfold dedup. rewrite in_dedup_aux. simpl. tauto. Qed.
Lemma nodup_dedup_aux l seen : NoDup (dedup_aux String.eqb seen l).
Proof.
  revert seen. induction l as [|y l IH]; intros seen; simpl; [constructor|].
  destruct (memb String.eqb y seen); [auto|]. constructor; [|auto].
  rewrite in_dedup_aux. simpl. tauto.
Qed.
Lemma nodup_dedup l : NoDup (dedup String.eqb l).
Proof. apply nodup_dedup_aux. Qed.

Lemma opt_eqb_eq a b : opt_eqb a b = true <-> a = b.
Proof.
  destruct a as [a|], b as [b|]; simpl; try (split; congruence).
  rewrite String.eqb_eq. split; congruence.
Qed.

Lemma wt_flag_none r p : wt_flag r p = None <-> fs_get (work r) p = fs_get (index r) p.
Proof.
  unfold wt_flag. destruct (fs_get (work r) p) as [a|], (fs_get (index r) p) as [b|]; try (split; congruence).
  destruct (String.eqb_spec a b); split; congruence.
Qed.

Lemma staged_false r p : staged r p = false <-> fs_get (index r) p = fs_get (tree_of r (head r)) p.
Proof. unfold staged. rewrite negb_false_iff. apply opt_eqb_eq. Qed.

Definition pathsof (st : list (string * option flag)) : list string := map fst st.

Lemma fs_get_some_in fs p c : fs_get fs p = Some c -> In p (map fst fs).
Proof.
  intros H. destruct (in_dec string_dec p (map fst fs)) as [Hi|Hn]; [auto|]. apply fs_get_none in Hn. congruence.
Qed.

Lemma in_status r p f : In (p, f) (status r) <->
  dotted p = false /\ f = wt_flag r p /\ (wt_flag r p <> None \/ staged r p = true).
Proof.
  unfold status. rewrite in_map_iff. split.
  - intros (q & [= -> <-] & H). apply filter_In in H. destruct H as [_ H]. apply andb_true_iff in H.
    destruct H as [H1 H2]. apply negb_true_iff in H1. split; [auto|]. split; [auto|].
    apply orb_true_iff in H2. destruct H2 as [H2|H2]; [left|auto]. destruct (wt_flag r p); congruence.
  - intros (H1 & -> & H2). exists p. split; [reflexivity|]. apply filter_In. split.
    + unfold all_paths. apply in_dedup. rewrite !in_app_iff. destruct H2 as [H2|H2].
      * unfold wt_flag in H2. destruct (fs_get (work r) p) eqn:E; [left; eapply fs_get_some_in; eauto|].
        destruct (fs_get (index r) p) eqn:E'; [right; left; eapply fs_get_some_in; eauto|congruence].
      * unfold staged in H2. destruct (fs_get (index r) p) eqn:E; [right; left; eapply fs_get_some_in; eauto|].
        destruct (fs_get (tree_of r (head r)) p) eqn:E'; [right; right; eapply fs_get_some_in; eauto|discriminate].
    + rewrite H1. simpl. destruct H2 as [H2|H2].
      * destruct (wt_flag r p); [reflexivity|congruence].
      * rewrite H2. apply orb_true_r.
Qed.

Lemma status_nodup r : NoDup (pathsof (status r)).
Proof.
  unfold pathsof, status. rewrite map_map. simpl. rewrite map_id. apply NoDup_filter. apply nodup_dedup.
Qed.

(** For the paths that do not start with a dot, working directory, index and HEAD agree. *)
Definition clean (r : repo) : Prop := forall p, dotted p = false ->
  fs_get (work r) p = fs_get (index r) p /\ fs_get (index r) p = fs_get (tree_of r (head r)) p.

Lemma status_clean r : status r = [] <-> clean r.
Proof.
  split.
  - intros H p Hp. split.
    + apply wt_flag_none. destruct (wt_flag r p) as [f|] eqn:E; [|reflexivity].
      assert (In (p, wt_flag r p) (status r)) as C; [|rewrite H in C; destruct C].
      apply in_status. rewrite E. split; [auto|]. split; [auto|]. left. discriminate.
    + apply staged_false. destruct (staged r p) eqn:E; [|reflexivity].
      assert (In (p, wt_flag r p) (status r)) as C; [|rewrite H in C; destruct C].
      apply in_status. auto.
  - intros H. destruct (status r) as [|[p f] st] eqn:E; [reflexivity|].
    assert (In (p, f) (status r)) as C by (rewrite E; left; reflexivity).
    apply in_status in C. destruct C as (Hp & _ & C). destruct (H p Hp) as [H1 H2].
    apply wt_flag_none in H1. apply staged_false in H2. destruct C; congruence.
Qed.

Lemma fs_get_app a b p : fs_get (a ++ b)%list p = match fs_get a p with Some c => Some c | None => fs_get b p end.
Proof.
  unfold fs_get. induction a as [|[x c] a IH]; [reflexivity|]. simpl. destruct (String.eqb p x); [reflexivity|exact IH].
Qed.

Lemma fs_get_filter (P : string -> bool) fs p :
  fs_get (filter (fun f => P (fst f)) fs) p = if P p then fs_get fs p else None.
Proof.
  unfold fs_get. induction fs as [|[x c] fs IH]; [destruct (P p); reflexivity|]. simpl.
  destruct (P x) eqn:E; simpl.
  - destruct (String.eqb_spec p x) as [->|]; [rewrite E; reflexivity|exact IH].
  - destruct (String.eqb_spec p x) as [->|]; [rewrite IH, E; reflexivity|exact IH].
Qed.

Lemma hard_reset_work r c p : fs_get (work (hard_reset r c)) p =
  match fs_get (tree_of r c) p with
  | Some x => Some x
  | None => match fs_get (index r) p with Some _ => None | None => fs_get (work r) p end
  end.
Proof.
  unfold hard_reset. cbn [work]. rewrite fs_get_app.
  rewrite (fs_get_filter (fun q => match fs_get (tree_of r c) q, fs_get (index r) q with None, None => true | _, _ => false end)).
  destruct (fs_get (tree_of r c) p); [reflexivity|]. destruct (fs_get (index r) p); reflexivity.
Qed.

(** A reset leaves commits alone, moves HEAD, and makes everything clean. *)
Lemma reset_spec r c : 
  commits (reset r c) = commits r /\ head (reset r c) = c /\ index (reset r c) = tree_of r c /\
  forall p, dotted p = false -> fs_get (work (reset r c)) p = fs_get (tree_of r c) p.
Proof.
  unfold reset. set (r1 := hard_reset r c).
  assert (Hgen : forall st r', 
    let r2 := fold_left (fun r' f => match snd f with
                         | Some WtNew => {| commits := commits r'; head := head r'; index := index r';
                                            work := fs_del (work r') (fst f) |}
                         | _ => r'
                         end) st r' in
    commits r2 = commits r' /\ head r2 = head r' /\ index r2 = index r' /\
    (forall p, (In (p, Some WtNew) st -> fs_get (work r2) p = None) /\
               (~ In (p, Some WtNew) st -> fs_get (work r2) p = fs_get (work r') p))).
  { clear. induction st as [|[q f] st IH]; intros r'; cbn [fold_left].
    - split; [reflexivity|]. split; [reflexivity|]. split; [reflexivity|]. intros p. split; [intros []|reflexivity].
    - cbn [snd fst].
      set (r3 := match f with Some WtNew => _ | _ => r' end).
      destruct (IH r3) as (H1 & H2 & H3 & H4). cbv zeta.
      assert (commits r3 = commits r' /\ head r3 = head r' /\ index r3 = index r') as (E1 & E2 & E3)
        by (subst r3; destruct f as [[]|]; auto).
      rewrite H1, H2, H3, E1, E2, E3. split; [reflexivity|]. split; [reflexivity|]. split; [reflexivity|].
      intros p. destruct (H4 p) as [Ha Hb].
      assert (Hdec : In (p, Some WtNew) st \/ ~ In (p, Some WtNew) st).
      { destruct (in_dec (fun a b : string * option flag => ltac:(repeat decide equality)) (p, Some WtNew) st); auto. }
      assert (Hw : fs_get (work r3) p = fs_get (work r') p \/ f = Some WtNew /\ fs_get (work r3) p = if String.eqb q p then None else fs_get (work r') p).
      { subst r3. destruct f as [[]|]; auto. right. split; [reflexivity|]. cbn [work]. apply fs_get_del. }
      split.
      + intros [[= -> ->]|Hin]; [|auto]. destruct Hdec as [Hin|Hn]; [auto|]. rewrite (Hb Hn).
        subst r3. cbn [work]. rewrite fs_get_del, String.eqb_refl. reflexivity.
      + intros Hn. assert (~ In (p, Some WtNew) st) as Hn' by (intros C; apply Hn; right; exact C).
        rewrite (Hb Hn'). destruct Hw as [Hw|[-> Hw]]; [exact Hw|]. rewrite Hw.
        destruct (String.eqb_spec q p) as [->|]; [|reflexivity]. exfalso. apply Hn. left. reflexivity. }
  destruct (Hgen (status r1) r1) as (H1 & H2 & H3 & H4).
  split; [exact H1|]. split; [exact H2|]. split; [exact H3|].
  intros p Hp. destruct (H4 p) as [Ha Hb].
  assert (Ht : tree_of r1 c = tree_of r c) by reflexivity.
  assert (Hi : index r1 = tree_of r c) by reflexivity.
  destruct (fs_get (work r1) p) as [x|] eqn:Ew.
  - destruct (fs_get (tree_of r c) p) as [y|] eqn:Et.
    + assert (fs_get (work r1) p = Some y) as E by (unfold r1; rewrite hard_reset_work, Et; reflexivity).
      rewrite Hb; [congruence|]. intros C. apply in_status in C. destruct C as (_ & C & _).
      unfold wt_flag in C. rewrite E, Hi, Et, String.eqb_refl in C. discriminate.
    + apply Ha. apply in_status. split; [auto|].
      assert (wt_flag r1 p = Some WtNew) as E by (unfold wt_flag; rewrite Ew, Hi, Et; reflexivity).
      rewrite E. split; [reflexivity|]. left. discriminate.
  - rewrite Hb.
    + unfold r1 in Ew. rewrite hard_reset_work in Ew. destruct (fs_get (tree_of r c) p); [discriminate|reflexivity].
    + intros C. apply in_status in C. destruct C as (_ & C & _). unfold wt_flag in C. rewrite Ew in C.
      destruct (fs_get (index r1) p); discriminate.
Qed.

Lemma stage_get r ix p f q : fs_get (stage r ix (q, f)) p =
  if String.eqb q p then
    match f with
    | Some WtNew | Some WtModified => match fs_get (work r) p with Some c => Some c | None => fs_get ix p end
    | Some WtDeleted => None
    | _ => fs_get ix p
    end
  else fs_get ix p.
Proof.
  unfold stage. cbn [fst snd]. destruct (String.eqb_spec q p) as [->|Hne].
  - destruct f as [[]|]; try reflexivity.
    + destruct (fs_get (work r) p) eqn:E; [rewrite fs_get_set, String.eqb_refl; reflexivity|reflexivity].
    + rewrite fs_get_del, String.eqb_refl. reflexivity.
    + destruct (fs_get (work r) p) eqn:E; [rewrite fs_get_set, String.eqb_refl; reflexivity|reflexivity].
  - apply String.eqb_neq in Hne. destruct f as [[]|]; try reflexivity.
    + destruct (fs_get (work r) q); [rewrite fs_get_set, Hne|]; reflexivity.
    + rewrite fs_get_del, Hne. reflexivity.
    + destruct (fs_get (work r) q); [rewrite fs_get_set, Hne|]; reflexivity.
Qed.

Lemma stage_all r st ix p : NoDup (pathsof st) -> (forall q f, In (q, f) st -> f = wt_flag r q) ->
  fs_get (fold_left (stage r) st ix) p =
  if existsb (String.eqb p) (pathsof st) then
    match wt_flag r p with None => fs_get ix p | _ => fs_get (work r) p end
  else fs_get ix p.
Proof.
  revert ix. induction st as [|[q f] st IH]; intros ix Hnd Hf; [reflexivity|].
  cbn [pathsof map fst] in Hnd. inversion_clear Hnd. cbn [fold_left pathsof map existsb fst].
  rewrite IH; auto; [|intros; apply Hf; right; auto]. rewrite stage_get, (String.eqb_sym p q).
  destruct (String.eqb_spec q p) as [->|Hne]; cbn [orb].
  - destruct (existsb (String.eqb p) (pathsof st)) eqn:E.
    { exfalso. apply H. apply existsb_exists in E. destruct E as (z & Hz & E). apply String.eqb_eq in E. subst z. exact Hz. }
    rewrite (Hf p f) by (left; reflexivity). unfold wt_flag.
    destruct (fs_get (work r) p) as [a|]; destruct (fs_get (index r) p) as [b|]; try reflexivity.
    destruct (String.eqb a b); reflexivity.
  - reflexivity.
Qed.

Lemma tree_of_last cs c r : tree_of {| commits := (cs ++ [c])%list; head := List.length cs; index := index r; work := work r |} (List.length cs) = c_tree c.
Proof. unfold tree_of. cbn [commits]. rewrite nth_error_app2, Nat.sub_diag; [reflexivity|lia]. Qed.

(** The commit of a dirty working directory. *)
Lemma commit_spec r ix : ix = fold_left (stage r) (status r) (index r) ->
  (forall p, dotted p = false -> fs_get ix p = fs_get (work r) p) /\
  (forall p, dotted p = true -> fs_get ix p = fs_get (index r) p).
Proof.
  intros ->. assert (Hf : forall q f, In (q, f) (status r) -> f = wt_flag r q).
  { intros q f H. apply in_status in H. tauto. }
  split; intros p Hp; rewrite stage_all by (auto using status_nodup).
  - destruct (existsb (String.eqb p) (pathsof (status r))) eqn:E.
    + destruct (wt_flag r p) eqn:F; [reflexivity|]. apply wt_flag_none in F. congruence.
    + destruct (wt_flag r p) eqn:F.
      * exfalso. assert (existsb (String.eqb p) (pathsof (status r)) = true); [|congruence].
        apply existsb_exists. exists p. split; [|apply String.eqb_refl].
        apply in_map_iff. exists (p, wt_flag r p). split; [reflexivity|]. apply in_status. rewrite F.
        split; [auto|]. split; [auto|]. left. discriminate.
      * apply wt_flag_none in F. congruence.
  - destruct (existsb (String.eqb p) (pathsof (status r))) eqn:E; [|reflexivity].
    apply existsb_exists in E. destruct E as (z & Hz & E). apply String.eqb_eq in E. subst z.
    apply in_map_iff in Hz. destruct Hz as ([q f] & Hq & Hin). cbn [fst] in Hq. subst q. apply in_status in Hin.
    destruct Hin. congruence.
Qed.
