(** The executable parser of [ScriptParser] decides the grammar of [ScriptGrammar]. *)
From Coq Require Import List String Arith Lia Bool.
From Verif Require Import Base Script ScriptParser ScriptGrammar.
Import ListNotations.

Scheme d_script_mind := Minimality for d_script Sort Prop
with d_sum_mind := Minimality for d_sum Sort Prop.
Combined Scheme d_mutind from d_script_mind, d_sum_mind.

Definition okst (n : nat) (st : list item) : Prop :=
  match st with
  | I t :: _ => n <= tlevel t
  | P :: I t :: _ => n <= tlevel t
  | _ => True
  end.

Fixpoint push_more (ts : list tree) (st : list item) : list item :=
  match ts with
  | [] => st
  | t :: r => push_more r (I t :: P :: st)
  end.
Definition push (ts : list tree) (st : list item) : list item :=
  match ts with
  | [] => st
  | t :: r => push_more r (I t :: st)
  end.

Lemma okst_le n m st : n <= m -> okst m st -> okst n st.
Proof.
  destruct st as [|[t|] [|[t'|] st]]; simpl; intros; auto; lia.
Qed.

Lemma push_more_snoc r t st : push_more (r ++ [t]) st = I t :: P :: push_more r st.
Proof. revert st; induction r; intros; simpl; auto. Qed.

Lemma push_snoc t0 r t st : push (t0 :: r ++ [t]) st = I t :: P :: push (t0 :: r) st.
Proof. simpl. apply push_more_snoc. Qed.

Lemma pop_PI n t st cur args :
  pop n (P :: I t :: st) cur args =
  if Nat.eqb (tlevel t) n then pop n st (t :: cur) args
  else (cur :: args, P :: I t :: st).
Proof. reflexivity. Qed.

Lemma pop_P n t0 r st cur args :
  Forall (fun t => tlevel t = n) (t0 :: r) ->
  pop n (P :: push (t0 :: r) st) cur args = pop n st (t0 :: r ++ cur) args.
Proof.
  revert cur. induction r as [|t r IH] using rev_ind; intros cur H.
  - inversion H; subst. simpl. rewrite Nat.eqb_refl. reflexivity.
  - rewrite push_snoc.
    assert (tlevel t = n).
    { rewrite Forall_forall in H. apply H. right. apply in_or_app; right; left; auto. }
    rewrite pop_PI, H0, Nat.eqb_refl.
    rewrite IH. { rewrite <- app_assoc. reflexivity. }
    rewrite Forall_forall in *. intros x [->|Hx]; apply H; [left|right]; auto.
    apply in_or_app; auto.
Qed.

Lemma pop_push n t0 r st cur args :
  Forall (fun t => tlevel t = n) (t0 :: r) ->
  pop n (push (t0 :: r) st) cur args = pop n st (t0 :: r) (cur :: args).
Proof.
  destruct r as [|t r _] using rev_ind; intros H.
  - inversion H; subst. simpl. rewrite Nat.eqb_refl. reflexivity.
  - rewrite push_snoc.
    assert (tlevel t = n).
    { rewrite Forall_forall in H. apply H. right. apply in_or_app; right; left; auto. }
    assert (Hr : Forall (fun t => tlevel t = n) (t0 :: r)).
    { rewrite Forall_forall in *. intros x [->|Hx]; apply H; [left|right]; auto.
      apply in_or_app; auto. }
    change (pop n (I t :: P :: push (t0 :: r) st) cur args)
      with (if Nat.eqb (tlevel t) n then pop n (P :: push (t0 :: r) st) [t] (cur :: args)
            else (cur :: args, I t :: P :: push (t0 :: r) st)).
    rewrite H0, Nat.eqb_refl. rewrite pop_P; auto.
Qed.

Lemma pop_stop n st cur args : okst (S n) st -> pop n st cur args = (cur :: args, st).
Proof.
  destruct st as [|[t|] [|[t'|] st]]; simpl; intros; auto.
  all: try (destruct (Nat.eqb_spec (tlevel t) n); [lia|auto]).
  destruct (Nat.eqb_spec (tlevel t') n); [lia|auto].
Qed.

(** [reduce] starts by popping the top item: it is [pop] with an empty current sum. *)
Lemma reduce_push n t0 r st :
  Forall (fun t => tlevel t = n) (t0 :: r) ->
  reduce n (push (t0 :: r) st) =
  (let (args, st'') := pop n st (t0 :: r) [] in
   if Nat.leb (List.length args) 3 then Some (I (TrMul (S n) args) :: st'') else None).
Proof.
  destruct r as [|t r _] using rev_ind; intros H.
  - inversion H; subst. simpl. rewrite Nat.eqb_refl. reflexivity.
  - rewrite push_snoc.
    assert (tlevel t = n).
    { rewrite Forall_forall in H. apply H. right. apply in_or_app; right; left; auto. }
    assert (Hr : Forall (fun t => tlevel t = n) (t0 :: r)).
    { rewrite Forall_forall in *. intros x [->|Hx]; apply H; [left|right]; auto.
      apply in_or_app; auto. }
    unfold reduce. rewrite H0, Nat.eqb_refl. rewrite pop_P; auto.
Qed.

Lemma okst_push n t0 r st :
  Forall (fun t => tlevel t = n) (t0 :: r) -> okst n (push (t0 :: r) st).
Proof.
  intros H. destruct r as [|t r _] using rev_ind.
  - inversion H; subst; simpl; lia.
  - rewrite push_snoc. simpl.
    rewrite Forall_forall in H. rewrite (H t); [lia|].
    right. apply in_or_app; right; left; auto.
Qed.

Lemma d_nonempty n w ts : d_sum n w ts -> exists t r, ts = t :: r.
Proof. inversion 1; eauto. Qed.

Lemma d_complete :
  (forall n w t, d_script n w t ->
     tlevel t = n /\
     forall st r, okst n st -> run (w ++ r) st = run r (I t :: st)) /\
  (forall n w ts, d_sum n w ts ->
     Forall (fun t => tlevel t = n) ts /\
     forall st r, okst n st -> run (w ++ r) st = run r (push ts st)).
Proof.
  apply d_mutind.
  - intros; split; auto.
  - intros; split; auto.
  - intros; split; auto.
  - intros n w1 a1 Hn H1 [L1 R1]. split; [reflexivity|]. intros st r Hok.
    destruct (d_nonempty _ _ _ H1) as (t1 & r1 & ->).
    rewrite <- app_assoc. rewrite R1 by (eapply okst_le; [|exact Hok]; lia).
    cbn [app run]. destruct (Nat.leb_spec (S n) MAX_LAYER); [|lia].
    rewrite reduce_push by auto. rewrite pop_stop by auto. reflexivity.
  - intros n w1 a1 w2 a2 Hn H1 [L1 R1] H2 [L2 R2]. split; [reflexivity|]. intros st r Hok.
    destruct (d_nonempty _ _ _ H1) as (t1 & r1 & ->).
    destruct (d_nonempty _ _ _ H2) as (t2 & r2 & ->).
    rewrite <- !app_assoc. rewrite R1 by (eapply okst_le; [|exact Hok]; lia).
    rewrite R2 by (apply okst_push; auto).
    cbn [app run]. destruct (Nat.leb_spec (S n) MAX_LAYER); [|lia].
    rewrite reduce_push by auto. rewrite pop_push by auto. rewrite pop_stop by auto.
    reflexivity.
  - intros n w1 a1 w2 a2 w3 a3 Hn H1 [L1 R1] H2 [L2 R2] H3 [L3 R3].
    split; [reflexivity|]. intros st r Hok.
    destruct (d_nonempty _ _ _ H1) as (t1 & r1 & ->).
    destruct (d_nonempty _ _ _ H2) as (t2 & r2 & ->).
    destruct (d_nonempty _ _ _ H3) as (t3 & r3 & ->).
    rewrite <- !app_assoc. rewrite R1 by (eapply okst_le; [|exact Hok]; lia).
    rewrite R2 by (apply okst_push; auto).
    rewrite R3 by (apply okst_push; auto).
    cbn [app run]. destruct (Nat.leb_spec (S n) MAX_LAYER); [|lia].
    rewrite reduce_push by auto. rewrite !pop_push by auto. rewrite pop_stop by auto.
    reflexivity.
  - intros n w t H [L R]. split; [auto|]. intros; simpl. auto.
  - intros n w t w' ts H [L R] H' [L' R']. split; [auto|]. intros st r Hok.
    rewrite <- app_assoc. rewrite R by auto. cbn [app run].
    rewrite R'. 2:{ simpl. lia. }
    destruct (d_nonempty _ _ _ H') as (t1 & r1 & ->). reflexivity.
Qed.

(** Completeness: every derivable token sequence is parsed to its tree. *)
Lemma parse_tree_complete w ts : d_term w ts -> parse_tree w = Some ts.
Proof.
  intros [n H]. destruct d_complete as [_ C]. destruct (C n w ts H) as [L R].
  destruct (d_nonempty _ _ _ H) as (t & r & ->).
  unfold parse_tree. specialize (R [] [] Logic.I). rewrite app_nil_r in R.
  rewrite R. cbn [run].
  destruct r as [|t' r _] using rev_ind.
  - simpl. reflexivity.
  - rewrite push_snoc.
    assert (tlevel t' = n).
    { rewrite Forall_forall in L. apply L. right. apply in_or_app; right; left; auto. }
    rewrite H0. rewrite pop_P.
    { simpl. reflexivity. }
    rewrite Forall_forall in *. intros x [->|Hx]; apply L; [left|right]; auto.
    apply in_or_app; auto.
Qed.

(** Soundness. *)
Inductive rep : list item -> list token -> Prop :=
| rep_nil : rep [] []
| rep_I st w0 t w : rep st w0 -> d_script (tlevel t) w t -> rep (I t :: st) (w0 ++ w)
| rep_P st w0 : rep st w0 -> rep (P :: st) (w0 ++ [TPlus]).

Lemma pop_sound n : forall k st, List.length st <= k ->
  forall w0 cur wc args wargs,
  rep st w0 -> d_sum n wc cur -> Forall2 (d_sum n) wargs args ->
  forall args' st', pop n st cur args = (args', st') ->
  exists w0' ws, rep st' w0' /\ Forall2 (d_sum n) ws args' /\
                 w0 ++ wc ++ List.concat wargs = w0' ++ List.concat ws.
Proof.
  induction k; intros st Hk w0 cur wc args wargs Hrep Hc Ha args' st' E.
  - destruct st; [|simpl in Hk; lia]. simpl in E. inversion E; subst.
    exists w0, (wc :: wargs). repeat split; auto.
  - assert (Hdef : (args', st') = (cur :: args, st) ->
      exists w0' ws, rep st' w0' /\ Forall2 (d_sum n) ws args' /\
                 w0 ++ wc ++ List.concat wargs = w0' ++ List.concat ws).
    { intros E'. inversion E'; subst. exists w0, (wc :: wargs). repeat split; auto. }
    destruct st as [|[t|] st].
    + apply Hdef. symmetry; exact E.
    + cbn [pop] in E. destruct (Nat.eqb_spec (tlevel t) n) as [Ht|Ht].
      2:{ apply Hdef; auto. }
      inversion Hrep; subst.
      assert (S1 : d_sum (tlevel t) w [t]) by (constructor; auto).
      destruct (IHk st ltac:(simpl in Hk; lia) _ _ _ _ (wc :: wargs) ltac:(eassumption) S1
        ltac:(constructor; eassumption) _ _ E) as (w0' & ws & R' & F' & E').
      exists w0', ws. repeat split; auto. simpl in E'. rewrite <- E'.
      rewrite <- !app_assoc. reflexivity.
    + destruct st as [|[t|] st].
      * apply Hdef; symmetry; exact E.
      * cbn [pop] in E. destruct (Nat.eqb_spec (tlevel t) n) as [Ht|Ht].
        2:{ apply Hdef; auto. }
        inversion Hrep; subst. inversion H0; subst.
        assert (S1 : d_sum (tlevel t) (w ++ TPlus :: wc) (t :: cur)) by (constructor; auto).
        destruct (IHk st ltac:(simpl in Hk; lia) _ _ _ _ _ ltac:(eassumption) S1 Ha _ _ E)
          as (w0' & ws & R' & F' & E').
        exists w0', ws. repeat split; auto. rewrite <- E'.
        rewrite <- !app_assoc. simpl. reflexivity.
      * apply Hdef; symmetry; exact E.
Qed.

Lemma pop_nonempty n : forall k st, List.length st <= k ->
  forall cur args, fst (pop n st cur args) <> [].
Proof.
  induction k; intros st Hk cur args.
  - destruct st; simpl in *; [discriminate|lia].
  - destruct st as [|[t|] st]; simpl; try discriminate.
    + destruct (tlevel t =? n); simpl; [|discriminate]. apply IHk. simpl in Hk; lia.
    + destruct st as [|[t|] st]; simpl; try discriminate.
      destruct (tlevel t =? n); simpl; [|discriminate]. apply IHk. simpl in Hk; lia.
Qed.

Lemma reduce_sound n st st' w0 :
  S n <= MAX_LAYER -> rep st w0 -> reduce n st = Some st' -> rep st' (w0 ++ [TMark (S n)]).
Proof.
  intros Hn Hrep E. destruct st as [|[t|] st]; try discriminate.
  unfold reduce in E. destruct (Nat.eqb_spec (tlevel t) n); [|discriminate].
  destruct (pop n st [t] []) as [args st''] eqn:Ep.
  destruct (Nat.leb_spec (List.length args) 3); [|discriminate].
  inversion E; subst; clear E. inversion Hrep; subst.
  assert (S1 : d_sum (tlevel t) w [t]) by (constructor; auto).
  destruct (pop_sound (tlevel t) _ st (le_n _) w1 [t] w [] [] H2 S1 (Forall2_nil _) _ _ Ep)
    as (w0' & ws & R & F & E).
  pose proof (pop_nonempty (tlevel t) _ st (le_n _) [t] []) as NE. rewrite Ep in NE.
  simpl in NE, E. rewrite app_nil_r in E. rewrite E. rewrite <- app_assoc.
  apply rep_I with (t := TrMul (S (tlevel t)) args); auto. cbn [tlevel].
  destruct args as [|a1 [|a2 [|a3 [|a4 args]]]]; try congruence; try (simpl in H; lia).
  - inversion F as [|? ? ? ? F1 F2]; subst. inversion F2; subst.
    simpl. rewrite app_nil_r. constructor; auto.
  - inversion F as [|? ? ? ? F1 F2]; subst. inversion F2 as [|? ? ? ? F3 F4]; subst.
    inversion F4; subst. simpl. rewrite app_nil_r, <- app_assoc. constructor; auto.
  - inversion F as [|? ? ? ? F1 F2]; subst. inversion F2 as [|? ? ? ? F3 F4]; subst.
    inversion F4 as [|? ? ? ? F5 F6]; subst. inversion F6; subst.
    simpl. rewrite app_nil_r, <- !app_assoc. constructor; auto.
Qed.

Lemma run_sound : forall k w, List.length w <= k ->
  forall st w0 st', rep st w0 -> run w st = Some st' -> rep st' (w0 ++ w).
Proof.
  induction k; intros w Hk st w0 st' Hrep E.
  - destruct w; [|simpl in Hk; lia]. simpl in E. inversion E; subst.
    rewrite app_nil_r; auto.
  - destruct w as [|tok w].
    { simpl in E. inversion E; subst. rewrite app_nil_r; auto. }
    assert (Step1 : forall st1, rep st1 (w0 ++ [tok]) -> run w st1 = Some st' ->
                                rep st' (w0 ++ tok :: w)).
    { intros st1 R1 E1. change (tok :: w) with ([tok] ++ w). rewrite app_assoc.
      eapply IHk; eauto. simpl in Hk; lia. }
    assert (Step2 : forall t2 w2, w = t2 :: w2 -> forall st1, rep st1 (w0 ++ [tok; t2]) ->
                run w2 st1 = Some st' -> rep st' (w0 ++ tok :: w)).
    { intros t2 w2 -> st1 R1 E1. change (tok :: t2 :: w2) with ([tok; t2] ++ w2).
      rewrite app_assoc. eapply IHk; eauto. simpl in Hk; lia. }
    destruct tok as [|n|x|kk|kk]; simpl in E.
    + eapply Step1; [|exact E]. constructor; auto.
    + destruct n; [discriminate|].
      destruct (Nat.leb_spec n 5); [|discriminate].
      destruct (reduce n st) eqn:Er; [|discriminate].
      eapply Step1; [|exact E]. eapply reduce_sound; eauto. unfold MAX_LAYER; lia.
    + destruct w as [|[|[|n]| | |] w]; try discriminate.
      eapply Step2; [reflexivity| |exact E]. apply rep_I with (t := TrPrim x); auto. constructor.
    + destruct w as [|[|[|n]| | |] w]; try discriminate.
      eapply Step2; [reflexivity| |exact E]. apply rep_I with (t := TrRemAdd kk); auto. constructor.
    + destruct w as [|[|[|[|n]]| | |] w]; try discriminate.
      eapply Step2; [reflexivity| |exact E]. apply rep_I with (t := TrRemMul kk); auto. constructor.
Qed.

Lemma parse_tree_sound w ts : parse_tree w = Some ts -> d_term w ts.
Proof.
  unfold parse_tree. intros E. destruct (run w []) as [st|] eqn:Er; [|discriminate].
  pose proof (run_sound _ w (le_n _) [] [] st rep_nil Er) as R. simpl in R.
  destruct st as [|[t|] st]; try discriminate.
  destruct (pop (tlevel t) st [t] []) as [args st'] eqn:Ep.
  destruct args as [|a [|]]; try discriminate. destruct st'; try discriminate.
  inversion E; subst; clear E. inversion R; subst.
  assert (S1 : d_sum (tlevel t) w1 [t]) by (constructor; auto).
  destruct (pop_sound (tlevel t) _ st (le_n _) w0 [t] w1 [] [] H1 S1 (Forall2_nil _) _ _ Ep)
    as (w0' & ws & R' & F & E).
  inversion R'; subst. inversion F as [|? ? ? ? F1 F2]; subst. inversion F2; subst.
  simpl in E. rewrite !app_nil_r in E. exists (tlevel t). rewrite E. auto.
Qed.

Theorem parse_tree_iff w ts : parse_tree w = Some ts <-> d_term w ts.
Proof. split; [apply parse_tree_sound | apply parse_tree_complete]. Qed.
