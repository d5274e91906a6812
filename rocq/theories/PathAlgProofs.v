(** Proofs about the algebra of paths. *)
From Coq Require Import List String Ascii Bool Arith Lia.
From Verif Require Import Base Script Commons Usl Sfun UslParser Path PathSpec PathProofs.
Import ListNotations.
Local Open Scope string_scope.

Lemma pclass_eqb_eq a b : pclass_eqb a b = true <-> a = b.
Proof. destruct a, b; cbn; split; (reflexivity || discriminate || auto). Qed.
Lemma pclass_eqb_refl a : pclass_eqb a a = true. Proof. now apply pclass_eqb_eq. Qed.
Lemma pclass_eqb_neq a b : a <> b -> pclass_eqb a b = false.
Proof. intros H. apply not_true_is_false. intros E. apply H. now apply pclass_eqb_eq. Qed.
Lemma do_eq_refl p c c' : do_eq (set_child p c) (set_child p c') = true.
Proof.
  destruct p as [|g m k ?|m ?|i ?|r f ?]; cbn; auto.
  - destruct g, m, k; cbn; unfold script_eqb; rewrite ?String.eqb_refl, ?Nat.eqb_refl; reflexivity.
  - unfold script_eqb. apply String.eqb_refl.
  - now destruct i.
  - unfold role_eqb. rewrite String.eqb_refl. now destruct f.
Qed.
Lemma do_eq_set p c : do_eq (set_child p c) p = true.
Proof. rewrite <- (set_child_id p) at 2. apply do_eq_refl. Qed.
Lemma class_set p c : class_of (set_child p c) = class_of p. Proof. now destruct p. Qed.
Lemma child_set p c : child_of (set_child p c) = c. Proof. now destruct p. Qed.
Lemma alone_set p : alone p = set_child p None. Proof. now destruct p. Qed.
Lemma set_set p c c' : set_child (set_child p c) c' = set_child p c'. Proof. now destruct p. Qed.

(** ** Equations of the recursive functions *)
Lemma has_prefix_eq p q : has_prefix p (Some q) =
  if (negb (pclass_eqb (class_of p) (class_of q)) || negb (do_eq p q))%bool then own_has_prefix p q
  else match child_of p with None => Ok (match child_of q with None => true | Some _ => false end) | Some c => has_prefix c (child_of q) end.
Proof. destruct p as [[]|? ? ? []|? []|? []|? ? []]; reflexivity. Qed.
Lemma has_prefix_none p : has_prefix p None = Ok true.
Proof. destruct p; reflexivity. Qed.
Lemma concat_eq p q f : concat p q f =
  if pclass_eqb (class_of p) ClUsl then Ok q
  else if pclass_eqb (class_of q) ClUsl then Ok p
  else if pclass_eqb (class_of p) (class_of q) then do b <- has_prefix q (Some p); Ok (if (negb b && negb f)%bool then p else q)
  else match child_of p with None => with_child p (Some q) | Some c => do c <- concat c q f; with_child p (Some c) end.
Proof. destruct p as [[]|? ? ? []|? []|? []|? ? []], q; reflexivity. Qed.
Lemma remove_prefix_eq p q : remove_prefix p (Some q) =
  do b <- has_prefix p (Some q);
  if negb b then Ok None
  else if (negb (isinstance p (class_of q)) || negb (do_eq p q))%bool then Ok None
  else match child_of p with None => Ok None | Some c => remove_prefix c (child_of q) end.
Proof. destruct p as [[]|? ? ? []|? []|? []|? ? []]; reflexivity. Qed.
Lemma remove_prefix_none p : remove_prefix p None = Ok (Some p).
Proof. destruct p; reflexivity. Qed.
Lemma split_tail_eq p : split_tail p =
  match child_of p with
  | None => Ok (PUsl None, p)
  | Some c =>
    match child_of c with
    | None => Ok (alone p, c)
    | Some _ => do r <- split_tail c; do h <- with_child p (Some (fst r)); Ok (h, snd r)
    end
  end.
Proof. destruct p as [[]|? ? ? []|? []|? []|? ? []]; reflexivity. Qed.
Lemma deref_eq p u : deref p u = do n <- deref_step p u; match child_of p with Some c => deref c n | None => Ok n end.
Proof. destruct p as [[]|? ? ? []|? []|? []|? ? []]; reflexivity. Qed.
Lemma steps_eq p : steps p = alone p :: match child_of p with Some c => steps c | None => [] end.
Proof. destruct p as [[]|? ? ? []|? []|? []|? ? []]; reflexivity. Qed.
Lemma tail_eq p : tail p = match child_of p with Some c => tail c | None => p end.
Proof. destruct p as [[]|? ? ? []|? []|? []|? ? []]; reflexivity. Qed.
Lemma path_str_eq p : path_str p = ">" ++ step_str p ++ match child_of p with Some c => path_str c | None => "" end.
Proof. destruct p as [[]|? ? ? []|? []|? []|? ? []]; reflexivity. Qed.
Lemma no_usl_inv p : no_usl p -> class_of p <> ClUsl /\ match child_of p with Some c => no_usl c | None => True end.
Proof.
  unfold no_usl. rewrite steps_eq. intros H. apply Forall_cons_iff in H. destruct H as [H F]. rewrite alone_set, class_set in H.
  split; [exact H|]. destruct (child_of p); auto.
Qed.
Lemma built_inv p c : built_path p -> child_of p = Some c -> built_path c.
Proof. destruct 1; cbn; intros E; try congruence; injection E as <-; auto. Qed.

Lemma has_prefix_refl p : has_prefix p (Some p) = Ok true.
Proof.
  induction p as [p E|p c E IH] using path_ind'; rewrite has_prefix_eq, pclass_eqb_refl;
  rewrite <- (set_child_id p) at 1 2; rewrite do_eq_refl; cbn [negb orb]; rewrite E; auto.
Qed.
(** The result of [with_child]: the same component, with the child, a cast one, or none. *)
Definition casts (p c : path) : bool := match p, c with PLex Flexion _, PPoly _ _ _ _ => true | _, _ => false end.
Lemma with_child_inv p c r : with_child p (Some c) = Ok r -> if casts p c then exists c', r = set_child p c' else r = set_child p (Some c).
Proof.
  destruct p as [|g m k ?|m ?|[|] ?|r0 f ?]; cbn [with_child casts set_child].
  - intros [= <-]. reflexivity.
  - intros [= <-]. reflexivity.
  - intros [= <-]. reflexivity.
  - destruct c; try discriminate. intros [= <-]. reflexivity.
  - destruct c as [|? [|] ? ?|? ?|? ?|? ? ?]; try discriminate; intros [= <-]; eauto.
  - unfold mk_prole. destruct c; cbn; try discriminate; intros [= <-]; reflexivity.
Qed.
Lemma prefix_class p q : has_prefix p (Some q) = Ok true -> class_of p = class_of q.
Proof.
  rewrite has_prefix_eq. destruct (pclass_eqb (class_of p) (class_of q)) eqn:E; [intros _; now apply pclass_eqb_eq|].
  cbn [negb orb]. destruct p, q; cbn in E |- *; discriminate.
Qed.
Lemma concat_prefix p : built_path p -> no_usl p -> forall q r, concat p q false = Ok r -> has_prefix r (Some p) = Ok true.
Proof.
  induction p as [p E|p c E IH] using path_ind'; intros B N q r; destruct (no_usl_inv p N) as [Np Nc];
  rewrite concat_eq, (pclass_eqb_neq _ _ Np); (destruct (pclass_eqb (class_of q) ClUsl); [intros [= <-]; apply has_prefix_refl|]);
  (destruct (pclass_eqb (class_of p) (class_of q)) eqn:Ec;
    [destruct (has_prefix q (Some p)) as [[|]|] eqn:Eb; cbn [bind andb negb]; try discriminate; intros [= <-]; [exact Eb|apply has_prefix_refl]|]); rewrite E.
  - intros H. apply with_child_inv in H. assert (X : exists c', r = set_child p c') by (destruct (casts p q); eauto).
    destruct X as [c' ->]. rewrite has_prefix_eq, class_set, pclass_eqb_refl. rewrite do_eq_set, child_set, E. cbn.
    destruct c'; [apply has_prefix_none|reflexivity].
  - destruct (concat c q false) as [c'|] eqn:Er; [|discriminate]. cbn [bind]. rewrite E in Nc.
    specialize (IH (built_inv _ _ B E) Nc q c' Er). intros H. apply with_child_inv in H.
    assert (C : casts p c' = false).
    { destruct (casts p c') eqn:C; [|reflexivity]. exfalso. apply prefix_class in IH. destruct p as [| | |[|] ?|]; try discriminate. cbn in E. subst.
      destruct c' as [|? ? ? ?| | |]; try discriminate. cbn in IH. symmetry in IH. apply no_usl_inv in Nc. destruct Nc as [Nc _]. inversion B; subst; try discriminate; congruence. }
    rewrite C in H. subst r. rewrite has_prefix_eq, class_set, pclass_eqb_refl. rewrite do_eq_set, child_set, E. exact IH.
Qed.

(** ** Concatenation as the sequence of the components *)
Fixpoint attach (p q : path) : path :=
  set_child p (Some (match p with
                     | PUsl (Some c) | PPoly _ _ _ (Some c) | PFlex _ (Some c) | PLex _ (Some c) | PRole _ _ (Some c) => attach c q
                     | _ => q
                     end)).
Lemma attach_eq p q : attach p q = set_child p (Some (match child_of p with Some c => attach c q | None => q end)).
Proof. destruct p as [[]|? ? ? []|? []|? []|? ? []]; reflexivity. Qed.
Lemma attach_class p q : class_of (attach p q) = class_of p.
Proof. rewrite attach_eq. apply class_set. Qed.
Lemma attach_steps p q : steps (attach p q) = (steps p ++ steps q)%list.
Proof.
  induction p as [p E|p c E IH] using path_ind'; rewrite attach_eq, E, steps_eq, child_set, (steps_eq p), E, !alone_set, set_set; [reflexivity|].
  rewrite IH. reflexivity.
Qed.
(** The constructors accept [c] below [p]. *)
Definition takes (p c : path) : Prop :=
  match p with
  | PLex Content _ => class_of c = ClPoly
  | PLex Flexion _ => class_of c = ClFlex
  | PRole _ _ _ => class_of c = ClLex
  | _ => True
  end.
Lemma with_child_takes p c : takes p c -> with_child p (Some c) = Ok (set_child p (Some c)).
Proof. destruct p as [|? ? ? ?|? ?|[|] ?|? ? ?], c; cbn; try discriminate; reflexivity. Qed.
Lemma takes_class p c c' : class_of c = class_of c' -> takes p c -> takes p c'.
Proof. destruct p as [|? ? ? ?|? ?|[|] ?|? ? ?]; cbn; congruence. Qed.
Lemma takes_set p c x : takes (set_child p x) c <-> takes p c.
Proof. now destruct p. Qed.
Lemma built_takes p c : built_path p -> no_usl p -> child_of p = Some c -> takes p c.
Proof.
  intros B N E. destruct (no_usl_inv p N) as [_ Nc]. rewrite E in Nc. apply no_usl_inv in Nc. destruct Nc as [Nc _].
  destruct B as [p E'|c' B|g m k c' B|m c' B|i c' C B|c' C B|c' C B|r f c' [C|C] B]; cbn in E |- *; try congruence; auto; injection E as <-; congruence.
Qed.
Lemma follows_takes p q : child_of p = None -> follows p q <-> takes p q.
Proof.
  intros E. unfold follows. rewrite tail_eq, E. destruct p as [|? ? ? ?|? ?|[|] ?|? ? ?], q; cbn; split; intros H; auto; try contradiction; discriminate.
Qed.
Lemma concat_attach p : built_path p -> no_usl p -> forall q f, class_of q <> ClUsl -> fresh p q -> follows p q -> concat p q f = Ok (attach p q).
Proof.
  unfold fresh. induction p as [p E|p c E IH] using path_ind'; intros B N q f Nq F Fo; destruct (no_usl_inv p N) as [Np Nc];
  rewrite steps_eq, E in F; cbn [map] in F; rewrite alone_set, class_set in F;
  rewrite concat_eq, (pclass_eqb_neq _ _ Np), (pclass_eqb_neq _ _ Nq); (rewrite pclass_eqb_neq; [|intros X; apply F; left; exact X]); rewrite E, attach_eq, E.
  - apply with_child_takes. now apply follows_takes.
  - rewrite E in Nc. unfold follows in *. rewrite tail_eq, E in Fo. rewrite (IH (built_inv _ _ B E) Nc q f Nq); [|intros X; apply F; right; exact X|exact Fo].
    cbn [bind]. apply with_child_takes. eapply takes_class; [symmetry; apply attach_class|]. now apply built_takes.
Qed.
Lemma attach_prefix p q : has_prefix (attach p q) (Some p) = Ok true.
Proof.
  induction p as [p E|p c E IH] using path_ind'; rewrite has_prefix_eq, attach_class, pclass_eqb_refl, attach_eq; rewrite do_eq_set, child_set, E; cbn [negb orb]; [apply has_prefix_none|exact IH].
Qed.
Lemma remove_attach p q : remove_prefix (attach p q) (Some p) = Ok (Some q).
Proof.
  induction p as [p E|p c E IH] using path_ind'; rewrite remove_prefix_eq, attach_prefix; cbn [bind negb]; unfold isinstance; rewrite attach_class, pclass_eqb_refl, orb_true_r;
  rewrite attach_eq; rewrite do_eq_set, child_set, E; cbn [negb orb]; [apply remove_prefix_none|exact IH].
Qed.
Lemma deref_step_set p c u : deref_step (set_child p c) u = deref_step p u.
Proof. destruct p; reflexivity. Qed.
Lemma deref_attach p q : forall u, deref (attach p q) u = do n <- deref p u; deref q n.
Proof.
  induction p as [p E|p c E IH] using path_ind'; intros u; rewrite attach_eq, !deref_eq, deref_step_set, child_set, E; destruct (deref_step p u) as [n|]; cbn [bind]; auto.
Qed.

Lemma split_attach p c : child_of p = Some c -> built_path p -> layered p ->
  exists h t, split_tail p = Ok (h, t) /\ concat h t false = Ok p /\ class_of h = class_of p /\ In (class_of t) (map class_of (steps p)) /\ child_of t = None /\ attach h t = p.
Proof.
  revert c. induction p as [p E|p c E IH] using path_ind'; intros c0 E0 B [N D]; [congruence|]. clear c0 E0.
  destruct (no_usl_inv p N) as [Np Nc]. rewrite E in Nc. pose proof (built_takes p c B N E) as T.
  unfold layered in *. rewrite steps_eq, E in D. cbn [map] in D. rewrite alone_set, class_set in D. inversion D as [|? ? D1 D2]; subst.
  destruct (child_of c) as [d|] eqn:Ed.
  - destruct (IH d eq_refl (built_inv _ _ B E) (conj Nc D2)) as (h & t & S & C & Ch & Ct & Et & A).
    assert (Th : takes p h) by (eapply takes_class; [symmetry; exact Ch|exact T]).
    exists (set_child p (Some h)), t. split; [rewrite split_tail_eq, E, Ed, S; cbn [bind fst snd]; rewrite (with_child_takes p h Th); reflexivity|].
    assert (Nt : class_of t <> ClUsl).
    { intros X. unfold no_usl in Nc. rewrite Forall_forall in Nc. apply in_map_iff in Ct. destruct Ct as (x & X1 & X2). apply (Nc x X2). congruence. }
    split.
    + rewrite concat_eq, class_set, (pclass_eqb_neq _ _ Np), (pclass_eqb_neq _ _ Nt), pclass_eqb_neq by (intros X; apply D1; rewrite X; exact Ct).
      rewrite child_set, C. cbn [bind]. rewrite with_child_takes by (apply takes_set; exact T). now rewrite set_set, <- E, set_child_id.
    + split; [apply class_set|]. split; [rewrite steps_eq, E; cbn [map]; right; exact Ct|]. split; [exact Et|].
      rewrite attach_eq, child_set, A, set_set, <- E. apply set_child_id.
  - exists (alone p), c. split; [rewrite split_tail_eq, E, Ed; reflexivity|]. rewrite alone_set.
    assert (Nt : class_of c <> ClUsl) by (apply no_usl_inv in Nc; tauto).
    assert (Ct : In (class_of c) (map class_of (steps c))) by (rewrite steps_eq; cbn [map]; rewrite alone_set, class_set; now left).
    split.
    + rewrite concat_eq, class_set, (pclass_eqb_neq _ _ Np), (pclass_eqb_neq _ _ Nt), pclass_eqb_neq by (intros X; apply D1; rewrite X; exact Ct).
      rewrite child_set, with_child_takes by (apply takes_set; exact T). now rewrite set_set, <- E, set_child_id.
    + split; [apply class_set|]. split; [rewrite steps_eq, E; cbn [map]; now right|]. split; [exact Ed|]. rewrite attach_eq, child_set, set_set, <- E. apply set_child_id.
Qed.
Lemma split_tail_ok p : built_path p -> layered p \/ child_of p = None ->
  exists h t, split_tail p = Ok (h, t) /\ concat h t false = Ok p /\ child_of t = None.
Proof.
  intros B H. destruct (child_of p) as [c|] eqn:E.
  - destruct H as [H|H]; [|discriminate]. destruct (split_attach p c E B H) as (h & t & S & C & _ & _ & T & _). eauto.
  - exists (PUsl None), p. split; [rewrite split_tail_eq, E; reflexivity|]. split; [|exact E]. rewrite concat_eq. reflexivity.
Qed.
