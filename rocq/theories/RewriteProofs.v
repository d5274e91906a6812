(** Proofs about Rewrite.v: a function with other lexemes at its addresses. *)
From Coq Require Import List String Bool Arith Lia Permutation.
From Verif Require Import Base Script Usl Sfun SfunProofs SfunListProofs SfunWordProofs Simplify SimplifySpec SimplifyProofs Properties9 Properties31 Rewrite RewriteSpec.
Import ListNotations.
Local Open Scope list_scope.

Definition label (f : sf) : option lexeme -> option lexeme := option_map (rewritten (TO_REMOVE f)).
Fixpoint relabel (f : sf) : sf :=
  match f with
  | Jun link cs => Jun link (map relabel cs)
  | Indep x => Indep (label f x)
  | Dep x d i => Dep (label f x) (option_map relabel d) (option_map relabel i)
  | Proc x v acts => Proc (label f x) v (map (fun p => (fst p, relabel (snd p))) acts)
  end.
Lemma relabel_jun f : is_jun (relabel f) = is_jun f. Proof. destruct f; reflexivity. Qed.
Lemma relabel_actor f : actor_of (relabel f) = label f (actor_of f). Proof. destruct f; reflexivity. Qed.
Lemma under_relabel p (l : list (role * sf)) : map (fun e => (fst e, relabel (snd e))) (under p l) = under p (map (fun e => (fst e, relabel (snd e))) l).
Proof. unfold under. rewrite !map_map. reflexivity. Qed.
Lemma actors_relabel f : actors (relabel f) = map (fun e => (fst e, relabel (snd e))) (actors f).
Proof.
  induction f as [link cs IH|x|x d i IHd IHi|x v acts IH] using sfun_ind'.
  - cbn [relabel]. rewrite !actors_jun'. cbn [map fst snd relabel]. f_equal. generalize 0 as n. induction cs as [|c cs IHc]; intros n; [reflexivity|]. apply Forall_cons_iff in IH as [H IH].
    cbn [map children_actors]. rewrite map_app, under_relabel, <- H, IHc by exact IH. reflexivity.
  - reflexivity.
  - cbn [relabel]. rewrite !actors_dep. cbn [map fst snd relabel]. f_equal. rewrite map_app, !under_relabel. f_equal; f_equal.
    + destruct i as [g|]; [|reflexivity]. cbn [option_map actorso]. now apply IHi.
    + destruct d as [g|]; [|reflexivity]. cbn [option_map actorso]. now apply IHd.
  - cbn [relabel]. rewrite !actors_proc. cbn [map fst snd relabel]. f_equal. induction acts as [|[a g] acts IHa]; [reflexivity|]. apply Forall_cons_iff in IH as [H IH]. cbn [map List.concat fst snd] in *.
    rewrite map_app, under_relabel, <- H, <- IHa by exact IH. reflexivity.
Qed.
Lemma valid_relabel k f : valid lexeme k f -> valid lexeme k (relabel f).
Proof.
  revert k. induction f as [link cs IH|x|x d i IHd IHi|x v acts IH] using sfun_ind'; intros k V.
  - apply valid_jun in V as (L & N & V). cbn [relabel]. apply valid_jun. rewrite map_length. split; [exact L|]. split; [exact N|]. rewrite Forall_forall in *. intros c Hc. apply in_map_iff in Hc as (c' & <- & Hc). auto.
  - exact V.
  - cbn [relabel valid] in *. destruct V as (E & D & Hi). split; [exact E|]. split; [destruct d|destruct i]; cbn [option_map]; auto.
  - destruct V.
Qed.
Lemma cvalid_relabel c f : cvalid lexeme c f -> cvalid lexeme c (relabel f).
Proof.
  destruct c; cbn [cvalid]; try apply valid_relabel. destruct f; try solve [intros []]. cbn [pvalid relabel]. intros (V & N & F). split; [exact V|]. rewrite map_map. cbn [fst]. split; [exact N|].
  rewrite Forall_forall in *. intros [a g] H. apply in_map_iff in H as ([a' g'] & [= <- <-] & H). destruct (F _ H). split; [assumption|now apply valid_relabel].
Qed.

(** * The class of the function at an address *)
Lemma last_cons {A} (a b : A) l d : last (a :: b :: l) d = last (b :: l) d. Proof. reflexivity. Qed.
Lemma class_at k f : valid lexeme k f -> forall a r g, ins a VALENCES = false -> String.eqb a INDEPENDANT_QUALITY = (match k with KI => true | KD => false end) ->
  In (r, g) (actors f) -> existsb isl r = false -> is_jun g = false -> TO_REMOVE g = unwanted (a :: r).
Proof.
  revert k. induction f as [link cs IH|x|x d i IHd IHi|x v acts IH] using sfun_ind'; intros k V a r g Ha Hk H L J.
  - apply valid_jun in V as (Lk & N & V). rewrite actors_jun' in H. destruct H as [[= <- <-]|H]; [discriminate|]. destruct (children_linked _ _ _ _ H) as (b & t & E). cbn [fst] in E. subst r. cbn [existsb] in L.
    assert (X : isl link = true) by (now apply ins_In). rewrite X in L. discriminate.
  - cbn [valid] in V. subst k. cbn in H. destruct H as [[= <- <-]|[]]. unfold unwanted. cbn [last]. rewrite Ha, Hk. reflexivity.
  - cbn [valid] in V. destruct V as (-> & Vd & Vi). rewrite actors_dep in H. destruct H as [[= <- <-]|H].
    + unfold unwanted. cbn [last]. rewrite Ha, Hk. reflexivity.
    + apply in_app_iff in H. rewrite !under_in in H. cbn [fst snd app] in H. destruct H as [(r' & -> & H)|(r' & -> & H)].
      * destruct i as [h|]; [|destruct H]. cbn [actorso] in H. cbn [existsb] in L. apply orb_false_iff in L as [_ L]. unfold unwanted. rewrite last_cons. exact (IHi h eq_refl KI Vi INDEPENDANT_QUALITY r' g eq_refl eq_refl H L J).
      * destruct d as [h|]; [|destruct H]. cbn [actorso] in H. cbn [existsb] in L. apply orb_false_iff in L as [_ L]. unfold unwanted. rewrite last_cons. exact (IHd h eq_refl KD Vd DEPENDANT_QUALITY r' g eq_refl eq_refl H L J).
  - destruct V.
Qed.
Lemma class_c c f r g : cvalid lexeme c f -> In (r, g) (actors f) -> existsb isl r = false -> is_jun g = false -> TO_REMOVE g = unwanted (context_prefix c ++ r).
Proof.
  intros V H L J. destruct c; cbn [cvalid context_prefix app] in *.
  - destruct f as [| | |x v acts]; try solve [destruct V]. destruct (proc_node _ _ _ _ _ V H) as [[-> ->]|(a & r' & f & -> & _ & Aa & Vf & Hr)].
    + unfold unwanted. cbn [last]. rewrite (proj2 (ins_In _ _)) by apply V. reflexivity.
    + cbn [existsb] in L. apply orb_false_iff in L as [_ L]. assert (N : ins a VALENCES = false /\ String.eqb a INDEPENDANT_QUALITY = false) by (cbn in Aa; repeat (destruct Aa as [<-|Aa]; [split; reflexivity|]); destruct Aa).
      exact (class_at KD f Vf a r' g (proj1 N) (proj2 N) Hr L J).
  - exact (class_at KD f V DEPENDANT_QUALITY r g eq_refl eq_refl H L J).
  - exact (class_at KI f V INDEPENDANT_QUALITY r g eq_refl eq_refl H L J).
Qed.

(** * A junction above an address with a link *)
Lemma link_above_k k f : valid lexeme k f -> forall r g, In (r, g) (actors f) -> existsb isl r = true -> exists r1 t link cs, r = r1 ++ t /\ In (r1, Jun link cs) (actors f).
Proof.
  revert k. induction f as [link cs IH|x|x d i IHd IHi|x v acts IH] using sfun_ind'; intros k V r g H L.
  - exists [], r, link, cs. split; [reflexivity|]. rewrite actors_jun'. now left.
  - cbn in H. destruct H as [[= <- _]|[]]. discriminate.
  - cbn [valid] in V. destruct V as (-> & Vd & Vi). rewrite actors_dep in H. destruct H as [[= <- _]|H]; [discriminate|]. apply in_app_iff in H. rewrite !under_in in H. cbn [fst snd app] in H. destruct H as [(r' & -> & H)|(r' & -> & H)].
    + destruct i as [h|]; [|destruct H]. cbn [existsb] in L. change (isl INDEPENDANT_QUALITY) with false in L. cbn [orb] in L. destruct (IHi h eq_refl KI Vi r' g H L) as (r1 & t & link & cs & -> & K).
      exists (INDEPENDANT_QUALITY :: r1), t, link, cs. split; [reflexivity|]. rewrite actors_dep. right. apply in_app_iff. left. apply under_in. exists r1. auto.
    + destruct d as [h|]; [|destruct H]. cbn [existsb] in L. change (isl DEPENDANT_QUALITY) with false in L. cbn [orb] in L. destruct (IHd h eq_refl KD Vd r' g H L) as (r1 & t & link & cs & -> & K).
      exists (DEPENDANT_QUALITY :: r1), t, link, cs. split; [reflexivity|]. rewrite actors_dep. right. apply in_app_iff. right. apply under_in. exists r1. auto.
  - destruct V.
Qed.
Lemma link_above c f r g : cvalid lexeme c f -> In (r, g) (actors f) -> existsb isl r = true -> exists r1 t link cs, r = r1 ++ t /\ In (r1, Jun link cs) (actors f).
Proof.
  intros V H L. destruct c; cbn [cvalid] in V; [|now apply (link_above_k _ _ V r g)..]. destruct f as [| | |x v acts]; try solve [destruct V]. destruct (proc_node _ _ _ _ _ V H) as [[-> ->]|(a & r' & f & -> & Ia & Aa & Vf & Hr)].
  - exfalso. destruct V as (V & _). cbn in V. cbn [existsb] in L. destruct V as [<-|[<-|[<-|[]]]]; discriminate.
  - cbn [existsb] in L. assert (X : isl a = false) by (cbn in Aa; repeat (destruct Aa as [<-|Aa]; [reflexivity|]); destruct Aa). rewrite X in L. cbn [orb] in L.
    destruct (link_above_k KD f Vf r' g Hr L) as (r1 & t & link & cs & -> & K). exists (a :: r1), t, link, cs. split; [reflexivity|]. rewrite actors_proc. right. apply in_concat. exists (under [a] (actors f)). split; [apply in_map_iff; exists (a, f); auto|].
    apply under_in. exists r1. auto.
Qed.

(** * Emptiness *)
Lemma rewritten_empty bad l : lexeme_empty l = true -> lexeme_empty (rewritten bad l) = true.
Proof.
  unfold lexeme_empty, rewritten. cbn [pm_content pm_flexion]. rewrite !andb_true_iff. intros [-> H]. split; [reflexivity|]. unfold pm_empty in *. destruct (groups (pm_flexion l)); [|discriminate].
  destruct (constant (pm_flexion l)) as [|c [|]]; try discriminate. unfold mk_pm. cbn [groups constant filter map]. destruct (negb (ins (str c) bad)); cbn [filter_empty filter]; [rewrite H|]; reflexivity.
Qed.
Lemma relabel_empty f : all_empty f = true -> all_empty (relabel f) = true.
Proof.
  rewrite !all_empty_spec. intros H r g Hg. rewrite actors_relabel in Hg. apply in_map_iff in Hg as ([r' g'] & [= <- <-] & Hg). rewrite relabel_actor. specialize (H _ _ Hg). unfold label. destruct (actor_of g') as [l|]; [|reflexivity]. cbn [option_map blank] in *. now apply rewritten_empty.
Qed.
Lemma mapM_rewrite (l : list (role * sf)) : mapM rewrite_entry l =
  if forallb (fun e => match actor_of (snd e) with Some _ => true | None => false end) l then Ok (map (fun e => (fst e, label (snd e) (actor_of (snd e)))) l) else Err AttributeError.
Proof.
  induction l as [|e l IH]; [reflexivity|]. cbn [mapM forallb map]. unfold rewrite_entry at 1. destruct (actor_of (snd e)) as [x|]; [|reflexivity]. cbn [bind andb label option_map]. fold (mapM rewrite_entry). rewrite IH. destruct (forallb _ l); reflexivity.
Qed.
