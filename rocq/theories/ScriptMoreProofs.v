(** Repetitions among singular sequences, classes, promotion, algebra of sums, determinism. *)
From Coq Require Import List String Bool NArith Arith Lia Sorted Permutation.
From Verif Require Import Base Script ScriptParser SortProofs ScriptWf ScriptStrProofs ScriptOrderProofs ScriptSpec ScriptCtorProofs ScriptParseProofs ScriptSeqProofs.
Import ListNotations.

(** The word of a singular script. *)
Fixpoint wordof (s : script) : word :=
  match s with
  | Null l => repeat None (3 ^ l)
  | Prim p => [Some p]
  | Mul a b c => (wordof a ++ wordof b ++ wordof c)%list
  | Add cs => match cs with [] => [] | c :: _ => wordof c end
  end.

Definition cat3 (t : word * word * word) : word := let '(u, v, w) := t in (u ++ v ++ w)%list.

(** All the words, with their multiplicity. *)
Fixpoint words (s : script) : list word :=
  match s with
  | Null l => [repeat None (3 ^ l)]
  | Prim p => [[Some p]]
  | Mul a b c => map cat3 (product3 (words a) (words b) (words c))
  | Add cs => flat_map words cs
  end.

Lemma words_means s : forall w, In w (words s) <-> means s w.
Proof.
  induction s as [l|p|a b c IHa IHb IHc|cs IH] using script_ind'; intros w.
  - simpl. split; [intros [<-|[]]; auto|intros ->; auto].
  - simpl. split; [intros [<-|[]]; auto|intros ->; auto].
  - cbn [words means]. rewrite in_map_iff. split.
    + intros ([[u v] t] & <- & H). apply in_product3 in H. destruct H as (Hu & Hv & Ht).
      exists u, v, t. rewrite <- IHa, <- IHb, <- IHc. auto.
    + intros (u & v & t & Hu & Hv & Ht & ->). exists (u, v, t). split; auto.
      apply in_product3. rewrite IHa, IHb, IHc. auto.
  - rewrite means_add. cbn [words]. rewrite in_flat_map. rewrite Forall_forall in IH.
    split; intros (c & Hc & H); exists c; split; auto; apply (IH c Hc); auto.
Qed.

Lemma words_single s : wf s -> cardinal s = 1%N -> words s = [wordof s].
Proof.
  induction s as [l|p|a b c IHa IHb IHc|cs IH] using script_ind'; intros W C; auto.
  - apply wf_mul_inv in W. destruct W as (Wa & Wb & Wc & _).
    pose proof (cardinal_pos _ Wa). pose proof (cardinal_pos _ Wb). pose proof (cardinal_pos _ Wc).
    simpl in C. assert (cardinal a = 1 /\ cardinal b = 1 /\ cardinal c = 1)%N as (Ca & Cb & Cc) by nia.
    cbn [words wordof]. rewrite IHa, IHb, IHc by auto. reflexivity.
  - destruct cs as [|x [|y cs]].
    + simpl in W; tauto.
    + inversion IH; subst. destruct (wf_add_in _ x W (or_introl eq_refl)) as (Wx & _).
      simpl in C. rewrite N.add_0_r in C. simpl. rewrite H1, app_nil_r by auto. reflexivity.
    + exfalso. assert (2 <= cardinal (Add (x :: y :: cs)))%N; [|lia].
      apply nf_add_card. split; auto. intros z; discriminate.
Qed.

Lemma wordof_means s w : wf s -> cardinal s = 1%N -> (means s w <-> w = wordof s).
Proof.
  intros W C. rewrite <- words_means, words_single by auto. simpl.
  split; [intros [<-|[]]; auto|intros ->; auto].
Qed.

Lemma wordof_nullify x : wf x -> cardinal x = 1%N -> wordof (nullify x) = wordof x.
Proof.
  intros W C. symmetry. 
  assert (H : means (nullify x) (wordof (nullify x))).
  { unfold nullify. destruct (is_empty x); [reflexivity|]. apply wordof_means; auto. }
  rewrite means_nullify, wordof_means in H by auto. auto.
Qed.

Lemma flat_map_map {A B C} (f : A -> B) (g : B -> list C) l :
  flat_map g (map f l) = flat_map (fun x => g (f x)) l.
Proof. induction l; simpl; congruence. Qed.
Lemma flat_map_ext_in {A B} (f g : A -> list B) l :
  (forall x, In x l -> f x = g x) -> flat_map f l = flat_map g l.
Proof. induction l; simpl; intros H; auto. rewrite H, IHl; auto. Qed.
Lemma map_flat_map {A B C} (f : B -> C) (g : A -> list B) l :
  map f (flat_map g l) = flat_map (fun x => map f (g x)) l.
Proof. induction l; simpl; auto. rewrite map_app. congruence. Qed.

Lemma product3_map {A B} (f : A -> B) la lb lc :
  product3 (map f la) (map f lb) (map f lc) =
  map (fun t => let '(x, y, z) := t in (f x, f y, f z)) (product3 la lb lc).
Proof.
  unfold product3. rewrite flat_map_map, map_flat_map. apply flat_map_ext_in. intros x _.
  rewrite flat_map_map, map_flat_map. apply flat_map_ext_in. intros y _. rewrite !map_map. reflexivity.
Qed.

Lemma Permutation_flat_map_ext {A B} (f g : A -> list B) l :
  (forall x, In x l -> Permutation (f x) (g x)) -> Permutation (flat_map f l) (flat_map g l).
Proof.
  induction l; simpl; intros H; auto. apply Permutation_app; auto.
Qed.

Lemma product3_perm {A} (la lb lc la' lb' lc' : list A) :
  Permutation la la' -> Permutation lb lb' -> Permutation lc lc' ->
  Permutation (product3 la lb lc) (product3 la' lb' lc').
Proof.
  intros Pa Pb Pc. unfold product3.
  eapply perm_trans; [apply Permutation_flat_map; exact Pa|].
  apply Permutation_flat_map_ext. intros x _.
  eapply perm_trans; [apply Permutation_flat_map; exact Pb|].
  apply Permutation_flat_map_ext. intros y _. apply Permutation_map; auto.
Qed.

Lemma ss_words s : forall l, wf s -> ss s = Ok l -> Permutation (map wordof l) (words s).
Proof.
  induction s as [l0|p|a b c IHa IHb IHc|cs IH] using script_ind'; intros l W E.
  - injection E as <-. auto.
  - injection E as <-. auto.
  - rewrite ss_mul in E by auto. destruct (paradigm (Mul a b c)) eqn:P.
    2:{ injection E as <-. rewrite words_single; auto. apply cardinal_paradigm; auto. }
    pose proof (nf_kids _ W) as NK. simpl in NK.
    inversion NK as [|? ? Na NK']; subst. inversion NK' as [|? ? Nb NK2]; subst.
    inversion NK2 as [|? ? Nc _]; subst.
    destruct (ss_spec a Na) as (la & Ea & Fa & _).
    destruct (ss_spec b Nb) as (lb & Eb & Fb & _).
    destruct (ss_spec c Nc) as (lc & Ec & Fc & _).
    pose proof W as W0. apply wf_mul_inv in W0.
    destruct W0 as (Wa & Wb & Wc & _ & _ & _ & Lb & Lc & L6 & _).
    rewrite Lb in Fb. rewrite Lc in Fc. rewrite Forall_forall in Fa, Fb, Fc.
    specialize (IHa la Wa Ea). specialize (IHb lb Wb Eb). specialize (IHc lc Wc Ec).
    rewrite Ea, Eb, Ec in E. cbn [bind] in E.
    destruct (mapM _ (product3 la lb lc)) as [ms|] eqn:Em; cbn [bind] in E; [|discriminate].
    injection E as <-. eapply perm_trans; [apply Permutation_map, isort_perm|].
    cbn [words]. eapply perm_trans; [|apply Permutation_map, product3_perm; eauto].
    rewrite product3_map, map_map.
    apply mapM_inv in Em.
    assert (X : map wordof ms = map (fun x => cat3 (let '(x0, y, z) := x in (wordof x0, wordof y, wordof z)))
                  (product3 la lb lc)); [|rewrite X; auto].
    assert (K : forall t, In t (product3 la lb lc) ->
              let '(x, y, z) := t in sing (layer a) x /\ sing (layer a) y /\ sing (layer a) z).
    { intros [[x y] z] Ht. apply in_product3 in Ht. destruct Ht as (? & ? & ?). auto. }
    revert K Em. generalize (product3 la lb lc). intros pr K Em.
    induction Em as [|[[x y] z] r pr ms Er Em IHm]; auto.
    destruct (K _ (or_introl eq_refl)) as (Sx & Sy & Sz).
    simpl. f_equal.
    + destruct (mul3_ok (layer a) x y z L6 Sx Sy Sz) as [E1 _]. rewrite E1 in Er. injection Er as <-.
      simpl. destruct Sx as ([Wx _] & Cx & _), Sy as ([Wy _] & Cy & _), Sz as ([Wz _] & Cz & _).
      rewrite !wordof_nullify by auto. reflexivity.
    + apply IHm. intros; apply K; right; auto.
  - rewrite ss_add in E. destruct (paradigm (Add cs)) eqn:P.
    2:{ injection E as <-. rewrite words_single; auto. apply cardinal_paradigm; auto. }
    destruct (ss_all cs) as [l'|] eqn:El; cbn [bind] in E; [|discriminate].
    injection E as <-. eapply perm_trans; [apply Permutation_map, isort_perm|].
    pose proof (wf_add_children _ W) as F. cbn [words]. clear W P.
    revert l' El. induction cs as [|c cs IHcs]; intros l' El.
    + injection El as <-. auto.
    + inversion IH; inversion F; subst. simpl in El.
      destruct (ss c) as [lc|] eqn:Ec; cbn [bind] in El; [|discriminate].
      destruct (ss_all cs) as [lr|]; cbn [bind] in El; [|discriminate].
      injection El as <-. rewrite map_app. simpl. apply Permutation_app; auto.
Qed.

(** No repetition iff the sums are disjoint. *)
Lemma NoDup_app_iff {A} (l l' : list A) :
  NoDup (l ++ l') <-> NoDup l /\ NoDup l' /\ (forall x, In x l -> In x l' -> False).
Proof.
  induction l as [|x l IH]; simpl.
  - split; [intros; repeat split; auto; constructor|tauto].
  - split.
    + intros H. inversion H; subst. apply IH in H3. destruct H3 as (H4 & H5 & H6).
      repeat split; auto.
      * constructor; auto. intros I. apply H2. apply in_or_app; auto.
      * intros y [<-|Hy] Hy'; [apply H2, in_or_app; auto|eauto].
    + intros (H1 & H2 & H3). inversion H1; subst. constructor.
      * rewrite in_app_iff. intros [I|I]; eauto.
      * apply IH. repeat split; auto. intros; eapply H3; eauto.
Qed.

Lemma NoDup_flat_map {A B} (f : A -> list B) l :
  NoDup (flat_map f l) <-> Forall (fun x => NoDup (f x)) l /\
     ForallOrdPairs (fun x y => forall z, In z (f x) -> In z (f y) -> False) l.
Proof.
  induction l as [|x l IH]; simpl.
  - split; [intros; split; constructor|intros; constructor].
  - rewrite NoDup_app_iff, IH. split.
    + intros (H1 & (H2 & H3) & H4). split; constructor; auto.
      apply Forall_forall. intros y Hy z Hz Hz'. apply (H4 z); auto. apply in_flat_map; eauto.
    + intros [H1 H2]. inversion H1; inversion H2; subst. repeat split; auto.
      intros z Hz Hz'. apply in_flat_map in Hz'. destruct Hz' as (y & Hy & Hz').
      rewrite Forall_forall in H7. eapply H7; eauto.
Qed.

Lemma NoDup_map_inj {A B} (f : A -> B) l : (forall x y, In x l -> In y l -> f x = f y -> x = y) ->
  (NoDup (map f l) <-> NoDup l).
Proof.
  intros H. split; [apply NoDup_map_inv|].
  intros N. induction N as [|x l Hx N IH]; simpl; constructor.
  - intros I. apply in_map_iff in I. destruct I as (y & E & Hy). apply Hx.
    rewrite (H x y); simpl; auto.
  - apply IH. intros; apply H; simpl; auto.
Qed.

Lemma NoDup_product3 {A} (la lb lc : list A) : la <> [] -> lb <> [] -> lc <> [] ->
  (NoDup (product3 la lb lc) <-> NoDup la /\ NoDup lb /\ NoDup lc).
Proof.
  intros Ha Hb Hc.
  destruct la as [|a0 la']; [congruence|]. destruct lb as [|b0 lb']; [congruence|].
  destruct lc as [|c0 lc']; [congruence|].
  remember (a0 :: la') as la. remember (b0 :: lb') as lb. remember (c0 :: lc') as lc.
  assert (Ia : In a0 la) by (subst; simpl; auto).
  assert (Ib : In b0 lb) by (subst; simpl; auto).
  assert (Ic : In c0 lc) by (subst; simpl; auto).
  clear Heqla Heqlb Heqlc Ha Hb Hc la' lb' lc'.
  unfold product3.
  assert (G : forall (l : list A), NoDup l <-> ForallOrdPairs (fun x y => x <> y) l).
  { intros l. induction l as [|x l IH].
    - split; constructor.
    - split; intros H; inversion H; subst; constructor; try tauto.
      + apply Forall_forall. intros y Hy ->. auto.
      + intros I. rewrite Forall_forall in H2. apply (H2 x I); auto. }
  assert (Gi : forall x : A, NoDup (flat_map (fun y => map (fun z => (x, y, z)) lc) lb) <-> NoDup lb /\ NoDup lc).
  { intros x. rewrite NoDup_flat_map. rewrite (G lb). split.
    - intros [H1 H2]. split.
      + clear H1 G Ib. induction H2 as [|y l Hy H2 IH]; constructor; auto.
        rewrite Forall_forall in *. intros y' Hy' ->. apply (Hy y' Hy' (x, y', c0)); apply in_map_iff; eauto.
      + rewrite Forall_forall in H1. specialize (H1 b0 Ib). apply NoDup_map_inv in H1. auto.
    - intros [H1 H2]. split.
      + apply Forall_forall. intros y _. apply NoDup_map_inj; auto. congruence.
      + clear Ib. induction H1 as [|y l Hy H1 IH]; constructor; auto.
        rewrite Forall_forall in *. intros y' Hy' z Hz Hz'.
        apply in_map_iff in Hz, Hz'. destruct Hz as (? & <- & _), Hz' as (? & E & _).
        apply (Hy y' Hy'). congruence. }
  rewrite NoDup_flat_map. split.
  - intros [H1 H2]. rewrite Forall_forall in H1. pose proof (H1 a0 Ia) as H1a. apply Gi in H1a.
    split; [|auto]. apply G. clear H1 Ia. induction H2 as [|x l Hx H2 IH]; constructor; auto.
    rewrite Forall_forall in *. intros x' Hx' ->.
    apply (Hx x' Hx' (x', b0, c0)); apply in_flat_map; exists b0; split; auto; apply in_map_iff; eauto.
  - intros (H1 & H2 & H3). split.
    + apply Forall_forall. intros x _. apply Gi; auto.
    + apply G in H1. clear Ia. induction H1 as [|x l Hx H1 IH]; constructor; auto.
      rewrite Forall_forall in *. intros x' Hx' z Hz Hz'.
      apply in_flat_map in Hz, Hz'. destruct Hz as (? & _ & Hz), Hz' as (? & _ & Hz').
      apply in_map_iff in Hz, Hz'. destruct Hz as (? & <- & _), Hz' as (? & E & _).
      apply (Hx x' Hx'). congruence.
Qed.

Lemma words_nonempty s : wf s -> words s <> [].
Proof.
  intros W E. destruct (means_inhabited s W) as [w Hw]. apply words_means in Hw. rewrite E in Hw. auto.
Qed.

Lemma FOP_iff {A} (R R' : A -> A -> Prop) (l : list A) : (forall x y, R x y <-> R' x y) ->
  (ForallOrdPairs R l <-> ForallOrdPairs R' l).
Proof. intros H; split; apply FOP_impl; intros x y _ _; apply H. Qed.

Lemma words_nodup s : wf s -> (NoDup (words s) <-> sums_disjoint s).
Proof.
  induction s as [l|p|a b c IHa IHb IHc|cs IH] using script_ind'; intros W.
  - simpl. split; auto. repeat constructor; auto.
  - simpl. split; auto. repeat constructor; auto.
  - apply wf_mul_inv in W. destruct W as (Wa & Wb & Wc & _ & _ & _ & Lb & Lc & _).
    cbn [words sums_disjoint]. rewrite <- IHa, <- IHb, <- IHc by auto.
    rewrite <- NoDup_product3 by auto using words_nonempty. apply NoDup_map_inj.
    intros [[u v] t] [[u' v'] t'] H H' E. apply in_product3 in H, H'.
    destruct H as (Hu & Hv & Ht), H' as (Hu' & Hv' & Ht').
    apply words_means in Hu, Hu', Hv, Hv'. simpl in E.
    apply app_length_inj in E; [|rewrite (means_length a), (means_length a); auto].
    destruct E as [-> E].
    apply app_length_inj in E; [|rewrite (means_length b), (means_length b); auto].
    destruct E as [-> ->]. auto.
  - cbn [words sums_disjoint]. rewrite NoDup_flat_map, fold_Forall.
    pose proof (wf_add_children _ W) as F. rewrite and_comm.
    assert (X : ForallOrdPairs (fun x y => forall z, In z (words x) -> In z (words y) -> False) cs <->
                ForallOrdPairs disjoint cs).
    { apply FOP_iff. intros x y. unfold disjoint.
      split; intros H w H1 H2; apply (H w); apply words_means; auto. }
    rewrite X. rewrite !Forall_forall in *.
    split; intros [H1 H2]; split; auto; intros x Hx; apply IH; auto.
Qed.
