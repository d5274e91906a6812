(** What equality of strings means; equal scripts have equal singular sequences. *)
From Coq Require Import List String Bool NArith Arith Lia Sorted Permutation.
From Verif Require Import Base Script ScriptParser SortProofs ScriptWf ScriptStrProofs ScriptOrderProofs ScriptSpec ScriptCtorProofs ScriptParseProofs ScriptSeqProofs ScriptMoreProofs ScriptAlgProofs.
Import ListNotations.

Fixpoint same_ind' (Q : script -> script -> Prop)
  (Hr : forall s, Q s s) (Hs : forall s t, same_script s t -> Q s t -> Q t s)
  (Ht : forall s t u, same_script s t -> Q s t -> same_script t u -> Q t u -> Q s u)
  (Hm : forall a b c a' b' c', Q a a' -> Q b b' -> Q c c' -> Q (Mul a b c) (Mul a' b' c'))
  (Ha : forall l l', Forall2 Q l l' -> Q (Add l) (Add l'))
  (He : forall l, Q (Mul (Null l) (Null l) (Null l)) (Null (S l)))
  (Ho : forall x, Q (Add [x]) x)
  s t (H : same_script s t) {struct H} : Q s t :=
  let rec := same_ind' Q Hr Hs Ht Hm Ha He Ho in
  match H in same_script s t return Q s t with
  | same_refl s => Hr s
  | same_sym s t h => Hs s t h (rec _ _ h)
  | same_trans s t u h k => Ht s t u h (rec _ _ h) k (rec _ _ k)
  | same_mul a b c a' b' c' h k l => Hm a b c a' b' c' (rec _ _ h) (rec _ _ k) (rec _ _ l)
  | same_add l l' F =>
    Ha l l' ((fix go l l' (F : Forall2 same_script l l') {struct F} : Forall2 Q l l' :=
      match F in Forall2 _ l l' return Forall2 Q l l' with
      | Forall2_nil _ => Forall2_nil _
      | Forall2_cons x y h F' => Forall2_cons x y (rec _ _ h) (go _ _ F')
      end) l l' F)
  | same_empty l => He l
  | same_one x => Ho x
  end.

Lemma same_inv s t : same_script s t -> layer s = layer t /\ is_empty s = is_empty t /\ norm s = norm t.
Proof.
  intros H. revert s t H. apply same_ind'; auto.
  - intros s t _ (? & ? & ?). auto.
  - intros s t u _ (? & ? & ?) _ (? & ? & ?). repeat split; congruence.
  - intros a b c a' b' c' (L1 & E1 & N1) (L2 & E2 & N2) (L3 & E3 & N3).
    simpl. rewrite L1, E1, E2, E3, N1, N2, N3. auto.
  - intros l l' H. rewrite !norm_add.
    assert (X : map norm l = map norm l' /\ forallb is_empty l = forallb is_empty l').
    { induction H as [|x y l l' (Lx & Ex & Nx) F IH]; auto. destruct IH. simpl. split; congruence. }
    destruct X as [X Y]. split; [|split; auto; congruence].
    inversion H as [|x y r r' (Lx & _) F]; subst; auto.
  - intros x. cbn. rewrite andb_true_r. auto.
Qed.

Lemma same_norm s : wf s -> same_script s (norm s).
Proof.
  induction s as [l|p|a b c IHa IHb IHc|cs IH] using script_ind'; intros W; try apply same_refl.
  - pose proof W as W0. apply wf_mul_inv in W.
    destruct W as (Wa & Wb & Wc & Ka & Kb & Kc & Lb & Lc & _).
    cbn [norm]. destruct (is_empty a) eqn:Ea; [destruct (is_empty b) eqn:Eb; [destruct (is_empty c) eqn:Ec|]|];
      cbn [andb]; try (apply same_mul; auto).
    rewrite (proj1 Ka Ea), (proj1 Kb Eb), (proj1 Kc Ec), Lb, Lc. simpl. apply same_empty.
  - rewrite norm_add. pose proof (wf_add_children _ W) as F.
    assert (X : Forall2 same_script cs (map norm cs)).
    { clear W. induction cs as [|x cs IHcs]; constructor; inversion IH; inversion F; subst; auto. }
    apply same_trans with (Add (map norm cs)); [apply same_add; auto|].
    destruct cs as [|x [|y cs]]; simpl; try apply same_refl. apply same_one.
Qed.

Lemma str_same a b : wf a -> wf b -> (str a = str b <-> same_script a b).
Proof.
  intros Wa Wb. split.
  - intros E. apply same_trans with (norm a); [apply same_norm; auto|].
    rewrite (str_inj_norm a b Wa Wb E). apply same_sym, same_norm; auto.
  - intros H. apply same_inv in H. destruct H as (_ & _ & N).
    rewrite <- (str_norm a), <- (str_norm b), N; auto.
Qed.

Lemma eq_attributes a b : wf a -> wf b -> str a = str b -> same_attributes a b /\ same_meaning a b.
Proof.
  intros Wa Wb E. pose proof (str_inj_norm a b Wa Wb E) as N.
  split.
  - unfold same_attributes.
    rewrite <- (layer_norm a), <- (cardinal_norm a), <- (canonical_norm a), <- (class_norm a),
      <- (paradigm_norm a), <- (empty_norm a), N by auto.
    rewrite layer_norm, cardinal_norm, canonical_norm, class_norm, paradigm_norm, empty_norm by auto.
    repeat split; auto.
  - split.
    + rewrite <- (layer_norm a), N, layer_norm; auto.
    + intros w. rewrite <- (means_norm a), N, means_norm by auto. tauto.
Qed.

(** Equal scripts list equal singular sequences, in the same order. *)
Lemma words_norm s : wf s -> words (norm s) = words s.
Proof.
  induction s as [l|p|a b c IHa IHb IHc|cs IH] using script_ind'; intros W; auto.
  - pose proof W as W0. apply wf_mul_inv in W.
    destruct W as (Wa & Wb & Wc & Ka & Kb & Kc & Lb & Lc & _).
    cbn [norm]. destruct (is_empty a) eqn:Ea; [destruct (is_empty b) eqn:Eb; [destruct (is_empty c) eqn:Ec|]|];
      cbn [andb]; try (cbn [words]; rewrite IHa, IHb, IHc by auto; reflexivity).
    rewrite (proj1 Ka Ea), (proj1 Kb Eb), (proj1 Kc Ec), Lb, Lc. simpl. rewrite repeat3. reflexivity.
  - rewrite norm_add. pose proof (wf_add_children _ W) as F.
    assert (X : words (lone (map norm cs)) = words (Add (map norm cs))).
    { destruct cs as [|x [|y cs]]; simpl; auto. rewrite app_nil_r. auto. }
    rewrite X. cbn [words]. clear W X. induction cs as [|x cs IHcs]; auto.
    inversion IH; inversion F; subst. simpl. rewrite H1, IHcs by auto. auto.
Qed.

Lemma perm_transfer {A B C} (f : A -> B) (g : A -> C) : forall la lb,
  Permutation (map f la) (map f lb) ->
  (forall x y, In x la -> In y lb -> f x = f y -> g x = g y) ->
  Permutation (map g la) (map g lb).
Proof.
  induction la as [|x la IH]; intros lb P H.
  - simpl in P. apply Permutation_nil in P. destruct lb; [auto|discriminate].
  - assert (I : In (f x) (map f lb)) by (apply (Permutation_in _ P); left; auto).
    apply in_map_iff in I. destruct I as (y & E & Hy).
    apply in_split in Hy. destruct Hy as (l1 & l2 & ->).
    rewrite map_app in *. simpl in *.
    eapply perm_trans; [|apply Permutation_middle].
    rewrite (H x y) by (auto; apply in_or_app; simpl; auto). constructor.
    rewrite <- map_app. apply IH.
    + rewrite map_app. apply (Permutation_cons_inv (a := f x)).
      eapply perm_trans; [exact P|]. rewrite E. apply Permutation_sym, Permutation_middle.
    + intros x' y' Hx' Hy'. apply H; auto. apply in_app_or in Hy'. apply in_or_app. simpl. tauto.
Qed.

Lemma weak_unique : forall l1 l2, Forall nf l1 -> Forall nf l2 ->
  weak_sorted lt l1 -> weak_sorted lt l2 ->
  Permutation (map norm l1) (map norm l2) -> map norm l1 = map norm l2.
Proof.
  induction l1 as [|x l1 IH]; intros l2 F1 F2 S1 S2 P.
  - simpl in P. apply Permutation_nil in P. auto.
  - destruct l2 as [|y l2].
    { apply Permutation_sym, Permutation_nil in P. discriminate. }
    inversion S1 as [|? ? S1' H1]; inversion S2 as [|? ? S2' H2];
      inversion F1 as [|? ? Nx F1']; inversion F2 as [|? ? Ny F2']; subst.
    assert (E : norm x = norm y).
    { assert (Ix : In (norm x) (map norm (y :: l2))) by (apply (Permutation_in _ P); left; auto).
      assert (Iy : In (norm y) (map norm (x :: l1)))
        by (apply (Permutation_in _ (Permutation_sym P)); left; auto).
      destruct Ix as [Ix|Ix]; auto. destruct Iy as [Iy|Iy]; auto.
      apply in_map_iff in Ix, Iy. destruct Ix as (x' & Ex & Hx'), Iy as (y' & Ey & Hy').
      rewrite Forall_forall in H1, H2, F1', F2'.
      specialize (H1 y' Hy'). specialize (H2 x' Hx').
      rewrite <- lt_norm, Ey, lt_norm in H1 by auto.
      rewrite <- lt_norm, Ex, lt_norm in H2 by auto.
      destruct (script_eqb x y) eqn:B; [apply script_eqb_norm in B; auto using nf_wf|].
      destruct (lt_total x y Nx Ny B); congruence. }
    simpl. f_equal; auto. apply IH; auto. simpl in P. rewrite E in P.
    apply Permutation_cons_inv in P. auto.
Qed.

Lemma ss_elements s l : wf s -> ss s = Ok l -> Forall nf l \/ (exists x, s = Add [x] /\ l = [s]).
Proof.
  intros W E.
  assert (D : nf s \/ exists x, s = Add [x]).
  { destruct s as [| | |[|x [|y cs]]]; try (left; split; auto; discriminate). right; eauto. }
  destruct D as [N|[x ->]].
  - destruct (ss_spec s N) as (l' & E' & F & _). rewrite E in E'. injection E' as <-.
    left. eapply sing_nf; eauto.
  - rewrite ss_add in E. destruct (paradigm (Add [x])) eqn:P.
    + simpl in E. destruct (wf_add_in _ x W (or_introl eq_refl)) as (Wx & Ax & _).
      destruct (ss_spec x (nf_notadd x Wx Ax)) as (l' & E' & F & _). rewrite E' in E. simpl in E.
      injection E as <-. rewrite app_nil_r. left.
      apply (Permutation_Forall (Permutation_sym (isort_perm l'))). eapply sing_nf; eauto.
    + injection E as <-. right. exists x. auto.
Qed.

Lemma ss_eq a b la lb : wf a -> wf b -> str a = str b -> ss a = Ok la -> ss b = Ok lb ->
  map str la = map str lb.
Proof.
  intros Wa Wb E Ea Eb. pose proof (str_inj_norm a b Wa Wb E) as N.
  destruct (eq_attributes a b Wa Wb E) as [(_ & L & C & _) _].
  destruct (ss_spec_wf a Wa) as (la' & Ea' & Fa & Ca & _ & Sa). rewrite Ea in Ea'. injection Ea' as <-.
  destruct (ss_spec_wf b Wb) as (lb' & Eb' & Fb & Cb & _ & Sb). rewrite Eb in Eb'. injection Eb' as <-.
  rewrite Forall_forall in Fa, Fb. rewrite <- L in Fb.
  assert (P : Permutation (map norm la) (map norm lb)).
  { apply (perm_transfer wordof norm).
    - eapply perm_trans; [apply (ss_words a); auto|].
      rewrite <- words_norm, N, words_norm by auto. apply Permutation_sym, (ss_words b); auto.
    - intros x y Hx Hy W. apply script_eqb_norm; [apply (Fa x Hx)|apply (Fb y Hy)|].
      apply (sing1_eq (layer a)); auto. exists (wordof x). split.
      + apply wordof_means; auto; apply (Fa x Hx).
      + rewrite W. apply wordof_means; auto; apply (Fb y Hy). }
  assert (M : map norm la = map norm lb).
  { destruct (ss_elements a la Wa Ea) as [Na|(x & -> & ->)];
    destruct (ss_elements b lb Wb Eb) as [Nb|(y & -> & ->)].
    - apply weak_unique; auto.
    - simpl in *. apply Permutation_sym, Permutation_length_1_inv in P. auto.
    - simpl in *. apply Permutation_length_1_inv in P. auto.
    - simpl in *. apply Permutation_length_1_inv in P. auto. }
  assert (Q : forall l, (forall x, In x l -> wf x) -> map str (map norm l) = map str l).
  { intros l H. rewrite map_map. apply map_ext_in. intros; apply str_norm; auto. }
  rewrite <- (Q la), <- (Q lb), M; auto.
  - intros x Hx. apply (Fb x Hx).
  - intros x Hx. apply (Fa x Hx).
Qed.

(** Every singular sequence is its own only singular sequence. *)
Lemma ss_singleton x : wf x -> cardinal x = 1%N -> ss x = Ok [x].
Proof.
  intros W C. pose proof (proj1 (cardinal_paradigm x W) C) as P.
  destruct x as [| |a b c|cs]; auto.
  - rewrite ss_mul, P by auto. auto.
  - rewrite ss_add, P. auto.
Qed.

Lemma ss_of_sum cs l t : wf (Add cs) -> ss (Add cs) = Ok l ->
  (In t (map str l) <-> exists c lc, In c cs /\ ss c = Ok lc /\ In t (map str lc)).
Proof.
  intros W E. destruct (ss_spec_wf _ W) as (l' & E' & F & _ & M & _). rewrite E in E'. injection E' as <-.
  rewrite Forall_forall in F. split.
  - intros H. apply in_map_iff in H. destruct H as (x & <- & Hx).
    destruct (F x Hx) as (Wx & Cx & Lx). destruct (means_inhabited x Wx) as [w Hw].
    assert (K : means (Add cs) w) by (apply M; eauto). apply means_add in K. destruct K as (c & Hc & K).
    destruct (wf_add_in _ _ W Hc) as (Wc & _ & Lc).
    destruct (ss_spec_wf c Wc) as (lc & Ec & Fc & _ & Mc & _). rewrite Forall_forall in Fc.
    apply Mc in K. destruct K as (y & Hy & K). exists c, lc. split; auto. split; auto.
    apply in_map_iff. exists y. split; auto. symmetry. apply script_eqb_eq.
    apply (sing1_eq (layer (Add cs))); [auto| |eauto]. rewrite <- Lc. auto.
  - intros (c & lc & Hc & Ec & H). apply in_map_iff in H. destruct H as (y & <- & Hy).
    destruct (wf_add_in _ _ W Hc) as (Wc & _ & Lc).
    destruct (ss_spec_wf c Wc) as (lc' & Ec' & Fc & _ & Mc & _). rewrite Ec in Ec'. injection Ec' as <-.
    rewrite Forall_forall in Fc. pose proof (Fc y Hy) as Sy. destruct Sy as (Wy & Cy & Ly).
    destruct (means_inhabited y Wy) as [w Hw].
    assert (K : means (Add cs) w). { apply means_add. exists c. split; auto. apply Mc. eauto. }
    apply M in K. destruct K as (x & Hx & K). apply in_map_iff. exists x. split; auto.
    apply script_eqb_eq. apply (sing1_eq (layer (Add cs))); [auto| |eauto]. rewrite <- Lc. repeat split; auto.
Qed.

Lemma ss_of_product a b c l t : wf (Mul a b c) -> ss (Mul a b c) = Ok l ->
  (In t (map str l) <-> exists la lb lc x y z r, ss a = Ok la /\ ss b = Ok lb /\ ss c = Ok lc /\
     In x la /\ In y lb /\ In z lc /\ mk_mul_l [x; y; z] = Ok r /\ str r = t).
Proof.
  intros W E. destruct (ss_spec_wf _ W) as (l' & E' & F & _ & M & _). rewrite E in E'. injection E' as <-.
  rewrite Forall_forall in F.
  pose proof (wf_mul_inv _ _ _ W) as (Wa & Wb & Wc & [_ Ka] & [_ Kb] & [_ Kc] & Lb & Lc & L & _).
  destruct (ss_spec a (conj Wa Ka)) as (la & Ea & Fa & _ & Ma & _).
  destruct (ss_spec b (conj Wb Kb)) as (lb & Eb & Fb & _ & Mb & _).
  destruct (ss_spec c (conj Wc Kc)) as (lc & Ec & Fc & _ & Mc & _).
  rewrite Lb in Fb. rewrite Lc in Fc. rewrite Forall_forall in Fa, Fb, Fc.
  assert (SS : forall n x, sing n x -> sing1 n x).
  { intros n x (N & C & Lx). split; [apply nf_wf; auto|auto]. }
  split.
  - intros H. apply in_map_iff in H. destruct H as (s & <- & Hs).
    destruct (F s Hs) as (Ws & Cs & Ls). destruct (means_inhabited s Ws) as [w Hw].
    assert (K : means (Mul a b c) w) by (apply M; eauto). destruct K as (u & v & t & Hu & Hv & Ht & ->).
    apply Ma in Hu. apply Mb in Hv. apply Mc in Ht.
    destruct Hu as (x & Hx & Hu), Hv as (y & Hy & Hv), Ht as (z & Hz & Ht).
    destruct (mul3_ok (layer a) x y z) as [Er Sr]; auto.
    exists la, lb, lc, x, y, z, (mul3 (x, y, z)). repeat (split; [auto; fail|]).
    symmetry. apply script_eqb_eq. apply (sing1_eq (S (layer a))); [apply (F s Hs)|auto|].
    exists (u ++ v ++ t)%list. split; auto. apply (means_mul3 (layer a)); auto. exists u, v, t. auto.
  - intros (la' & lb' & lc' & x & y & z & r & Ea' & Eb' & Ec' & Hx & Hy & Hz & Er & <-).
    assert (la' = la) by congruence. assert (lb' = lb) by congruence. assert (lc' = lc) by congruence. subst.
    destruct (mul3_ok (layer a) x y z) as [Er' Sr]; auto. rewrite Er in Er'. injection Er' as ->.
    destruct (means_inhabited (mul3 (x, y, z))) as [w Hw]; [exact (proj1 (SS _ _ Sr))|].
    pose proof Hw as K. apply (proj1 (means_mul3 (layer a) x y z w (Fa x Hx) (Fb y Hy) (Fc z Hz))) in K. destruct K as (u & v & t & Hu & Hv & Ht & ->).
    assert (K : means (Mul a b c) (u ++ v ++ t)%list).
    { exists u, v, t. split; [apply (proj2 (Ma u)); exists x; auto|]. split; [apply (proj2 (Mb v)); exists y; auto|].
      split; [apply (proj2 (Mc t)); exists z; auto|auto]. }
    apply M in K. destruct K as (s & Hs & K). apply in_map_iff. exists s. split; auto.
    apply script_eqb_eq. apply (sing1_eq (S (layer a))); [apply (F s Hs)|auto|]. exists (u ++ v ++ t)%list; auto.
Qed.
