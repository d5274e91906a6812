(** Proofs about whole dictionaries. *)
From Coq Require Import List String Ascii Bool NArith Arith Lia Permutation Sorted.
From Verif Require Import Base Script ScriptParser SortProofs ScriptWf ScriptStrProofs ScriptOrderProofs ScriptSpec ScriptCtorProofs ScriptParseProofs ScriptSeqProofs ScriptMoreProofs ScriptAlgProofs ScriptEqProofs UslParserProofs Tables TablesSpec TablesProofs TablesGridProofs TablesAllProofs Dictionary DictionarySpec DictTableProofs DictLoadProofs DictRelProofs DictSibProofs.
Import ListNotations.

Lemma some_word s : wf s -> exists w, means s w.
Proof. intros W. pose proof (words_nonempty s W) as N. destruct (words s) as [|w ws] eqn:E; [congruence|]. exists w. apply words_means. rewrite E. simpl. auto. Qed.
Lemma couples_either {A} (l : list A) x y : In x l -> In y l -> x <> y -> In (x, y) (couples l) \/ In (y, x) (couples l).
Proof.
  induction l as [|z l IH]; intros Hx Hy N; [destruct Hx|]. rewrite !couples_cons. destruct Hx as [<-|Hx], Hy as [<-|Hy]; auto; [congruence|]. destruct (IH Hx Hy N); auto.
Qed.
Lemma nset_in x l : In x (nset l) <-> In x l.
Proof.
  unfold nset. split.
  - intros H. apply (Permutation_in _ (sort_perm _ _)) in H. eapply dedup_in; eauto.
  - intros H. apply (Permutation_in _ (Permutation_sym (sort_perm _ _))). destruct (dedup_complete Nat.eqb Nat.eqb_refl l x H) as (y & Hy & E). apply Nat.eqb_eq in E. now subst y.
Qed.
Lemma one_word t : wf t -> (forall w w', means t w -> means t w' -> w = w') -> cardinal t = 1%N.
Proof.
  induction t as [n|p|a b c IHa IHb IHc|cs IH] using script_ind'; intros W U; try reflexivity.
  - destruct (wf_mul_inv a b c W) as (Wa & Wb & Wc & _ & _ & _ & Lb & Lc & _). destruct (some_word a Wa) as [u Hu]. destruct (some_word b Wb) as [v Hv]. destruct (some_word c Wc) as [z Hz].
    assert (K : forall u v z u' v' z', means a u -> means b v -> means c z -> means a u' -> means b v' -> means c z' -> u = u' /\ v = v' /\ z = z').
    { intros u1 v1 z1 u2 v2 z2 A1 B1 C1 A2 B2 C2. assert (E : (u1 ++ v1 ++ z1)%list = (u2 ++ v2 ++ z2)%list) by (apply U; cbn [means]; repeat eexists; eauto).
      apply app_length_inj in E as [-> E]; [|rewrite (means_length a u1), (means_length a u2); auto]. apply app_length_inj in E as [-> ->]; [auto|rewrite (means_length b v1), (means_length b v2); auto]. }
    cbn [cardinal]. rewrite IHa, IHb, IHc; auto; intros x y Hx Hy.
    + apply (K u v x u v y); auto.
    + apply (K u x z u y z); auto.
    + apply (K x v z y v z); auto.
  - destruct cs as [|x [|y cs]].
    + exfalso. simpl in W. tauto.
    + cbn [cardinal fold_right]. destruct (wf_add_in _ x W (or_introl eq_refl)) as (Wx & _). apply Forall_cons_iff in IH as [IHx _]. rewrite <- (IHx Wx); [simpl; lia|]. intros w w' H H'. apply U; simpl; auto.
    + exfalso. destruct (wf_add_in _ x W (or_introl eq_refl)) as (Wx & Ax & Lx). destruct (wf_add_in _ y W (or_intror (or_introl eq_refl))) as (Wy & Ay & Ly).
      rewrite Forall_forall in IH. destruct (some_word x Wx) as [u Hu]. destruct (some_word y Wy) as [v Hv].
      assert (Cx : cardinal x = 1%N) by (apply IH; simpl; auto; intros w w' H H'; apply U; simpl; auto). assert (Cy : cardinal y = 1%N) by (apply IH; simpl; auto; intros w w' H H'; apply U; simpl; auto).
      destruct (sum_pair _ x y W eq_refl eq_refl) as (_ & _ & L). apply lt_neq in L. assert (E : u = v) by (apply U; simpl; auto). subst v.
      assert (X : script_eqb x y = true); [|congruence]. apply (sing1_word (layer x)); [split; auto|split; [exact Wy|split; [exact Cy|congruence]]|]. apply wordof_means in Hu; auto. apply wordof_means in Hv; auto. congruence.
Qed.
Lemma singular_text s t : wf s -> wf t -> cardinal s = 1%N -> included t s -> str t = str s.
Proof.
  intros Ws Wt C [L M]. assert (U : forall w w', means s w -> means s w' -> w = w').
  { intros w w' H H'. apply words_means in H, H'. rewrite (words_single s Ws C) in H, H'. destruct H as [<-|[]], H' as [<-|[]]. reflexivity. }
  assert (Ct : cardinal t = 1%N) by (apply one_word; auto). apply (sing1_text (layer s)); [split; auto|split; auto|]. destruct (some_word t Wt) as [w Hw]. pose proof (M w Hw) as Hs. apply wordof_means in Hw; auto. apply wordof_means in Hs; auto. congruence.
Qed.

Lemma table_of_some fo s t : table_of fo s = Some t -> exists e, In e fo /\ In t (snd e) /\ str (tscript t) = str s.
Proof.
  unfold table_of. intros H. apply find_some in H as [H E]. apply in_rev in H. apply in_flat_map in H as (e & He & Ht). apply script_eqb_str in E. eauto.
Qed.
Lemma table_of_total fo s e t : In e fo -> In t (snd e) -> str (tscript t) = str s -> exists t', table_of fo s = Some t'.
Proof.
  intros He Ht E. unfold table_of. destruct (find _ _) as [t'|] eqn:F; [eauto|]. exfalso. assert (H : In t (rev (flat_map snd fo))) by (rewrite <- in_rev; apply in_flat_map; eauto). apply (find_none _ _ F) in H. apply script_eqb_str in E. congruence.
Qed.
Lemma table_of_text fo s s' : str s = str s' -> table_of fo s = table_of fo s'.
Proof. intros E. unfold table_of. assert (X : forall t, script_eqb (tscript t) s = script_eqb (tscript t) s') by (intros t; unfold script_eqb; now rewrite E). induction (rev (flat_map snd fo)) as [|t l IH]; [reflexivity|]. cbn [find]. rewrite X, IH. reflexivity. Qed.
Lemma mapM_each {A B} (f : A -> res B) l l' x : mapM f l = Ok l' -> In x l -> exists y, f x = Ok y.
Proof. intros E H. destruct (combine_all _ _ _ _ E H) as (y & Ey & _). eauto. Qed.

Lemma NoDup_map_fst {A B} (l : list (A * B)) x y y' : NoDup (map fst l) -> In (x, y) l -> In (x, y') l -> y = y'.
Proof. intros N H H'. pose proof (nodup_inj fst l _ _ N H H' eq_refl) as E. congruence. Qed.
Lemma idx_member d s i : idx (d_scripts d) s = Ok i -> member d s.
Proof. intros E. destruct (index_some _ _ _ E) as (x & Hx & Ex). exists x. split; [eapply nth_error_In; eauto|exact Ex]. Qed.
Lemma member_idx d s : member d s -> exists i, idx (d_scripts d) s = Ok i.
Proof. intros (x & Hx & Ex). apply index_total. eauto. Qed.

(** * The places of the relations *)
Lemma contains_placed sc fo m : compute_contains sc fo = Ok m -> placed sc m.
Proof.
  intros E i j H. apply (compute_contains_spec _ _ _ _ _ E) in H as [[-> _]|(e & m' & _ & Em & H)]; [auto|]. apply (contains_in_spec _ _ _ _ _ Em) in H as (p & k & _ & _ & Ip & Ik & _). right. eauto.
Qed.
Lemma siblings_placed sc fo inh rel f m : siblings fo inh rel (siblings_in sc f) = Ok m -> placed sc m.
Proof.
  intros E i j H. right. apply (siblings_spec _ _ _ _ _ _ _ E) in H as (e & m' & _ & _ & _ & Em & H). apply (siblings_in_spec _ _ _ _ _ _ Em) in H as (x & y & _ & _ & _ & _ & [[Ix Iy]|[Ix Iy]]); eauto.
Qed.
Lemma twins_placed sc fo inh rel m : siblings fo inh rel (twins_in sc) = Ok m -> placed sc m.
Proof.
  intros E i j H. right. apply (siblings_spec _ _ _ _ _ _ _ E) in H as (e & m' & _ & _ & _ & Em & H). apply (twins_in_spec _ _ _ _ _ Em) in H as (x & y & _ & _ & _ & _ & _ & _ & [[Ix Iy]|[Ix Iy]]); eauto.
Qed.
Lemma father_placed sc n m : compute_father sc n = Ok m -> placed sc m.
Proof. intros E i j H. right. apply (father_spec _ _ _ _ _ E) in H as (s & a & b & c & f & _ & Is & _ & _ & If). eauto. Qed.
Lemma transposed_placed sc m : placed sc m -> placed sc (transposed m).
Proof. intros P i j H. apply (proj1 (transposed_in _ _ _)) in H. destruct (P _ _ H) as [->|[A B]]; auto. Qed.
Lemma identity_placed sc : placed sc (map (fun i => (i, i)) (seq 0 (List.length sc))).
Proof. intros i j H. apply in_map_iff in H as (k & E & _). left. congruence. Qed.
Lemma between_spec sc fo m ts l n i j : ranks_between sc fo m ts = Ok l ->
  (In (n, (i, j)) l <-> exists x y k, two_of x y ts /\ idx sc (tscript x) = Ok i /\ idx sc (tscript y) = Ok j /\ In k (row_of sc m i) /\ In k (row_of sc m j) /\ rank_at sc fo k = Ok n).
Proof.
  intros E. unfold ranks_between in E. destruct (mapM _ (couples ts)) as [ls|] eqn:El; cbn [bind] in E; [|discriminate]. apply Ok_inj in E. subst l. rewrite (mapM_concat_in _ _ _ (n, (i, j)) El).
  assert (B : forall x y z, (do i <- idx sc (tscript x); do j <- idx sc (tscript y); do rs <- mapM (rank_at sc fo) (filter (fun k => memb Nat.eqb k (row_of sc m j)) (row_of sc m i));
     if existsb (fun r => Nat.leb 6 r) rs then Err IndexError else Ok (flat_map (fun r => [(r, (i, j)); (r, (j, i))]) (nset rs))) = Ok z ->
     (In (n, (i, j)) z <-> (idx sc (tscript x) = Ok i /\ idx sc (tscript y) = Ok j \/ idx sc (tscript x) = Ok j /\ idx sc (tscript y) = Ok i) /\ exists k, In k (row_of sc m i) /\ In k (row_of sc m j) /\ rank_at sc fo k = Ok n)).
  { intros x y z Ez. destruct (idx sc (tscript x)) as [a|] eqn:Ia; cbn [bind] in Ez; [|discriminate]. destruct (idx sc (tscript y)) as [b|] eqn:Ib; cbn [bind] in Ez; [|discriminate]. destruct (mapM (rank_at sc fo) _) as [rs|] eqn:Er; cbn [bind] in Ez; [|discriminate]. destruct (existsb _ rs); [discriminate|]. apply Ok_inj in Ez. subst z.
    assert (Q : In n rs <-> exists k, In k (row_of sc m a) /\ In k (row_of sc m b) /\ rank_at sc fo k = Ok n).
    { assert (Me : forall k, memb Nat.eqb k (row_of sc m b) = true <-> In k (row_of sc m b)). { intros k. rewrite memb_true. split; [intros (y' & Hy & Ey); apply Nat.eqb_eq in Ey; now subst|]. intros Hk. exists k. split; [exact Hk|apply Nat.eqb_refl]. }
      split.
      - intros H. destruct (mapM_in _ _ _ _ Er H) as (k & Hk & Ek). apply filter_In in Hk as [Hk Hm]. apply Me in Hm. eauto.
      - intros (k & Ha & Hb & Ek). assert (Hk : In k (filter (fun k => memb Nat.eqb k (row_of sc m b)) (row_of sc m a))) by (apply filter_In; split; [exact Ha|now apply Me]). destruct (combine_all _ _ _ _ Er Hk) as (n' & En & Hn). rewrite Ek in En. apply Ok_inj in En. subst n'. eapply in_combine_r; eauto. }
    rewrite in_flat_map. split.
    - intros (r & Hr & [X|[X|[]]]); injection X as -> -> ->; apply (proj1 (nset_in _ _)) in Hr; apply Q in Hr as (k & Ha & Hb & Ek); split; eauto.
    - intros [[[X Y]|[X Y]] (k & Hi & Hj & Ek)]; apply Ok_inj in X; apply Ok_inj in Y; subst a b; exists n; (split; [apply nset_in, Q; eauto|simpl; auto]). }
  split.
  - intros ([x y] & z & C & Ez & H). cbn [fst snd] in Ez. apply (B _ _ _ Ez) in H as [[[X Y]|[X Y]] (k & Hi & Hj & Ek)].
    + exists x, y, k. split; [apply couples_two; auto|auto].
    + exists y, x, k. split; [apply couples_two; auto|auto].
  - intros (x & y & k & C & X & Y & Hi & Hj & Ek). apply couples_two in C as [C|C]; destruct (mapM_each _ _ _ _ El C) as [z Ez]; cbn [fst snd] in Ez.
    + exists (x, y), z. split; [exact C|]. split; [exact Ez|]. apply (B _ _ _ Ez). split; [auto|eauto].
    + exists (y, x), z. split; [exact C|]. split; [exact Ez|]. apply (B _ _ _ Ez). split; [auto|eauto].
Qed.
Lemma between_low sc fo m ts l x y : ranks_between sc fo m ts = Ok l -> In (x, y) (couples ts) ->
  exists i j, idx sc (tscript x) = Ok i /\ idx sc (tscript y) = Ok j /\ forall k, In k (row_of sc m i) -> In k (row_of sc m j) -> exists n, rank_at sc fo k = Ok n /\ n < 6.
Proof.
  intros E C. unfold ranks_between in E. destruct (mapM _ (couples ts)) as [ls|] eqn:El; cbn [bind] in E; [|discriminate]. destruct (mapM_each _ _ _ _ El C) as [z Ez]. cbn [fst snd] in Ez.
  destruct (idx sc (tscript x)) as [a|] eqn:Ia; cbn [bind] in Ez; [|discriminate]. destruct (idx sc (tscript y)) as [b|] eqn:Ib; cbn [bind] in Ez; [|discriminate]. destruct (mapM (rank_at sc fo) _) as [rs|] eqn:Er; cbn [bind] in Ez; [|discriminate]. destruct (existsb _ rs) eqn:X; [discriminate|].
  exists a, b. split; [reflexivity|]. split; [reflexivity|]. intros k Ka Kb. assert (Hk : In k (filter (fun k => memb Nat.eqb k (row_of sc m b)) (row_of sc m a))) by (apply filter_In; split; [exact Ka|apply memb_true; exists k; split; [exact Kb|apply Nat.eqb_refl]]).
  destruct (combine_all _ _ _ _ Er Hk) as (n & En & Hn). exists n. split; [exact En|]. apply in_combine_r in Hn. destruct (Nat.leb_spec 6 n) as [L|L]; [|exact L]. exfalso. assert (existsb (fun r => Nat.leb 6 r) rs = true); [|congruence]. apply existsb_exists. exists n. split; [exact Hn|now apply Nat.leb_le].
Qed.
Lemma ranks_of_placed sc fo m l : forall stale z n i j, ranks_of sc fo m stale l = Ok z -> In (n, (i, j)) z -> i = j.
Proof.
  induction l as [|t l IH]; intros stale z n i j E H; cbn [ranks_of] in E; [apply Ok_inj in E; subst; destruct H|]. destruct (idx sc t) as [a|]; cbn [bind] in E; [|discriminate].
  match type of E with (do r <- ?x; _) = _ => destruct x as [rs|]; cbn [bind] in E; [|discriminate] end. destruct (existsb _ rs); [discriminate|]. destruct (ranks_of sc fo m (Some rs) l) as [z'|] eqn:Ez; cbn [bind] in E; [|discriminate]. apply Ok_inj in E. subst z. apply in_app_iff in H as [H|H]; [|eapply IH; eauto]. apply in_map_iff in H as (r & X & _). congruence.
Qed.
Lemma ranks_of_spec sc fo m l : (forall t i k, In t l -> idx sc t = Ok i -> In k (row_of sc m i) -> exists n, rank_at sc fo k = Ok n) ->
  forall stale z n i j, ranks_of sc fo m stale l = Ok z -> (In (n, (i, j)) z <-> i = j /\ n <> 6 /\ exists t k, In t l /\ idx sc t = Ok i /\ In k (row_of sc m i) /\ rank_at sc fo k = Ok n).
Proof.
  induction l as [|t l IH]; intros T stale z n i j E; cbn [ranks_of] in E.
  - apply Ok_inj in E. subst z. split; [intros []|intros (_ & _ & t & k & [] & _)].
  - destruct (idx sc t) as [a|] eqn:Ia; cbn [bind] in E; [|discriminate]. destruct (mapM_total (rank_at sc fo) (row_of sc m a)) as [rs Er]; [intros k Hk; eapply T; [left; reflexivity|exact Ia|exact Hk]|]. rewrite Er in E. cbn [bind] in E.
    destruct (existsb _ _) in E; [discriminate|]. destruct (ranks_of sc fo m _ l) as [z'|] eqn:Ez in E; cbn [bind] in E; [|discriminate]. apply Ok_inj in E. subst z. rewrite in_app_iff, (IH (fun t' i' k' H => T t' i' k' (or_intror H)) _ _ n i j Ez), in_map_iff.
    assert (Q : forall r, In r (filter (fun r => negb (Nat.eqb r 6)) (nset rs)) <-> r <> 6 /\ exists k, In k (row_of sc m a) /\ rank_at sc fo k = Ok r).
    { intros r. rewrite filter_In, nset_in, negb_true_iff, Nat.eqb_neq. split.
      - intros [H N]. split; [exact N|]. destruct (mapM_in _ _ _ _ Er H) as (k & ? & ?). eauto.
      - intros [N (k & Hk & Ek)]. split; [|exact N]. destruct (combine_all _ _ _ _ Er Hk) as (n' & En & Hn). rewrite Ek in En. apply Ok_inj in En. subst n'. eapply in_combine_r; eauto. }
    split.
    + intros [(r & X & H)|(-> & N & t' & k & Ht & It & Hk & Ek)].
      * injection X as -> -> ->. apply Q in H as [N (k & Hk & Ek)]. split; [reflexivity|]. split; [exact N|]. exists t, k. simpl. auto.
      * split; [reflexivity|]. split; [exact N|]. exists t', k. simpl. auto.
    + intros (-> & N & t' & k & [<-|Ht] & It & Hk & Ek).
      * left. exists n. rewrite Ia in It. apply Ok_inj in It. subst a. split; [reflexivity|]. apply Q. eauto.
      * right. split; [reflexivity|]. split; [exact N|]. eauto 8.
Qed.
Lemma table_rank_spec sc fo m rk n i j : compute_table_rank sc fo m = Ok rk ->
  exists z, ranks_of sc fo m None sc = Ok z /\ (In (i, j) (of_rank n rk) <-> (exists e l, In e fo /\ ranks_between sc fo m (snd e) = Ok l /\ In (n, (i, j)) l) \/ In (n, (i, j)) z).
Proof.
  unfold compute_table_rank. intros E. destruct (mapM _ fo) as [ls|] eqn:El; cbn [bind] in E; [|discriminate]. destruct (ranks_of sc fo m None sc) as [z|]; cbn [bind] in E; [|discriminate]. apply Ok_inj in E. subst rk. exists z. split; [reflexivity|].
  rewrite <- (mapM_concat_in (fun e => ranks_between sc fo m (snd e)) fo ls (n, (i, j)) El), <- in_app_iff. unfold of_rank. rewrite in_map_iff. split.
  - intros ([r p] & X & H). cbn [snd] in X. subst p. apply filter_In in H as [H X]. cbn [fst] in X. apply Nat.eqb_eq in X. now subst r.
  - intros H. exists (n, (i, j)). split; [reflexivity|]. apply filter_In. split; [exact H|apply Nat.eqb_refl].
Qed.
Lemma rank_placed sc fo m rk n : compute_table_rank sc fo m = Ok rk -> placed sc (of_rank n rk).
Proof.
  intros E i j H0. destruct (table_rank_spec _ _ _ _ n i j E) as (z & Ez & Q). apply (proj1 Q) in H0. destruct H0 as [(e & l & He & El & H)|H].
  - apply (between_spec _ _ _ _ _ _ _ _ El) in H as (x & y & k & _ & X & Y & _). right. eauto.
  - left. eapply ranks_of_placed; eauto.
Qed.
Lemma rels_placed sc fo inh rel cm fs fa fm op ass cr tw rk name m : rels sc fo inh rel cm fs fa fm op ass cr tw rk -> In (name, m) rel -> placed sc m.
Proof.
  intros (Ec & Es & Ea & Em & Eo & Eas & Ecr & Et & Er & ->) H.
  pose proof (contains_placed _ _ _ Ec). pose proof (father_placed _ _ _ Es). pose proof (father_placed _ _ _ Ea). pose proof (father_placed _ _ _ Em).
  cbn [In] in H. repeat (destruct H as [H|H]; [injection H as <- <-|]); try destruct H; eauto using transposed_placed, siblings_placed, twins_placed, rank_placed, identity_placed.
Qed.

(** A relation between multiplications which only sees their parts as texts *)
Definition textual (R : script -> script -> Prop) : Prop :=
  forall s t s' t', nf s -> nf t -> nf s' -> nf t' -> str s = str s' -> str t = str t' -> is_empty s = false -> is_empty t = false -> R s t -> R s' t'.
Lemma mul_text a b c s' : nf (Mul a b c) -> nf s' -> str (Mul a b c) = str s' -> is_empty (Mul a b c) = false -> exists a' b' c', s' = Mul a' b' c' /\ str a = str a' /\ str b = str b' /\ str c = str c' /\ (wf a' /\ child_ok a') /\ (wf b' /\ child_ok b').
Proof.
  intros N N' E Em. pose proof (nf_wf _ N) as W. pose proof (nf_wf _ N') as W'. pose proof (str_inj_norm _ _ W W' E) as Q. cbn [norm] in Q. cbn [is_empty] in Em. rewrite Em in Q. destruct (wf_mul_inv a b c W) as (Wa & Wb & Wc & _).
  destruct s' as [n|p|a' b' c'|cs]; cbn [norm] in Q; try discriminate.
  - destruct (wf_mul_inv a' b' c' W') as (Wa' & Wb' & Wc' & Oa & Ob & Oc & _). destruct (is_empty a' && is_empty b' && is_empty c'); [discriminate|]. injection Q as Qa Qb Qc. exists a', b', c'. split; [reflexivity|].
    rewrite <- (str_norm a), <- (str_norm b), <- (str_norm c), Qa, Qb, Qc, !str_norm by auto. auto 12.
  - destruct cs as [|x [|y cs]]; cbn [map] in Q; try discriminate. destruct N' as [_ N']. exfalso. exact (N' x eq_refl).
Qed.
Lemma opposed_textual : textual opposed.
Proof.
  intros s t s' t' Ns Nt Ns' Nt' Es Et Ms Mt (C & _ & _ & a & b & c & a' & b' & c' & -> & -> & E1 & E2).
  destruct (mul_text a b c s' Ns Ns' Es Ms) as (a1 & b1 & c1 & -> & Ea & Eb & Ec & _). destruct (mul_text a' b' c' t' Nt Nt' Et Mt) as (a2 & b2 & c2 & -> & Ea' & Eb' & Ec' & _).
  destruct (eq_attributes _ _ (nf_wf _ Ns) (nf_wf _ Ns') Es) as [(_ & _ & Cs & _ & _ & _ & Is) _]. destruct (eq_attributes _ _ (nf_wf _ Nt) (nf_wf _ Nt') Et) as [(_ & _ & Ct & _ & _ & _ & It) _].
  split; [congruence|]. split; [congruence|]. split; [congruence|]. exists a1, b1, c1, a2, b2, c2. split; [reflexivity|]. split; [reflexivity|]. split; congruence.
Qed.
Lemma associated_textual : textual associated.
Proof.
  intros s t s' t' Ns Nt Ns' Nt' Es Et Ms Mt (C & a & b & c & a' & b' & c' & -> & -> & E1 & E2 & E3).
  destruct (mul_text a b c s' Ns Ns' Es Ms) as (a1 & b1 & c1 & -> & Ea & Eb & Ec & _). destruct (mul_text a' b' c' t' Nt Nt' Et Mt) as (a2 & b2 & c2 & -> & Ea' & Eb' & Ec' & _).
  destruct (eq_attributes _ _ (nf_wf _ Ns) (nf_wf _ Ns') Es) as [(_ & _ & Cs & _) _]. destruct (eq_attributes _ _ (nf_wf _ Nt) (nf_wf _ Nt') Et) as [(_ & _ & Ct & _) _].
  split; [congruence|]. exists a1, b1, c1, a2, b2, c2. split; [reflexivity|]. split; [reflexivity|]. split; [congruence|]. split; congruence.
Qed.
Lemma crossed_textual : textual crossed.
Proof.
  intros s t s' t' Ns Nt Ns' Nt' Es Et Ms Mt (C & L & a & b & c & a' & b' & c' & -> & -> & E1 & E2).
  destruct (mul_text a b c s' Ns Ns' Es Ms) as (a1 & b1 & c1 & -> & Ea & Eb & Ec & (Wa1 & Oa1) & (Wb1 & Ob1)). destruct (mul_text a' b' c' t' Nt Nt' Et Mt) as (a2 & b2 & c2 & -> & Ea' & Eb' & Ec' & (Wa2 & Oa2) & (Wb2 & Ob2)).
  destruct (eq_attributes _ _ (nf_wf _ Ns) (nf_wf _ Ns') Es) as [(_ & Ls & Cs & _) _]. destruct (eq_attributes _ _ (nf_wf _ Nt) (nf_wf _ Nt') Et) as [(_ & _ & Ct & _) _].
  destruct (wf_mul_inv a b c (nf_wf _ Ns)) as (Wa & Wb & _ & Oa & Ob & _). destruct (wf_mul_inv a' b' c' (nf_wf _ Nt)) as (Wa' & Wb' & _ & Oa' & Ob' & _).
  assert (Nf : forall x, wf x -> child_ok x -> nf x) by (intros x W [_ O]; split; auto).
  split; [congruence|]. split; [now rewrite <- Ls|]. exists a1, b1, c1, a2, b2, c2. split; [reflexivity|]. split; [reflexivity|]. split.
  - pose proof E1 as (_ & M1 & M2 & _). apply (opposed_textual a a' a1 a2); auto.
  - pose proof E2 as (_ & M1 & M2 & _). apply (opposed_textual b b' b1 b2); auto.
Qed.
Lemma twin_textual : textual twin.
Proof.
  intros s t s' t' Ns Nt Ns' Nt' Es Et Ms Mt (C & (a & b & c & -> & E1) & (a' & b' & c' & -> & E2)).
  destruct (mul_text a b c s' Ns Ns' Es Ms) as (a1 & b1 & c1 & -> & Ea & Eb & Ec & _). destruct (mul_text a' b' c' t' Nt Nt' Et Mt) as (a2 & b2 & c2 & -> & Ea' & Eb' & Ec' & _).
  destruct (eq_attributes _ _ (nf_wf _ Ns) (nf_wf _ Ns') Es) as [(_ & _ & Cs & _) _]. destruct (eq_attributes _ _ (nf_wf _ Nt) (nf_wf _ Nt') Et) as [(_ & _ & Ct & _) _].
  split; [congruence|]. split; [exists a1, b1, c1|exists a2, b2, c2]; split; congruence.
Qed.

Section Top.
  Variable so : list script -> list script.
  Hypothesis SO : set_order so.
  Variables (paradigms : list string) (rows : list (string * string * string)) (d : dictionary) (all : list script).
  Hypothesis An : anatomy so paradigms rows d all.

  Lemma Wall : Forall wf all. Proof. apply An. Qed.
  Lemma Wroots : Forall wf (d_root_scripts d). Proof. apply An. Qed.
  Lemma scripts_all s : In s (d_scripts d) -> In s all /\ (cardinal s = 1%N \/ exists t, table_of (d_forest d) s = Some t).
  Proof.
    destruct An as (_ & -> & _). intros H. apply filter_In in H as [H E]. split; [exact H|]. apply orb_true_iff in E as [E|E]; [left; now apply N.eqb_eq|right]. destruct (table_of (d_forest d) s); [eauto|discriminate].
  Qed.
  Lemma scripts_wf s : In s (d_scripts d) -> wf s.
  Proof. intros H. pose proof Wall as W. rewrite Forall_forall in W. apply W, scripts_all, H. Qed.
  Lemma roots_disjoint : ForallOrdPairs disjoint (d_root_scripts d). Proof. apply An. Qed.
  Lemma roots_nodup : NoDup (d_root_scripts d).
  Proof. pose proof (disjoint_texts _ Wroots roots_disjoint) as N. now apply NoDup_map_inv in N. Qed.
  Lemma forest_roots : map fst (d_forest d) = d_root_scripts d.
  Proof. destruct An as (W & _ & E & Wr & _). apply (build_tables_spec so SO _ _ _ Wr W E). Qed.
  Lemma forest_tree r ts : In (r, ts) (d_forest d) -> In r (d_root_scripts d) /\ wf r /\ exists ps t0 more cells, tree r ps ts t0 more cells /\ incl ps all /\ Forall wf ps.
  Proof.
    intros H. destruct An as (W & _ & E & Wr & _). destruct (build_tables_spec so SO _ _ _ Wr W E) as [Em F]. assert (Hr : In r (d_root_scripts d)) by (rewrite <- Em; change r with (fst (r, ts)); now apply in_map).
    split; [exact Hr|]. rewrite Forall_forall in Wr, F, W. split; [auto|]. destruct (F _ H) as (ps & t0 & more & cells & T & I). exists ps, t0, more, cells. split; [exact T|]. split; [exact I|]. apply Forall_forall. intros s Hs. apply W, I, Hs.
  Qed.
  Lemma forest_table r ts t : In (r, ts) (d_forest d) -> In t ts -> wf (tscript t) /\ included (tscript t) r.
  Proof.
    intros H Ht. destruct (forest_tree r ts H) as (_ & Wr & ps & t0 & more & cells & T & _ & Wp). split; [eapply tree_wf; eauto|eapply tree_inside; eauto].
  Qed.
  Lemma forest_share r ts r' ts' w : In (r, ts) (d_forest d) -> In (r', ts') (d_forest d) -> means r w -> means r' w -> r = r' /\ ts = ts'.
  Proof.
    intros H H' Hw Hw'. destruct (forest_tree r ts H) as (Hr & _). destruct (forest_tree r' ts' H') as (Hr' & _). pose proof (disjoint_one _ r r' w roots_disjoint Hr Hr' Hw Hw') as <-. split; [reflexivity|].
    eapply NoDup_map_fst; [|exact H|exact H']. rewrite forest_roots. apply roots_nodup.
  Qed.
  (** The script has a table in the tree of this root. *)
  Definition has_table (r : script) (ts : list table) (s : script) : Prop := In (r, ts) (d_forest d) /\ exists t, In t ts /\ str (tscript t) = str s.
  Lemma has_included r ts s : wf s -> has_table r ts s -> included s r.
  Proof. intros W (H & t & Ht & E). destruct (forest_table r ts t H Ht) as [Wt I]. eapply inside_trans; [|exact I]. apply same_text; auto. Qed.
  Lemma has_same r ts r' ts' s s' : wf s -> wf s' -> has_table r ts s -> has_table r' ts' s' -> included s s' -> r = r' /\ ts = ts'.
  Proof.
    intros W W' H H' [_ I]. destruct (some_word s W) as [w Hw]. destruct (has_included _ _ _ W H) as [_ M]. destruct (has_included _ _ _ W' H') as [_ M']. destruct H as [H _], H' as [H' _]. eapply forest_share; eauto.
  Qed.
  Lemma paradigm_table s : member d s -> wf s -> cardinal s <> 1%N -> exists r ts, has_table r ts s.
  Proof.
    intros (x & Hx & Ex) W C. destruct (scripts_all x Hx) as [_ [C'|[t Et]]].
    - exfalso. apply C. destruct (eq_attributes x s (scripts_wf x Hx) W Ex) as [(_ & _ & A & _) _]. congruence.
    - apply table_of_some in Et as ([r ts] & He & Ht & Et). exists r, ts. split; [exact He|]. exists t. split; [exact Ht|congruence].
  Qed.

  Section Relations.
    Lemma relation_list : exists contains fs fa fm opposed associated crossed twin ranks, rels (d_scripts d) (d_forest d) (d_inhibitions d) (d_relations d) contains fs fa fm opposed associated crossed twin ranks.
    Proof. apply compute_relations_spec. apply An. Qed.

    Lemma contains_idx s t i j cm : wf s -> wf t -> idx (d_scripts d) s = Ok i -> idx (d_scripts d) t = Ok j -> compute_contains (d_scripts d) (d_forest d) = Ok cm -> (In (i, j) cm <-> included t s).
    Proof.
      intros Ws Wt Ei Ej Ec. pose proof (idx_member d s i Ei) as Ms. pose proof (idx_member d t j Ej) as Mt. split.
      - intros H. apply (compute_contains_spec _ _ _ _ _ Ec) in H as [[<- _]|([r ts] & m' & He & Em & H)].
        + pose proof (index_eq _ _ _ _ Ei Ej) as E. apply same_text; auto.
        + cbn [snd] in *. apply (contains_in_spec _ _ _ _ _ Em) in H as (p & k & (t0 & Ht0 & <-) & P & Ip & Ik & H). pose proof (index_eq _ _ _ _ Ei Ip) as E1. pose proof (index_eq _ _ _ _ Ej Ik) as E2.
          destruct (forest_table r ts t0 He Ht0) as [W0 _]. apply (inside_trans t (tscript t0)); [|apply same_text; auto].
          destruct H as [(l & El' & Hk)|((t1 & Ht1 & <-) & Pk & Ki)].
          * destruct (ss_sing _ _ _ W0 El' Hk) as (Wk & Ck & Lk). apply (inside_trans t k); [apply same_text; auto|]. split; [exact Lk|]. intros w Hw. eapply ss_word; eauto.
          * destruct (forest_table r ts t1 He Ht1) as [W1 _]. apply (inside_trans t (tscript t1)); [apply same_text; auto|]. now apply inside_in.
      - intros I. apply (compute_contains_spec _ _ _ _ _ Ec).
        destruct (N.eq_dec (cardinal s) 1) as [C|C].
        { left. pose proof (singular_text s t Ws Wt C I) as E. unfold idx in *. rewrite (index_text t s _ E) in Ej. rewrite Ei in Ej. apply Ok_inj in Ej. subst j. split; [reflexivity|]. destruct (index_some _ _ _ Ei) as (x & Hx & _). apply nth_error_Some. congruence. }
        right. destruct (paradigm_table s Ms Ws C) as (r & ts & Hs). pose proof Hs as (He & tb & Htb & Etb). destruct (forest_table r ts tb He Htb) as [Wb _].
        unfold compute_contains in Ec. destruct (mapM (fun e => contains_in (d_scripts d) (snd e)) (d_forest d)) as [ms|] eqn:Em; cbn [bind] in Ec; [|discriminate]. destruct (mapM_each _ _ _ _ Em He) as [m' Em']. clear Ec. cbn [snd] in Em'.
        exists (r, ts), m'. split; [exact He|]. split; [exact Em'|]. apply (contains_in_spec _ _ _ _ _ Em').
        assert (P : paradigm (tscript tb) = true).
        { destruct (paradigm (tscript tb)) eqn:P; [reflexivity|]. apply cardinal_paradigm in P; [|exact Wb]. exfalso. apply C. destruct (eq_attributes _ s Wb Ws Etb) as [(_ & _ & A & _) _]. congruence. }
        pose proof (inside_trans t s (tscript tb) I (same_text s (tscript tb) Ws Wb (eq_sym Etb))) as I'.
        destruct (N.eq_dec (cardinal t) 1) as [Ct|Ct].
        + destruct (ss_total _ Wb) as (l & El' & _). destruct (some_word t Wt) as [w Hw]. destruct (ss_find _ l w Wb El' (proj2 I' w Hw)) as (k & Hk & Kw & Sk). exists (tscript tb), k. split; [eauto|]. split; [exact P|].
          unfold idx in *. rewrite (index_text (tscript tb) s _ Etb). split; [exact Ei|].
          assert (E : str k = str t). { apply (sing1_text (layer (tscript tb))); [exact Sk|split; [exact Wt|split; [exact Ct|apply I']]|]. destruct Sk as (Wk & Ck & _). apply wordof_means in Kw; auto. apply wordof_means in Hw; auto. congruence. }
          rewrite (index_text k t _ E). split; [exact Ej|]. left. eauto.
        + destruct (paradigm_table t Mt Wt Ct) as (r' & ts' & Ht). destruct (has_same _ _ _ _ t s Wt Ws Ht Hs I) as [-> ->]. destruct Ht as (_ & tk & Htk & Etk). destruct (forest_table r ts tk He Htk) as [Wk _]. exists (tscript tb), (tscript tk). split; [eauto|]. split; [exact P|].
          unfold idx in *. rewrite (index_text (tscript tb) s _ Etb). split; [exact Ei|]. rewrite (index_text (tscript tk) t _ Etk). split; [exact Ej|]. right. split; [eauto|]. split.
          * destruct (paradigm (tscript tk)) eqn:Pk; [reflexivity|]. apply cardinal_paradigm in Pk; [|exact Wk]. exfalso. apply Ct. destruct (eq_attributes _ t Wk Wt Etk) as [(_ & _ & A & _) _]. congruence.
          * apply inside_in; auto. apply (inside_trans (tscript tk) t); [apply same_text; auto|exact I'].
    Qed.
    Lemma contains_spec s t : wf s -> wf t -> member d s -> member d t -> (related d "contains" s t <-> included t s).
    Proof.
      intros Ws Wt Ms Mt. destruct relation_list as (cm & fs & fa & fm & op & ass & cr & tw & rk & R). destruct R as (Ec & _ & _ & _ & _ & _ & _ & _ & _ & El).
      rewrite (related_spec d "contains" cm) by (try (rewrite El; reflexivity); apply (contains_placed _ _ _ Ec)). split.
      - intros (i & j & Ei & Ej & H). now apply (contains_idx s t i j cm Ws Wt Ei Ej Ec).
      - intros I. destruct (member_idx d s Ms) as [i Ei]. destruct (member_idx d t Mt) as [j Ej]. exists i, j. split; [exact Ei|]. split; [exact Ej|]. now apply (contains_idx s t i j cm Ws Wt Ei Ej Ec).
    Qed.

    (** Siblings *)
    Definition sibling_tables (rel : string) (R : script -> script -> Prop) (s o : script) : Prop :=
      exists r ts x y, In (r, ts) (d_forest d) /\ inhibited (d_inhibitions d) r rel = false /\ layer r <> 0 /\ two_of x y ts /\ str (tscript x) = str s /\ str (tscript y) = str o /\ R (tscript x) (tscript y).
    Lemma siblings_top rel (R : script -> script -> Prop) f m s o : get_key rel (d_relations d) = Some m -> siblings (d_forest d) (d_inhibitions d) rel (siblings_in (d_scripts d) f) = Ok m ->
      (forall a b, wf a -> wf b -> layer a = layer b -> is_mul a = true -> is_mul b = true -> (f a b = Ok true <-> R a b)) -> (forall a b, R a b -> is_mul a = true /\ is_mul b = true) -> (forall a b, layer a = layer b -> R a b -> R b a) ->
      member d s -> member d o -> (related d rel s o <-> sibling_tables rel R s o).
    Proof.
      intros G E Hf Hm Hs Ms Mo. rewrite (related_spec d rel m s o (siblings_placed _ _ _ _ _ _ E) G). split.
      - intros (i & j & Ei & Ej & H). apply (siblings_spec _ _ _ _ _ _ _ E) in H as ([r ts] & m' & He & I & L & Em & H). cbn [fst snd] in *. apply (siblings_in_spec _ _ _ _ _ _ Em) in H as (x & y & C & Mx & My & F & K).
        pose proof (two_in x y ts (proj2 (couples_two ts x y) (or_introl C))) as [Hx Hy]. destruct (forest_table r ts x He Hx) as [Wx [Lx _]]. destruct (forest_table r ts y He Hy) as [Wy [Ly _]].
        assert (Lxy : layer (tscript x) = layer (tscript y)) by congruence. apply (Hf _ _ Wx Wy Lxy Mx My) in F. destruct K as [[Ix Iy]|[Ix Iy]].
        + exists r, ts, x, y. split; [exact He|]. split; [exact I|]. split; [exact L|]. split; [apply couples_two; auto|]. split; [eapply index_eq; eauto|]. split; [eapply index_eq; eauto|exact F].
        + exists r, ts, y, x. split; [exact He|]. split; [exact I|]. split; [exact L|]. split; [apply couples_two; auto|]. split; [eapply index_eq; eauto|]. split; [eapply index_eq; eauto|]. apply Hs; auto.
      - intros (r & ts & x & y & He & I & L & C & Ex & Ey & F). destruct (member_idx d s Ms) as [i Ei]. destruct (member_idx d o Mo) as [j Ej]. exists i, j. split; [exact Ei|]. split; [exact Ej|].
        apply (siblings_spec _ _ _ _ _ _ _ E). unfold siblings in E. destruct (mapM _ (d_forest d)) as [ms|] eqn:Em in E; cbn [bind] in E; [|discriminate]. destruct (mapM_each _ _ _ _ Em He) as [m' Em']. cbn [fst snd] in Em'. rewrite I in Em'. destruct (Nat.eqb_spec (layer r) 0); [contradiction|]. cbn [orb] in Em'.
        exists (r, ts), m'. split; [exact He|]. split; [exact I|]. split; [exact L|]. split; [exact Em'|]. apply (siblings_in_spec _ _ _ _ _ _ Em').
        destruct (two_in x y ts C) as [Hx Hy]. destruct (forest_table r ts x He Hx) as [Wx [Lx _]]. destruct (forest_table r ts y He Hy) as [Wy [Ly _]]. destruct (Hm _ _ F) as [Mx My]. assert (Lxy : layer (tscript x) = layer (tscript y)) by congruence.
        unfold idx in *. pose proof (index_text _ _ (d_scripts d) Ex) as Ix. pose proof (index_text _ _ (d_scripts d) Ey) as Iy. rewrite Ei in Ix. rewrite Ej in Iy. apply couples_two in C as [C|C].
        + exists x, y. split; [exact C|]. split; [exact Mx|]. split; [exact My|]. split; [apply Hf; auto|auto].
        + exists y, x. split; [exact C|]. split; [exact My|]. split; [exact Mx|]. split; [apply Hf; auto|auto].
    Qed.
    Lemma twins_top m s o : get_key "twin" (d_relations d) = Some m -> siblings (d_forest d) (d_inhibitions d) "twin" (twins_in (d_scripts d)) = Ok m -> member d s -> member d o -> (related d "twin" s o <-> sibling_tables "twin" twin s o).
    Proof.
      intros G E Ms Mo. rewrite (related_spec d "twin" m s o (twins_placed _ _ _ _ _ E) G). split.
      - intros (i & j & Ei & Ej & H). apply (siblings_spec _ _ _ _ _ _ _ E) in H as ([r ts] & m' & He & I & L & Em & H). cbn [fst snd] in *. apply (twins_in_spec _ _ _ _ _ Em) in H as (x & y & C & Mx & My & Tx & Ty & K & X).
        apply twin_ok in Tx; [|exact Mx]. apply twin_ok in Ty; [|exact My]. destruct X as [[Ix Iy]|[Ix Iy]].
        + exists r, ts, x, y. split; [exact He|]. split; [exact I|]. split; [exact L|]. split; [apply couples_two; auto|]. split; [eapply index_eq; eauto|]. split; [eapply index_eq; eauto|]. split; auto.
        + exists r, ts, y, x. split; [exact He|]. split; [exact I|]. split; [exact L|]. split; [apply couples_two; auto|]. split; [eapply index_eq; eauto|]. split; [eapply index_eq; eauto|]. split; auto.
      - intros (r & ts & x & y & He & I & L & C & Ex & Ey & F). destruct (member_idx d s Ms) as [i Ei]. destruct (member_idx d o Mo) as [j Ej]. exists i, j. split; [exact Ei|]. split; [exact Ej|].
        apply (siblings_spec _ _ _ _ _ _ _ E). unfold siblings in E. destruct (mapM _ (d_forest d)) as [ms|] eqn:Em in E; cbn [bind] in E; [|discriminate]. destruct (mapM_each _ _ _ _ Em He) as [m' Em']. cbn [fst snd] in Em'. rewrite I in Em'. destruct (Nat.eqb_spec (layer r) 0); [contradiction|]. cbn [orb] in Em'.
        exists (r, ts), m'. split; [exact He|]. split; [exact I|]. split; [exact L|]. split; [exact Em'|]. apply (twins_in_spec _ _ _ _ _ Em').
        destruct F as (K & Tx & Ty). assert (Mx : is_mul (tscript x) = true) by (destruct Tx as (a & b & c & -> & _); reflexivity). assert (My : is_mul (tscript y) = true) by (destruct Ty as (a & b & c & -> & _); reflexivity).
        apply twin_ok in Tx; [|exact Mx]. apply twin_ok in Ty; [|exact My].
        unfold idx in *. pose proof (index_text _ _ (d_scripts d) Ex) as Ix. pose proof (index_text _ _ (d_scripts d) Ey) as Iy. rewrite Ei in Ix. rewrite Ej in Iy. apply couples_two in C as [C|C].
        + exists x, y. auto 12.
        + exists y, x. auto 12.
    Qed.

    (** ** The tables of a root have distinct scripts *)
    Lemma contained_self s i : idx (d_scripts d) s = Ok i -> forall cm, compute_contains (d_scripts d) (d_forest d) = Ok cm -> In i (row_of (d_scripts d) (transposed cm) i).
    Proof.
      intros Ei cm Ec. destruct (index_some _ _ _ Ei) as (x & Hx & _). assert (L : i < List.length (d_scripts d)) by (apply nth_error_Some; congruence). apply row_in. split; [exact L|]. apply transposed_in. apply (compute_contains_spec _ _ _ _ _ Ec). auto.
    Qed.
    Lemma cell_rank r ts t : In (r, ts) (d_forest d) -> In t ts -> cardinal (tscript t) = 1%N -> rank t = 6.
    Proof.
      intros He Ht C. destruct (forest_tree r ts He) as (_ & Wr & ps & t0 & more & cells & T & _ & Wp). apply (tree_in _ _ _ _ _ _ T) in Ht as [->|[Ht|(x & _ & ->)]]; [| |reflexivity].
      - destruct (tree_root _ _ _ _ _ _ T) as (k & Ek & ->). cbn [tscript] in C. apply (class_cell _ _ Ek) in C. now subst k.
      - destruct T as (_ & _ & _ & F & _). rewrite Forall_forall in F. destruct (F t Ht) as (_ & _ & p & _ & _ & _ & _ & N). contradiction.
    Qed.
    Lemma rank_of_text r ts t i : In (r, ts) (d_forest d) -> In t ts -> idx (d_scripts d) (tscript t) = Ok i -> exists t', In t' ts /\ str (tscript t') = str (tscript t) /\ table_of (d_forest d) (tscript t) = Some t' /\ rank_at (d_scripts d) (d_forest d) i = Ok (rank t').
    Proof.
      intros He Ht Ei. destruct (index_some _ _ _ Ei) as (x & Hx & Ex). destruct (table_of_total (d_forest d) (tscript t) _ t He Ht eq_refl) as [t' Et']. pose proof (table_of_some _ _ _ Et') as ([r' ts'] & He' & Ht' & E'). cbn [snd] in Ht'.
      exists t'. split; [|split; [exact E'|split; [exact Et'|unfold rank_at; rewrite Hx, (table_of_text _ x (tscript t) Ex), Et'; reflexivity]]].
      destruct (forest_table r ts t He Ht) as [W _]. destruct (forest_table r' ts' t' He' Ht') as [W' _]. destruct (has_same r' ts' r ts (tscript t') (tscript t)) as [-> ->]; auto; [split; eauto|split; eauto|apply same_text; auto].
    Qed.
    Lemma singular_couple r ts x y : In (r, ts) (d_forest d) -> In (x, y) (couples ts) -> str (tscript x) = str (tscript y) -> cardinal (tscript x) <> 1%N.
    Proof.
      intros He C E K. destruct relation_list as (cm & fs & fa & fm & op & ass & cr & tw & rk & R). destruct R as (Ec & _ & _ & _ & _ & _ & _ & _ & Er & _).
      unfold compute_table_rank in Er. destruct (mapM _ (d_forest d)) as [ls|] eqn:El in Er; cbn [bind] in Er; [|discriminate]. destruct (mapM_each _ _ _ _ El He) as [l El']. cbn [snd] in El'. destruct (between_low _ _ _ _ _ _ _ El' C) as (i & j & Ix & Iy & Low).
      unfold idx in Ix, Iy. rewrite <- (index_text _ _ _ E) in Iy. rewrite Ix in Iy. apply Ok_inj in Iy. subst j. pose proof (contained_self _ _ Ix cm Ec) as Hi. destruct (Low i Hi Hi) as (n & En & Ln).
      destruct (two_in x y ts (proj2 (couples_two ts x y) (or_introl C))) as [Hx _]. destruct (rank_of_text r ts x i He Hx Ix) as (t' & Ht' & E' & _ & Rk). rewrite Rk in En. apply Ok_inj in En. subst n. rewrite (cell_rank r ts t' He Ht') in Ln; [lia|].
      destruct (forest_table r ts x He Hx) as [Wx _]. destruct (forest_table r ts t' He Ht') as [W' _]. destruct (eq_attributes _ _ W' Wx E') as [(_ & _ & A & _) _]. congruence.
    Qed.
    Lemma couples_app_r {A} (l l' : list A) x y : In (x, y) (couples l') -> In (x, y) (couples (l ++ l')).
    Proof. intros H. apply couples_split in H as (l1 & l2 & l3 & ->). apply couples_split. exists (l ++ l1)%list, l2, l3. now rewrite <- app_assoc. Qed.
    Lemma couples_nodup {A B} (f : A -> B) l : (forall x y, In (x, y) (couples l) -> f x <> f y) -> NoDup (map f l).
    Proof.
      induction l as [|x l IH]; intros H; [constructor|]. cbn [map]. constructor.
      - intros X. apply in_map_iff in X as (y & E & Hy). apply (H x y); [apply couples_cons; auto|congruence].
      - apply IH. intros a b C. apply H. apply couples_cons. auto.
    Qed.
    Lemma distinct_tables r ts : In (r, ts) (d_forest d) -> NoDup (map (fun t => str (tscript t)) ts).
    Proof.
      intros He. apply couples_nodup. intros x y C E. pose proof (singular_couple r ts x y He C E) as K. destruct (forest_tree r ts He) as (_ & Wr & ps & t0 & more & cells & T & _ & Wp).
      destruct (two_in x y ts (proj2 (couples_two ts x y) (or_introl C))) as [Hx Hy]. assert (Ky : cardinal (tscript y) <> 1%N). { destruct (forest_table r ts x He Hx) as [Wx _]. destruct (forest_table r ts y He Hy) as [Wy _]. destruct (eq_attributes _ _ Wx Wy E) as [(_ & _ & A & _) _]. congruence. }
      pose proof T as (Ets & _ & Ess & _ & N). assert (Nc : forall z, In z (map (cell_of t0) cells) -> cardinal (tscript z) = 1%N). { intros z Hz. apply in_map_iff in Hz as (u & <- & Hu). destruct (ss_sing _ _ _ Wr Ess Hu) as (_ & Cu & _). exact Cu. }
      apply couples_split in C as (l1 & l2 & l3 & C). rewrite Ets in C. change (t0 :: more ++ map (cell_of t0) cells)%list with ((t0 :: more) ++ map (cell_of t0) cells)%list in C.
      assert (Sp : exists l3', (t0 :: more)%list = (l1 ++ x :: l2 ++ y :: l3')%list).
      { clear - C Nc Ky. revert C. generalize (t0 :: more) as l. intros l C. replace (l1 ++ x :: l2 ++ y :: l3)%list with ((l1 ++ x :: l2) ++ y :: l3)%list in C by now rewrite <- app_assoc.
        apply app_eq_app in C as (m & [[-> C]|[C E]]).
        - destruct m as [|z m]; [|exists m; cbn [app] in C; injection C as <- _; now rewrite <- app_assoc]. cbn [app] in C. exfalso. apply Ky, Nc. rewrite <- C. simpl. auto.
        - exfalso. apply Ky, Nc. rewrite E, in_app_iff. simpl. auto. }
      destruct Sp as (l3' & Sp). rewrite Sp in N. rewrite map_app in N. cbn [map] in N. apply NoDup_remove_2 in N. apply N. rewrite in_app_iff. right. rewrite map_app, in_app_iff. right. cbn [map]. left. congruence.
    Qed.
    Lemma unique_table r ts r' ts' t t' : In (r, ts) (d_forest d) -> In (r', ts') (d_forest d) -> In t ts -> In t' ts' -> str (tscript t) = str (tscript t') -> t = t' /\ r = r' /\ ts = ts'.
    Proof.
      intros He He' Ht Ht' E. destruct (forest_table r ts t He Ht) as [W _]. destruct (forest_table r' ts' t' He' Ht') as [W' _]. destruct (has_same r ts r' ts' (tscript t) (tscript t')) as [-> ->]; auto; [split; eauto|split; eauto|apply same_text; auto|].
      split; [|auto]. exact (nodup_inj (fun t => str (tscript t)) ts' t t' (distinct_tables r' ts' He') Ht Ht' E).
    Qed.
    Lemma table_of_iff r ts s t : In (r, ts) (d_forest d) -> In t ts -> str (tscript t) = str s -> table_of (d_forest d) s = Some t.
    Proof.
      intros He Ht E. destruct (table_of_total (d_forest d) s _ t He Ht E) as [t' Et']. pose proof (table_of_some _ _ _ Et') as ([r' ts'] & He' & Ht' & E'). cbn [snd] in Ht'. destruct (unique_table r ts r' ts' t t' He He' Ht Ht') as [<- _]; [congruence|exact Et'].
    Qed.
    Lemma root_plural r : In r (d_root_scripts d) -> cardinal r <> 1%N.
    Proof.
      intros Hr C. rewrite <- forest_roots in Hr. apply in_map_iff in Hr as ([r' ts] & Er & He). cbn [fst] in Er. subst r'. destruct (forest_tree r ts He) as (_ & Wr & ps & t0 & more & cells & T & _ & Wp). pose proof (distinct_tables r ts He) as N. destruct (tree_root _ _ _ _ _ _ T) as (k & _ & E0). destruct T as (-> & _ & Ess & _).
      destruct (some_word r Wr) as [w Hw]. destruct (ss_find r cells w Wr Ess Hw) as (x & Hx & Xw & Sx). cbn [map] in N. apply NoDup_cons_iff in N as [N _]. apply N. rewrite E0. cbn [tscript]. apply in_map_iff. exists (cell_of t0 x). rewrite E0. split; [|apply in_or_app; right; now apply in_map].
      cbn [cell_of tscript]. apply singular_text; auto; [apply Sx|]. destruct (ss_sing _ _ _ Wr Ess Hx) as (_ & _ & Lx). split; [exact Lx|]. intros w' Hw'. eapply ss_word; eauto.
    Qed.
    Lemma tables_member r ts t : In (r, ts) (d_forest d) -> In t ts -> member d (tscript t).
    Proof.
      intros He Ht. destruct relation_list as (cm & fs & fa & fm & op & ass & cr & tw & rk & R). destruct R as (Ec & _). unfold compute_contains in Ec. destruct (mapM (fun e => contains_in (d_scripts d) (snd e)) (d_forest d)) as [ms|] eqn:Em; cbn [bind] in Ec; [|discriminate]. destruct (mapM_each _ _ _ _ Em He) as [m' Em']. cbn [snd] in Em'.
      unfold contains_in in Em'. destruct (mapM _ (map tscript _)) as [q|] eqn:Eq in Em'; cbn [bind] in Em'; [|discriminate].
      assert (B : forall u, In u ts -> cardinal (tscript u) <> 1%N -> (exists i, idx (d_scripts d) (tscript u) = Ok i) /\ forall l x, ss (tscript u) = Ok l -> In x l -> exists i, idx (d_scripts d) x = Ok i).
      { intros u Hu K. destruct (forest_table r ts u He Hu) as [Wu _]. assert (Hm : In (tscript u) (map tscript (filter (fun t => paradigm (tscript t)) ts))). { apply in_map, filter_In. split; [exact Hu|]. destruct (paradigm (tscript u)) eqn:P; [reflexivity|]. apply cardinal_paradigm in P; [contradiction|exact Wu]. }
        destruct (mapM_each _ _ _ _ Eq Hm) as [z Ez]. destruct (idx (d_scripts d) (tscript u)) as [k|]; cbn [bind] in Ez; [|discriminate]. split; [eauto|]. intros l x El Hx. rewrite El in Ez. cbn [bind] in Ez. unfold idxs in Ez at 1. destruct (mapM (idx (d_scripts d)) l) as [is|] eqn:Ei; cbn [bind] in Ez; [|discriminate]. eapply mapM_each; eauto. }
      destruct (N.eq_dec (cardinal (tscript t)) 1) as [K|K].
      - destruct (forest_tree r ts He) as (Hr & Wr & ps & t0 & more & cells & T & _ & Wp). destruct (tree_root _ _ _ _ _ _ T) as (k & _ & E0). assert (H0 : In t0 ts) by (apply (tree_in _ _ _ _ _ _ T); auto).
        destruct (B t0 H0) as [_ B0]; [rewrite E0; apply root_plural, Hr|]. apply (tree_in _ _ _ _ _ _ T) in Ht as [->|[Ht|(x & Hx & ->)]].
        + exfalso. rewrite E0 in K. apply (root_plural r Hr K).
        + exfalso. destruct T as (_ & _ & _ & F & _). rewrite Forall_forall in F. destruct (F t Ht) as (_ & _ & p & _ & _ & _ & _ & N). contradiction.
        + cbn [cell_of tscript]. destruct (B0 cells x) as [i Ei]; [rewrite E0; apply T|exact Hx|]. eapply idx_member; eauto.
      - destruct (B t Ht K) as [[i Ei] _]. eapply idx_member; eauto.
    Qed.
    Lemma rank_at_table r ts t k : In (r, ts) (d_forest d) -> In t ts -> idx (d_scripts d) (tscript t) = Ok k -> rank_at (d_scripts d) (d_forest d) k = Ok (rank t).
    Proof.
      intros He Ht Ik. destruct (rank_of_text r ts t k He Ht Ik) as (t' & Ht' & E' & _ & ->). destruct (unique_table r ts r ts t' t He He Ht' Ht E') as [<- _]. reflexivity.
    Qed.
    Lemma contained_row s i k cm c : compute_contains (d_scripts d) (d_forest d) = Ok cm -> wf s -> wf c -> idx (d_scripts d) s = Ok i -> idx (d_scripts d) c = Ok k -> (In k (row_of (d_scripts d) (transposed cm) i) <-> included s c).
    Proof.
      intros Ec Ws Wc Ei Ek. rewrite row_in, transposed_in, (contains_idx c s k i cm Wc Ws Ek Ei Ec). split; [tauto|]. intros H. split; [|exact H]. destruct (index_some _ _ _ Ek) as (x & Hx & _). apply nth_error_Some. congruence.
    Qed.
    Lemma tables_low r ts x y c : In (r, ts) (d_forest d) -> two_of x y ts -> In c ts -> included (tscript x) (tscript c) -> included (tscript y) (tscript c) -> rank c < 6.
    Proof.
      intros He C Hc Ix Iy. destruct relation_list as (cm & fs & fa & fm & op & ass & cr & tw & rk & R). destruct R as (Ec & _ & _ & _ & _ & _ & _ & _ & Er & El).
      unfold compute_table_rank in Er. destruct (mapM _ (d_forest d)) as [ls|] eqn:Els in Er; cbn [bind] in Er; [|discriminate]. destruct (mapM_each _ _ _ _ Els He) as [l El']. cbn [snd] in El'. clear Er.
      destruct (member_idx _ _ (tables_member r ts c He Hc)) as [k Ik]. destruct (forest_table r ts c He Hc) as [Wc _]. destruct (two_in x y ts C) as [Hx Hy]. destruct (forest_table r ts x He Hx) as [Wx _]. destruct (forest_table r ts y He Hy) as [Wy _].
      assert (Main : exists i j, idx (d_scripts d) (tscript x) = Ok i /\ idx (d_scripts d) (tscript y) = Ok j /\ forall k, In k (row_of (d_scripts d) (transposed cm) i) -> In k (row_of (d_scripts d) (transposed cm) j) -> exists n, rank_at (d_scripts d) (d_forest d) k = Ok n /\ n < 6).
      { apply couples_two in C as [C|C]; destruct (between_low _ _ _ _ _ _ _ El' C) as (i & j & Jx & Jy & Low); [exists i, j|exists j, i]; auto. }
      destruct Main as (i & j & Jx & Jy & Low). destruct (Low k) as (n & En & Ln); [apply (contained_row (tscript x) i k cm (tscript c)); auto|apply (contained_row (tscript y) j k cm (tscript c)); auto|]. rewrite (rank_at_table r ts c k He Hc Ik) in En. apply Ok_inj in En. now subst n.
    Qed.
    (** Two tables of a root which are in the table [c] *)
    Definition share_table (k : nat) (s o : script) : Prop :=
      exists r ts c, In (r, ts) (d_forest d) /\ In c ts /\ rank c = k /\ included s (tscript c) /\ included o (tscript c).
    Definition all_tables : Prop := forall s, In s (d_scripts d) -> exists t, table_of (d_forest d) s = Some t.
    Lemma member_wf s : member d s -> wf s -> exists x, In x (d_scripts d) /\ str x = str s /\ wf x.
    Proof. intros (x & Hx & Ex) W. exists x. split; [exact Hx|]. split; [exact Ex|]. now apply scripts_wf. Qed.
    Lemma table_k_top rel k rk cm s o : compute_contains (d_scripts d) (d_forest d) = Ok cm -> compute_table_rank (d_scripts d) (d_forest d) (transposed cm) = Ok rk -> get_key rel (d_relations d) = Some (of_rank k rk) -> k < 6 -> all_tables ->
      wf s -> wf o -> member d s -> member d o -> (related d rel s o <-> share_table k s o).
    Proof.
      intros Ec Er G Lk At Ws Wo Ms Mo. rewrite (related_spec d _ _ s o (rank_placed _ _ _ _ k Er) G). destruct (member_idx d s Ms) as [i Ei]. destruct (member_idx d o Mo) as [j Ej].
      assert (Tab : forall u, member d u -> exists r ts t, In (r, ts) (d_forest d) /\ In t ts /\ str (tscript t) = str u).
      { intros u (x & Hx & Ex). destruct (At x Hx) as [t Et]. apply table_of_some in Et as ([r ts] & He & Ht & Et). exists r, ts, t. split; [exact He|]. split; [exact Ht|congruence]. }
      assert (Row : forall u a q, wf u -> idx (d_scripts d) u = Ok a -> In q (row_of (d_scripts d) (transposed cm) a) -> exists r ts c, In (r, ts) (d_forest d) /\ In c ts /\ idx (d_scripts d) (tscript c) = Ok q /\ included u (tscript c) /\ rank_at (d_scripts d) (d_forest d) q = Ok (rank c)).
      { intros u a q Wu Ea Hq. pose proof Hq as Hq'. apply row_in in Hq' as [Lq Hin]. apply (proj1 (transposed_in _ _ _)) in Hin. destruct (nth_error (d_scripts d) q) as [x|] eqn:Ex; [|apply nth_error_None in Ex; lia].
        assert (Ix : idx (d_scripts d) x = Ok q). { destruct (contains_placed _ _ _ Ec _ _ Hin) as [->|[[x' Ix] _]]; [destruct (index_some _ _ _ Ea) as (z & Hz & Ez)|destruct (index_some _ _ _ Ix) as (z & Hz & Ez)]; unfold idx in *; [rewrite <- Ea|rewrite <- Ix]; apply index_text; congruence. }
        destruct (Tab x) as (r & ts & c & He & Hc & Et); [exists x; split; [eapply nth_error_In; eauto|reflexivity]|]. exists r, ts, c. split; [exact He|]. split; [exact Hc|]. destruct (forest_table r ts c He Hc) as [Wc _].
        assert (Ik : idx (d_scripts d) (tscript c) = Ok q) by (unfold idx in *; rewrite <- Ix; now apply index_text). split; [exact Ik|]. split; [now apply (contained_row u a q cm (tscript c))|]. eapply rank_at_table; eauto. }
      destruct (table_rank_spec _ _ _ _ k i j Er) as (z & Ez & Q).
      assert (Z : forall n a b, In (n, (a, b)) z <-> a = b /\ n <> 6 /\ exists t q, In t (d_scripts d) /\ idx (d_scripts d) t = Ok a /\ In q (row_of (d_scripts d) (transposed cm) a) /\ rank_at (d_scripts d) (d_forest d) q = Ok n).
      { intros n a b. apply (ranks_of_spec (d_scripts d) (d_forest d) (transposed cm) (d_scripts d)) with (stale := None); [|exact Ez]. intros t a' q Ht Ea Hq. destruct (Row t a' q (scripts_wf t Ht) Ea Hq) as (r & ts & c & _ & _ & _ & _ & E). eauto. }
      transitivity (In (i, j) (of_rank k rk)); [split; [intros (i' & j' & X & Y & H); congruence|eauto]|]. rewrite Q. split.
      - intros [([r ts] & l & He & El & H)|H].
        + apply (between_spec _ _ _ _ _ _ _ _ El) in H as (x & y & q & C & Ix & Iy & Hi & Hj & Rq). destruct (Row s i q Ws Ei Hi) as (r' & ts' & c & He' & Hc & Ic & Is & Rc). rewrite Rq in Rc. apply Ok_inj in Rc. exists r', ts', c. split; [exact He'|]. split; [exact Hc|]. split; [auto|]. split; [exact Is|].
          destruct (forest_table r' ts' c He' Hc) as [Wc _]. now apply (contained_row o j q cm (tscript c)).
        + apply Z in H as (<- & _ & t & q & Ht & It & Hq & Rq). destruct (Row s i q Ws Ei Hq) as (r' & ts' & c & He' & Hc & Ic & Is & Rc). rewrite Rq in Rc. apply Ok_inj in Rc. exists r', ts', c. split; [exact He'|]. split; [exact Hc|]. split; [auto|]. split; [exact Is|].
          destruct (forest_table r' ts' c He' Hc) as [Wc _]. now apply (contained_row o i q cm (tscript c)).
      - intros (r & ts & c & He & Hc & Rk & Is & Io). destruct (forest_table r ts c He Hc) as [Wc _]. destruct (member_idx _ _ (tables_member r ts c He Hc)) as [q Iq]. pose proof (rank_at_table r ts c q He Hc Iq) as Rq. rewrite Rk in Rq.
        assert (Hi : In q (row_of (d_scripts d) (transposed cm) i)) by now apply (contained_row s i q cm (tscript c)). assert (Hj : In q (row_of (d_scripts d) (transposed cm) j)) by now apply (contained_row o j q cm (tscript c)).
        destruct (string_dec (str s) (str o)) as [E|E].
        + right. apply Z. assert (i = j) as <- by (unfold idx in *; rewrite (index_text _ _ _ E) in Ei; congruence). split; [reflexivity|]. split; [lia|]. destruct Ms as (x & Hx & Ex). exists x, q. split; [exact Hx|]. split; [unfold idx in *; rewrite <- Ei; now apply index_text|auto].
        + left. destruct (Tab s Ms) as (r1 & ts1 & x & He1 & Hx & Ex). destruct (Tab o Mo) as (r2 & ts2 & y & He2 & Hy & Ey).
          assert (Sx : In x ts). { destruct (has_same r1 ts1 r ts s (tscript c) Ws Wc) as [_ ->]; auto; split; eauto. }
          assert (Sy : In y ts). { destruct (has_same r2 ts2 r ts o (tscript c) Wo Wc) as [_ ->]; auto; split; eauto. }
          unfold compute_table_rank in Er. destruct (mapM _ (d_forest d)) as [ls|] eqn:Els in Er; cbn [bind] in Er; [|discriminate]. destruct (mapM_each _ _ _ _ Els He) as [l El']. cbn [snd] in El'.
          exists (r, ts), l. split; [exact He|]. split; [exact El'|]. apply (between_spec _ _ _ _ _ _ _ _ El'). exists x, y, q. split.
          * apply couples_two. apply couples_either; auto. intros ->. congruence.
          * unfold idx in *. rewrite (index_text _ _ _ Ex), (index_text _ _ _ Ey). auto.
    Qed.

    (** ** The forest *)
    Lemma root_entry r : In r (d_root_scripts d) -> exists ts, In (r, ts) (d_forest d).
    Proof. intros Hr. rewrite <- forest_roots in Hr. apply in_map_iff in Hr as ([r' ts] & E & H). cbn [fst] in E. subst r'. eauto. Qed.
    Lemma climbs_all r ts t : In (r, ts) (d_forest d) -> In t ts -> climbs r ts t.
    Proof.
      intros He. destruct (forest_tree r ts He) as (_ & Wr & ps & t0 & more & cells & T & _ & Wp). destruct (tree_root _ _ _ _ _ _ T) as (k & _ & E0).
      induction t as [k' s p rg IH] using table_ind'. intros Ht. destruct p as [p|].
      - assert (H : In p ts /\ included s (tscript p)).
        { destruct (tree_parent r ps ts t0 more cells Wr T _ p Ht eq_refl) as [(Hp & I & _)|(Hp & -> & I)]; [auto|]. split; [exact Hp|]. rewrite E0. exact I. }
        destruct H as [Hp I]. apply (step r ts _ p); auto.
      - pose proof (tree_none r ps ts t0 more cells T _ Ht eq_refl) as E. apply at_root; auto. now rewrite E, E0.
    Qed.
    Lemma root_rank r ts t : In (r, ts) (d_forest d) -> In t ts -> tparent t = None -> tscript t = r /\ rank t = 0.
    Proof.
      intros He Ht P. destruct (forest_tree r ts He) as (Hr & Wr & ps & t0 & more & cells & T & _ & Wp). destruct (tree_root _ _ _ _ _ _ T) as (k & Ek & E0). pose proof (tree_none r ps ts t0 more cells T _ Ht P) as ->. rewrite E0. split; [reflexivity|]. cbn [rank]. destruct k; try reflexivity. exfalso. apply (root_plural r Hr). now apply (class_cell r KCell Ek).
    Qed.
    Lemma parent_rank r ts t p : In (r, ts) (d_forest d) -> In t ts -> tparent t = Some p -> rank p <= rank t /\ (is_set p = false -> rank p < rank t).
    Proof.
      intros He Ht P. destruct (forest_tree r ts He) as (Hr & Wr & ps & t0 & more & cells & T & _ & Wp). destruct (tree_root _ _ _ _ _ _ T) as (k & Ek & E0).
      pose proof Ht as Ht'. apply (tree_in _ _ _ _ _ _ T) in Ht' as [->|[Ht'|(x & Hx & ->)]].
      - rewrite E0 in P. discriminate.
      - assert (K : tkind t <> KCell) by (destruct T as (_ & _ & _ & F & _); rewrite Forall_forall in F; apply (F t Ht')). destruct t as [k' s p' rg]. cbn [tparent tkind] in P, K. subst p'. cbn [rank]. destruct k'; try congruence; destruct (is_set p); destruct rg; split; intros; try discriminate; lia.
      - cbn [cell_of tparent] in P. injection P as <-. assert (R0 : rank t0 = 0) by (apply (root_rank r ts t0 He); [apply (tree_in _ _ _ _ _ _ T); auto|rewrite E0; reflexivity]). rewrite R0. cbn [cell_of rank]. split; intros; lia.
    Qed.
    Lemma cell_table r s : In r (d_root_scripts d) -> wf s -> cardinal s = 1%N -> included s r -> exists ts, has_table r ts s.
    Proof.
      intros Hr W C I. destruct (root_entry r Hr) as [ts He]. exists ts. split; [exact He|]. destruct (forest_tree r ts He) as (_ & Wr & ps & t0 & more & cells & T & _ & Wp). destruct (some_word s W) as [w Hw]. pose proof T as (_ & _ & Ess & _). destruct (ss_find r cells w Wr Ess (proj2 I w Hw)) as (x & Hx & Xw & Sx).
      exists (cell_of t0 x). split; [apply (tree_in _ _ _ _ _ _ T); eauto|]. cbn [cell_of tscript]. destruct I as [L _]. apply (sing1_text (layer r)); [exact Sx|split; auto|]. destruct Sx as (Wx & Cx & _). apply wordof_means in Xw; auto. apply wordof_means in Hw; auto. congruence.
    Qed.
    Lemma member_table r s : member d s -> In r (d_root_scripts d) -> wf s -> included s r -> exists ts, has_table r ts s.
    Proof.
      intros M Hr W I. destruct (N.eq_dec (cardinal s) 1) as [C|C]; [now apply cell_table|]. destruct (paradigm_table s M W C) as (r' & ts & H). exists ts. destruct (some_word s W) as [w Hw]. pose proof (has_included r' ts s W H) as [_ M']. assert (r' = r) as <-; [|exact H].
      destruct H as [He _]. destruct (forest_tree r' ts He) as (Hr' & _). apply (disjoint_one _ r' r w roots_disjoint Hr' Hr); [auto|]. apply I, Hw.
    Qed.
    Lemma covered_tables : (forall s t, marked so rows "is_root" s -> marked so rows "is_ignored" t -> str s <> str t) -> all_tables.
    Proof.
      intros Hm s Hs. destruct (scripts_all s Hs) as [Ha [C|T]]; [|exact T]. pose proof (scripts_wf s Hs) as W. destruct (some_word s W) as [w Hw]. destruct An as (_ & _ & _ & _ & _ & _ & _ & Cov & _). destruct (Cov Hm s w Ha Hw) as (r & Hr & Rw).
      assert (Wr : wf r) by (pose proof Wroots as X; rewrite Forall_forall in X; auto). destruct (cell_table r s Hr W C) as (ts & He & t & Ht & Et).
      - split; [eapply share_layer; eauto|]. intros w' Hw'. apply wordof_means in Hw'; auto. apply wordof_means in Hw; auto. congruence.
      - exists t. eapply table_of_iff; eauto.
    Qed.
    Lemma root_of_spec s r : wf s -> root_of d s = Some r -> In r (d_root_scripts d) /\ included s r.
    Proof.
      intros W. unfold root_of. destruct (table_of (d_forest d) s) as [t0|]; [|discriminate]. destruct (find _ _) as [[r' ts]|] eqn:F; [|discriminate]. cbn [option_map fst]. intros E. injection E as ->. apply find_some in F as [F X]. apply in_rev in F. cbn [snd] in X. apply existsb_exists in X as (t & Ht & E). apply script_eqb_str in E. split; [eapply forest_tree; eauto|]. apply (has_included r ts s W). split; eauto.
    Qed.
    Lemma root_of_total s r : member d s -> In r (d_root_scripts d) -> wf s -> included s r -> root_of d s = Some r.
    Proof.
      intros M Hr W I. destruct (member_table r s M Hr W I) as (ts & He & t & Ht & E). unfold root_of. rewrite (table_of_iff r ts s t He Ht E). destruct (find _ _) as [[r' ts']|] eqn:F.
      - cbn [option_map fst]. f_equal. apply find_some in F as [F X]. apply in_rev in F. cbn [snd] in X. apply existsb_exists in X as (t' & Ht' & E'). apply script_eqb_str in E'. destruct (unique_table r ts r' ts' t t' He F Ht Ht') as (_ & <- & _); [congruence|reflexivity].
      - exfalso. apply in_rev in He. apply (find_none _ _ F) in He. cbn [snd] in He. assert (existsb (fun t => script_eqb (tscript t) s) ts = true); [|congruence]. apply existsb_exists. exists t. split; [exact Ht|now apply script_eqb_str].
    Qed.

    (** ** Siblings, in normal form *)
    Hypothesis Nall : Forall nf all.
    Hypothesis Nroots : Forall nf (d_root_scripts d).
    Lemma scripts_nf s : In s (d_scripts d) -> nf s.
    Proof. intros H. rewrite Forall_forall in Nall. apply Nall, scripts_all, H. Qed.
    Lemma table_nf r ts t : In (r, ts) (d_forest d) -> In t ts -> nf (tscript t).
    Proof.
      intros He Ht. destruct (forest_tree r ts He) as (Hr & Wr & ps & t0 & more & cells & T & Ip & Wp). destruct (tree_root _ _ _ _ _ _ T) as (k & Ek & E0). rewrite Forall_forall in Nall, Nroots. apply (tree_in _ _ _ _ _ _ T) in Ht as [->|[Ht|(x & Hx & ->)]].
      - rewrite E0. apply Nroots, Hr.
      - destruct T as (_ & _ & _ & F & _). rewrite Forall_forall in F. apply Nall, Ip, (F t Ht).
      - destruct T as (_ & _ & Ess & _). cbn [cell_of tscript]. destruct (ss_elements r cells Wr Ess) as [F|(y & -> & _)]; [rewrite Forall_forall in F; auto|]. destruct (Nroots _ Hr) as [_ Nn]. exfalso. exact (Nn y eq_refl).
    Qed.
    Lemma tables_differ r ts x y : In (r, ts) (d_forest d) -> two_of x y ts -> str (tscript x) <> str (tscript y).
    Proof.
      intros He C. pose proof (distinct_tables r ts He) as N. assert (Z : forall u v, In (u, v) (couples ts) -> str (tscript u) <> str (tscript v)).
      { intros u v Cu. apply couples_split in Cu as (l1 & l2 & l3 & ->). rewrite map_app in N. cbn [map] in N. apply NoDup_remove_2 in N. intros Z. apply N. rewrite in_app_iff, map_app, in_app_iff. cbn [map In]. auto. }
      apply couples_two in C as [C|C]; apply Z in C; congruence.
    Qed.
    Lemma sibling_scripts rel (R : script -> script -> Prop) s o : (forall a b, R a b -> layer a <> 0) -> textual R -> In s (d_scripts d) -> In o (d_scripts d) -> is_empty s = false -> is_empty o = false ->
      (sibling_tables rel R s o <-> str s <> str o /\ R s o /\ exists r, In r (d_root_scripts d) /\ included s r /\ included o r /\ inhibited (d_inhibitions d) r rel = false).
    Proof.
      intros Hm Tx Hs Ho Es Eo. pose proof (scripts_wf s Hs) as Ws. pose proof (scripts_wf o Ho) as Wo. pose proof (scripts_nf s Hs) as Ns. pose proof (scripts_nf o Ho) as No. split.
      - intros (r & ts & x & y & He & I & _ & C & Ex & Ey & F). destruct (two_in x y ts C) as [Hx Hy]. destruct (forest_table r ts x He Hx) as [Wx Ix]. destruct (forest_table r ts y He Hy) as [Wy Iy].
        split; [|split; [|exists r; split; [eapply forest_tree; eauto|split; [|split; [|exact I]]]]].
        + pose proof (tables_differ r ts x y He C). congruence.
        + apply (Tx (tscript x) (tscript y) s o); auto; try (eapply table_nf; eauto); [destruct (eq_attributes _ _ Wx Ws Ex) as [(_ & _ & _ & _ & _ & _ & A) _]; congruence|destruct (eq_attributes _ _ Wy Wo Ey) as [(_ & _ & _ & _ & _ & _ & A) _]; congruence].
        + apply (inside_trans s (tscript x)); [apply same_text; auto|exact Ix].
        + apply (inside_trans o (tscript y)); [apply same_text; auto|exact Iy].
      - intros (N & F & r & Hr & Is & Io & I). destruct (member_table r s (ex_intro _ s (conj Hs eq_refl)) Hr Ws Is) as (ts & Hts). destruct (member_table r o (ex_intro _ o (conj Ho eq_refl)) Hr Wo Io) as (ts' & Hts').
        destruct Hts as (He & x & Hx & Ex), Hts' as (He' & y & Hy & Ey). assert (ts = ts') as <- by (eapply (NoDup_map_fst (d_forest d)); [rewrite forest_roots; apply roots_nodup|exact He|exact He']).
        exists r, ts, x, y. split; [exact He|]. split; [exact I|]. split; [|split; [|split; [exact Ex|split; [exact Ey|apply (Tx s o); auto; eapply table_nf; eauto]]]].
        + destruct Is as [L _]. rewrite <- L. exact (Hm _ _ F).
        + apply couples_two, couples_either; auto. intros ->. congruence.
    Qed.
  End Relations.
End Top.
