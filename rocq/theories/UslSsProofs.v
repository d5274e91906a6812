(** The singular sequences of polymorphemes and lexemes. *)
From Coq Require Import List String Ascii Bool NArith Arith Lia Sorted Permutation.
From Verif Require Import Base Script SortProofs ScriptWf ScriptStrProofs ScriptOrderProofs ScriptSpec ScriptCtorProofs ScriptEqProofs Commons CommonsProofs Usl UslSpec OrderTheory UslProofs.
Import ListNotations.
Local Open Scope string_scope.

(** ** combinations and product *)
Lemma combinations_spec {A} : forall (l : list A) k c, In c (combinations k l) <-> subseq c l /\ List.length c = k.
Proof.
  induction l as [|x l IH]; intros [|k] c; simpl.
  - split; [intros [<-|[]]; split; [constructor|reflexivity]|intros [H L]; inversion H; auto].
  - split; [tauto|]. intros [H L]. inversion H; subst. discriminate.
  - split; [intros [<-|[]]; split; [constructor|reflexivity]|]. intros [H L]. destruct c; [auto|discriminate].
  - rewrite in_app_iff, in_map_iff. split.
    + intros [(c' & <- & Hc)|Hc]; apply IH in Hc; destruct Hc as [Hc L].
      * split; [constructor; auto|simpl; lia].
      * split; [constructor 3; auto|auto].
    + intros [H L]. inversion H; subst; [discriminate| |].
      * left. exists c0. split; auto. apply IH. simpl in L. split; auto.
      * right. apply IH. auto.
Qed.
Lemma product_spec {A} : forall (ls : list (list A)) c, In c (product ls) <-> Forall2 (@In A) c ls.
Proof.
  induction ls as [|l ls IH]; intros c; simpl.
  - split; [intros [<-|[]]; constructor|inversion 1; auto].
  - rewrite in_flat_map. split.
    + intros (x & Hx & Hc). apply in_map_iff in Hc. destruct Hc as (c' & <- & Hc). constructor; [auto|apply IH; auto].
    + inversion 1; subst. exists x. split; auto. apply in_map. apply IH. auto.
Qed.
Lemma subseq_incl {A} (c l : list A) : subseq c l -> incl c l.
Proof.
  induction 1; intros y Hy; [destruct Hy| |right; auto]. destruct Hy as [->|Hy]; [left; auto|right; auto].
Qed.
Lemma subseq_length {A} (c l : list A) : subseq c l -> List.length c <= List.length l.
Proof. induction 1; simpl; lia. Qed.
Lemma subseq_NoDup {A} (c l : list A) : subseq c l -> NoDup l -> NoDup c.
Proof.
  induction 1; intros N; [constructor| |].
  - inversion N; subst. constructor; auto. intros X. apply (subseq_incl _ _ H) in X; auto.
  - inversion N; auto.
Qed.
Lemma subseq_filter {A} (f : A -> bool) l : subseq (filter f l) l.
Proof. induction l as [|x l IH]; simpl; [constructor|]. destruct (f x); constructor; auto. Qed.

Lemma Forall2_perm {A B} (R : A -> B -> Prop) : forall l l', Permutation l l' -> forall m, Forall2 R m l -> exists m', Permutation m m' /\ Forall2 R m' l'.
Proof.
  assert (X : forall (l l' : list B), Permutation l l' -> forall m : list A, Forall2 R m l -> exists m', Permutation m m' /\ Forall2 R m' l').
  { induction 1 as [|x l l' P IH|x y l|l1 l2 l3 P1 IH1 P2 IH2]; intros m F.
    - inversion F; subst. exists []. auto.
    - inversion F; subst. destruct (IH _ H3) as (m' & Pm & Fm). exists (x0 :: m'). auto.
    - inversion F as [|a b ? ? H1 H2]; subst. inversion H2 as [|a' b' ? ? H3 H4]; subst. exists (a' :: a :: l1). split; [apply perm_swap|auto].
    - destruct (IH1 _ F) as (m1 & Pm1 & F1). destruct (IH2 _ F1) as (m2 & Pm2 & F2). exists m2. split; [eapply perm_trans; eauto|auto]. }
  exact X.
Qed.
Lemma concat_perm {A} (l l' : list (list A)) : Permutation l l' -> Permutation (List.concat l) (List.concat l').
Proof.
  induction 1; simpl; auto.
  - apply Permutation_app_head; auto.
  - rewrite !app_assoc. apply Permutation_app_tail, Permutation_app_comm.
  - eapply perm_trans; eauto.
Qed.

(** ** Splitting the indexes *)
Definition inx (i : nat) (l : list nat) : bool := existsb (Nat.eqb i) l.
Lemma inx_spec i l : inx i l = true <-> In i l.
Proof.
  unfold inx. rewrite existsb_exists. split; [intros (x & H & E); apply Nat.eqb_eq in E; subst; auto|intros H; exists i; split; [auto|apply Nat.eqb_refl]].
Qed.
Lemma NoDup_app2 {A} (a b : list A) : NoDup a -> NoDup b -> (forall x, In x a -> ~ In x b) -> NoDup (a ++ b).
Proof.
  induction 1 as [|x a Hx Na IH]; intros Nb D; simpl; auto. constructor.
  - rewrite in_app_iff. intros [H|H]; [auto|]. apply (D x); [left; auto|auto].
  - apply IH; auto. intros y Hy. apply D. right. auto.
Qed.
Lemma indexes_perm n ix : subseq ix (seq 0 n) -> Permutation (ix ++ filter (fun i => negb (inx i ix)) (seq 0 n)) (seq 0 n).
Proof.
  intros S. apply NoDup_Permutation; [|apply seq_NoDup|].
  - apply NoDup_app2.
    + eapply subseq_NoDup; [exact S|apply seq_NoDup].
    + apply NoDup_filter, seq_NoDup.
    + intros x Hx Hf. apply filter_In in Hf. destruct Hf as [_ Hf]. apply inx_spec in Hx. rewrite Hx in Hf. discriminate.
  - intros x. rewrite in_app_iff, filter_In. split; [intros [H|[H _]]; auto; apply (subseq_incl _ _ S); auto|].
    intros H. destruct (inx x ix) eqn:E; [left; apply inx_spec; auto|right; split; [auto|reflexivity]].
Qed.

Lemma minl_le l x : In x l -> minl l <= x.
Proof.
  destruct l as [|y l]; [intros []|]. simpl. assert (X : forall l a, fold_left Nat.min l a <= a /\ forall x, In x l -> fold_left Nat.min l a <= x).
  { clear. induction l as [|z l IH]; intros a; simpl; [split; [lia|tauto]|]. destruct (IH (Nat.min a z)) as [H1 H2].
    split; [lia|]. intros x [<-|Hx]; [lia|auto]. }
  destruct (X l y) as [H1 H2]. intros [<-|H]; auto.
Qed.
Lemma minl_in l : l <> [] -> In (minl l) l.
Proof.
  destruct l as [|y l]; [congruence|]. intros _. simpl. assert (X : forall l a, fold_left Nat.min l a = a \/ In (fold_left Nat.min l a) l).
  { clear. induction l as [|z l IH]; intros a; simpl; [auto|]. destruct (IH (Nat.min a z)) as [H|H]; [|auto].
    rewrite H. destruct (Nat.min_spec a z) as [[_ ->]|[_ ->]]; auto. }
  destruct (X l y) as [->|H]; auto.
Qed.

Lemma Forall2_len {A B} (R : A -> B -> Prop) l m : Forall2 R l m -> List.length l = List.length m.
Proof. induction 1; simpl; congruence. Qed.
Lemma Forall2_nth {A B} (R : A -> B -> Prop) : forall l m i a b, Forall2 R l m -> i < List.length l -> R (nth i l a) (nth i m b).
Proof. intros l m i a b F. revert i. induction F; intros [|i] H1; simpl in *; try lia; auto. apply IHF. lia. Qed.
Lemma Forall2_in_l {A B} (R : A -> B -> Prop) l m : Forall2 R l m -> forall a, In a l -> exists b, In b m /\ R a b.
Proof. induction 1; intros x0 []; subst; [eexists; split; [left; auto|auto]|]. destruct (IHForall2 _ H1) as (b & Hb & Rb). exists b. split; [right; auto|auto]. Qed.
Lemma nth_seq_map {A} (l : list A) d : map (fun i => nth i l d) (seq 0 (List.length l)) = l.
Proof. induction l as [|x l IH]; [reflexivity|]. cbn [List.length seq map nth]. f_equal. rewrite <- seq_shift, map_map. exact IH. Qed.
Lemma Forall2_same {A B} (R : A -> B -> Prop) (f : A -> B) l : (forall a, In a l -> R a (f a)) -> Forall2 R l (map f l).
Proof. induction l; simpl; intros H; constructor; auto. Qed.

Section Picks.
  Variable gs : list group.
  Hypothesis gs_ne : gs <> [].
  Let n := n_groups gs.
  Lemma n_pos : 0 < n.
  Proof. unfold n, n_groups. destruct gs; [congruence|simpl; lia]. Qed.
  Let glen (g : group) := List.length (fst g).
  Lemma min_len_eq : min_len gs = minl (map glen gs).
  Proof. reflexivity. Qed.
  Lemma min_len_in : exists g, In g gs /\ glen g = min_len gs.
  Proof.
    rewrite min_len_eq. assert (X : In (minl (map glen gs)) (map glen gs)) by (apply minl_in; destruct gs; [congruence|discriminate]).
    apply in_map_iff in X. destruct X as (g & E & Hg). exists g. auto.
  Qed.
  Lemma min_len_le g : In g gs -> min_len gs <= List.length (fst g).
  Proof. intros H. rewrite min_len_eq. apply minl_le. apply (in_map glen). auto. Qed.
  Lemma min_len_spec q : q <= min_len gs <-> Forall (fun g => q <= List.length (fst g)) gs.
  Proof.
    rewrite Forall_forall. split.
    - intros H g Hg. eapply Nat.le_trans; [exact H|]. apply min_len_le. auto.
    - intros H. destruct min_len_in as (g & Hg & <-). apply H. auto.
  Qed.

  (** The loop of 107-127 visits [i] until [q] exceeds the shortest group or a multiplicity. *)
  Definition open (q : nat) : Prop := Forall (fun g => q <= List.length (fst g) /\ q <= snd g) gs.
  Lemma open_spec q : q <= S (min_len gs) -> ((Nat.eqb q (S (min_len gs)) || existsb (exceeds gs q) gs)%bool = false <-> open q).
  Proof.
    intros B. unfold open. rewrite orb_false_iff, Nat.eqb_neq. split.
    - intros [H1 H2]. assert (Q : q <= min_len gs) by lia. pose proof (proj1 (min_len_spec q) Q) as F. rewrite Forall_forall in *.
      intros g Hg. split; [auto|]. destruct (Nat.le_gt_cases q (snd g)) as [|L]; auto.
      assert (X : existsb (exceeds gs q) gs = true). { apply existsb_exists. exists g. split; auto. unfold exceeds. rewrite andb_true_iff, Nat.ltb_lt, Nat.leb_le. auto. }
      congruence.
    - intros F. rewrite Forall_forall in F. assert (Q : q <= min_len gs) by (apply min_len_spec, Forall_forall; intros; apply F; auto).
      split; [lia|]. destruct (existsb (exceeds gs q) gs) eqn:X; auto. apply existsb_exists in X. destruct X as (g & Hg & X).
      unfold exceeds in X. rewrite andb_true_iff, Nat.ltb_lt, Nat.leb_le in X. specialize (F g Hg). lia.
  Qed.
  Lemma open_down q q' : q' <= q -> open q -> open q'.
  Proof. intros H. apply Forall_impl. intros; lia. Qed.

  Definition at_step (i : nat) : list (list (list script)) := flat_map (choices gs (i / n)) (combinations (i mod n) (seq 0 n)).
  Lemma iter_spec fuel : forall i x, i + fuel <= S (n * S (min_len gs)) ->
    (In x (iter_groups gs fuel i) <-> exists j, i <= j < i + fuel /\ open (j / n) /\ In x (at_step j)).
  Proof.
    pose proof n_pos as Np.
    assert (DB : forall i, i <= n * S (min_len gs) -> i / n <= S (min_len gs)).
    { intros i Hi. apply Nat.div_le_upper_bound; lia. }
    induction fuel as [|fuel IH]; intros i x B; cbn [iter_groups].
    - split; [intros []|intros (j & H & _); lia].
    - fold n. pose proof (open_spec (i / n) (DB i ltac:(lia))) as OS.
      destruct (Nat.eqb (i / n) (S (min_len gs)) || existsb (exceeds gs (i / n)) gs)%bool eqn:E.
      + split; [intros []|]. intros (j & Hj & O & _). assert (O' : open (i / n)) by (eapply open_down; [|exact O]; apply Nat.div_le_mono; lia).
        apply OS in O'. congruence.
      + assert (O : open (i / n)) by (apply OS; reflexivity). rewrite in_app_iff, IH by lia. split.
        * intros [H|(j & Hj & Oj & H)]; [exists i; split; [lia|split; auto]|exists j; split; [lia|split; auto]].
        * intros (j & Hj & Oj & H). destruct (Nat.eq_dec i j) as [<-|N]; [left; auto|right; exists j; split; [lia|split; auto]].
  Qed.

  Definition take (q : nat) (ix : list nat) (i : nat) : list (list script) :=
    combinations (if inx i ix then S q else q) (fst (group_at gs i)).
  Lemma choices_lists q ix : subseq ix (seq 0 n) ->
    (map (fun i => combinations (S q) (fst (group_at gs i))) ix ++
     map (fun i => combinations q (fst (group_at gs i))) (filter (fun i => negb (existsb (Nat.eqb i) ix)) (seq 0 n)))%list =
    map (take q ix) (ix ++ filter (fun i => negb (inx i ix)) (seq 0 n)).
  Proof.
    intros _. rewrite map_app. f_equal.
    - apply map_ext_in. intros i Hi. unfold take. apply inx_spec in Hi. rewrite Hi. reflexivity.
    - apply map_ext_in. intros i Hi. apply filter_In in Hi. destruct Hi as [_ Hi]. fold (inx i ix) in Hi. apply negb_true_iff in Hi. unfold take. rewrite Hi. reflexivity.
  Qed.

  (** The condition on the group [i] when it gives [q + 1] morphemes. *)
  Definition extra (q : nat) (g : group) : Prop := S q <= List.length (fst g) /\ (S q <= snd g \/ exists h, In h gs /\ List.length (fst h) = q).
  Lemma extra_spec q g : open q -> (extra q g <-> exceeds gs (S q) g = false /\ Nat.leb (List.length (fst g)) q = false).
  Proof.
    intros O. unfold extra, exceeds. rewrite Nat.leb_gt, andb_false_iff, Nat.ltb_ge, Nat.leb_gt.
    assert (M : q <= min_len gs) by (apply min_len_spec; eapply Forall_impl; [|exact O]; simpl; tauto).
    assert (X : min_len gs < S q <-> exists h, In h gs /\ List.length (fst h) = q).
    { split.
      - intros H. assert (E : min_len gs = q) by lia. destruct min_len_in as (h & Hh & Eh). exists h. split; [auto|]. unfold glen in Eh. congruence.
      - intros (h & Hh & Eh). apply Nat.lt_succ_r. rewrite <- Eh. apply min_len_le. auto. }
    rewrite X. split; intros; split; try tauto; lia.
  Qed.

  Lemma in_gs i : i < n -> In (group_at gs i) gs.
  Proof. intros H. apply nth_In. exact H. Qed.
  Lemma map_group_at : map (group_at gs) (seq 0 n) = gs.
  Proof.
    unfold n, n_groups, group_at. clear. change (fun i => nth i gs ([], 0)) with (fun i => nth (i - 0) gs ([], 0)) || idtac.
    induction gs as [|g l IH]; [reflexivity|]. cbn [List.length seq map nth]. f_equal. rewrite <- seq_shift, map_map. exact IH.
  Qed.
  Lemma Forall2_map_l {A B C} (R : B -> C -> Prop) (f : A -> B) : forall l m, Forall2 R (map f l) m <-> Forall2 (fun a c => R (f a) c) l m.
  Proof.
    induction l as [|a l IH]; intros m; simpl; [split; inversion 1; constructor|].
    split; (inversion 1; subst; constructor; [auto|apply IH; auto]).
  Qed.
  Lemma Forall2_flip {A B} (R : A -> B -> Prop) : forall l m, Forall2 R l m <-> Forall2 (fun b a => R a b) m l.
  Proof. induction l; intros m; (split; [inversion 1; subst; constructor; auto; apply IHl; auto|]); destruct m; inversion 1; subst; constructor; auto; apply IHl; auto. Qed.
  Lemma Forall2_in_impl {A B} (R R' : A -> B -> Prop) : forall l m, (forall a b, In a l -> R a b -> R' a b) -> Forall2 R l m -> Forall2 R' l m.
  Proof. induction 2; constructor; [apply H; [left; auto|auto]|]. apply IHForall2. intros. apply H; [right; auto|auto]. Qed.

  Lemma choices_spec q ix : open q -> subseq ix (seq 0 n) -> forall cs, In cs (choices gs q ix) <->
    Forall (fun i => extra q (group_at gs i)) ix /\
    Forall2 (@In _) cs (map (take q ix) (ix ++ filter (fun i => negb (inx i ix)) (seq 0 n))).
  Proof.
    intros O S cs. unfold choices.
    destruct (existsb (fun j => exceeds gs (Datatypes.S q) (group_at gs j)) ix) eqn:E1.
    { apply existsb_exists in E1. destruct E1 as (j & Hj & E1). split; [intros []|]. intros [F _]. rewrite Forall_forall in F.
      specialize (F j Hj). apply extra_spec in F; auto. destruct F. congruence. }
    destruct (existsb (fun j => Nat.leb (List.length (fst (group_at gs j))) q) ix) eqn:E2.
    { apply existsb_exists in E2. destruct E2 as (j & Hj & E2). split; [intros []|]. intros [F _]. rewrite Forall_forall in F.
      specialize (F j Hj). apply extra_spec in F; auto. destruct F. congruence. }
    fold n. rewrite choices_lists by auto. rewrite product_spec. split; [|tauto]. intros H. split; [|auto].
    apply Forall_forall. intros j Hj. apply extra_spec; auto. split.
    - destruct (exceeds gs (Datatypes.S q) (group_at gs j)) eqn:X; auto.
      assert (Y : existsb (fun j => exceeds gs (Datatypes.S q) (group_at gs j)) ix = true) by (apply existsb_exists; exists j; auto). congruence.
    - destruct (Nat.leb (List.length (fst (group_at gs j))) q) eqn:X; auto.
      assert (Y : existsb (fun j => Nat.leb (List.length (fst (group_at gs j))) q) ix = true) by (apply existsb_exists; exists j; auto). congruence.
  Qed.

  Definition picks_at (q : nat) (cs : list (list script)) : Prop :=
    Forall2 (fun g c => subseq c (fst g) /\ (List.length c = q \/ (List.length c = S q /\ extra q g))) gs cs.
  Lemma picks_alt cs : picks gs cs <-> exists q, open q /\ picks_at q cs.
  Proof.
    unfold picks, picks_at, extra. split; intros (q & O & F); exists q; (split; [exact O|]); (eapply Forall2_in_impl; [|exact F]); intros g c _.
    - intros (S & [L|(L & X)]); split; auto. right. split; [auto|]. split; [|auto]. apply subseq_length in S. lia.
    - intros (S & [L|(L & _ & X)]); split; auto.
  Qed.

  (** Each choice of the program is a choice of the specification up to the order. *)
  Lemma step_sound q ix cs : open q -> subseq ix (seq 0 n) -> In cs (choices gs q ix) -> exists cs', Permutation cs cs' /\ picks_at q cs'.
  Proof.
    intros O S H. apply choices_spec in H; auto. destruct H as [X F].
    destruct (Forall2_perm (@In _) _ _ (Permutation_map (take q ix) (indexes_perm n ix S)) cs F) as (cs' & P & F').
    exists cs'. split; auto. unfold picks_at. rewrite <- map_group_at, Forall2_map_l.
    apply Forall2_flip in F'. rewrite Forall2_map_l in F'. eapply Forall2_in_impl; [|exact F']. intros i c Hi Hc.
    unfold take in Hc. apply combinations_spec in Hc. destruct Hc as [Sc L]. split; auto. destruct (inx i ix) eqn:E; [|auto]. right. split; auto.
    rewrite Forall_forall in X. apply X, inx_spec. auto.
  Qed.
  Lemma step_complete q cs : open q -> picks_at q cs -> Exists (fun c => List.length c = q) cs ->
    exists ix cs', subseq ix (seq 0 n) /\ List.length ix < n /\ Permutation cs cs' /\ In cs' (choices gs q ix).
  Proof.
    intros O F E. set (ix := filter (fun i => Nat.eqb (List.length (nth i cs [])) (S q)) (seq 0 n)).
    assert (Lc : List.length cs = n) by (symmetry; eapply Forall2_len; exact F).
    assert (Sx : subseq ix (seq 0 n)) by apply subseq_filter.
    assert (N : forall i, i < n -> subseq (nth i cs []) (fst (group_at gs i)) /\
      (List.length (nth i cs []) = q \/ (List.length (nth i cs []) = S q /\ extra q (group_at gs i)))).
    { intros i Hi. exact (Forall2_nth _ _ _ i ([],0) [] F Hi). }
    assert (F2 : Forall2 (@In _) cs (map (take q ix) (seq 0 n))).
    { apply Forall2_flip. rewrite Forall2_map_l. rewrite <- (nth_seq_map cs []) at 1. rewrite Lc.
      apply Forall2_same. intros i Hi. apply in_seq in Hi. unfold take. apply combinations_spec.
      destruct (N i ltac:(lia)) as [Sc L]. split; auto. destruct (inx i ix) eqn:Ei.
      - apply inx_spec in Ei. apply filter_In in Ei. destruct Ei as [_ Ei]. apply Nat.eqb_eq in Ei. auto.
      - destruct L as [L|[L _]]; auto. exfalso. assert (In i ix). { apply filter_In. split; [apply in_seq; lia|apply Nat.eqb_eq; auto]. }
        apply inx_spec in H. congruence. }
    destruct (Forall2_perm (@In _) _ _ (Permutation_sym (Permutation_map (take q ix) (indexes_perm n ix Sx))) cs F2) as (cs' & P & F').
    exists ix, cs'. split; [auto|]. split.
    - assert (X : exists i, i < n /\ ~ In i ix).
      { apply Exists_exists in E. destruct E as (c & Hc & L). apply (In_nth _ _ []) in Hc. destruct Hc as (i & Hi & <-).
        exists i. split; [lia|]. intros X. apply filter_In in X. destruct X as [_ X]. apply Nat.eqb_eq in X. lia. }
      destruct X as (i & Hi & Ni). assert (Nd : NoDup (i :: ix)).
      { constructor; auto. eapply subseq_NoDup; [exact Sx|apply seq_NoDup]. }
      assert (Lx : List.length (i :: ix) <= List.length (seq 0 n)).
      { apply NoDup_incl_length; auto. intros j [<-|Hj]; [apply in_seq; lia|apply (subseq_incl _ _ Sx); auto]. }
      rewrite seq_length in Lx. simpl in Lx. lia.
    - split; auto. apply choices_spec; auto. split; auto. apply Forall_forall. intros i Hi.
      pose proof Hi as Hi2. apply filter_In in Hi. destruct Hi as [Hi L]. apply in_seq in Hi. apply Nat.eqb_eq in L.
      destruct (N i ltac:(lia)) as [_ [X|[_ X]]]; [lia|auto].
  Qed.

  Lemma groups_combinations_sound cs : In cs (groups_combinations gs) -> exists cs', Permutation cs cs' /\ picks gs cs'.
  Proof.
    intros H. unfold groups_combinations in H. fold n in H. apply iter_spec in H; [|lia]. destruct H as (j & _ & O & H).
    unfold at_step in H. apply in_flat_map in H. destruct H as (ix & Hi & H). apply combinations_spec in Hi. destruct Hi as [Si _].
    destruct (step_sound _ _ _ O Si H) as (cs' & P & X). exists cs'. split; auto. apply picks_alt. eauto.
  Qed.
  Lemma groups_combinations_complete cs : picks gs cs -> exists cs', Permutation cs cs' /\ In cs' (groups_combinations gs).
  Proof.
    intros H. apply picks_alt in H. destruct H as (q & O & F). pose proof n_pos as Np.
    assert (R : exists q, open q /\ picks_at q cs /\ Exists (fun c => List.length c = q) cs).
    { destruct (Exists_dec (fun c : list script => List.length c = q) cs (fun c => Nat.eq_dec _ _)) as [E|E]; [eauto|].
      assert (A : Forall2 (fun g c => subseq c (fst g) /\ List.length c = S q /\ extra q g) gs cs).
      { clear -E F. unfold picks_at in F. induction F as [|g c l cs' H F IH]; constructor.
        - destruct H as [S [L|L]]; [exfalso; apply E; left; auto|tauto].
        - apply IH. intros X. apply E. right. auto. }
      exists (S q). split; [|split].
      - apply Forall_forall. intros g Hg. destruct (Forall2_in_l _ _ _ A g Hg) as (c & _ & S & L & X1 & X2). split; auto.
        destruct X2 as [|(h & Hh & Lh)]; auto. destruct (Forall2_in_l _ _ _ A h Hh) as (c' & _ & S' & L' & X1' & _). lia.
      - eapply Forall2_in_impl; [|exact A]. intros g c _ (S & L & _). auto.
      - inversion A as [E1 E2|g c l cs2 H A2 E1 E2]; [exfalso; apply gs_ne; symmetry; assumption|]. left. tauto. }
    clear q O F. destruct R as (q & O & F & E). destruct (step_complete q cs O F E) as (ix & cs' & Si & L & P & H).
    exists cs'. split; auto. unfold groups_combinations. fold n. apply iter_spec; [lia|].
    exists (q * n + List.length ix). assert (D : (q * n + List.length ix) / n = q) by (rewrite Nat.div_add_l by lia; rewrite Nat.div_small by lia; lia).
    assert (M : (q * n + List.length ix) mod n = List.length ix) by (rewrite Nat.add_comm, Nat.mod_add by lia; apply Nat.mod_small; lia).
    assert (Q : q <= min_len gs) by (apply min_len_spec; eapply Forall_impl; [|exact O]; simpl; tauto).
    split; [nia|]. rewrite D. split; [exact O|]. unfold at_step. rewrite D, M. apply in_flat_map. exists ix. split; auto.
    apply combinations_spec. auto.
  Qed.
End Picks.

(** ** Distinct elements *)
Lemma FOP_NoDup l : ForallOrdPairs (fun x y => script_eqb x y = false) l -> NoDup (map str l).
Proof.
  induction 1 as [|x l H F IH]; simpl; constructor; auto. rewrite in_map_iff. intros (y & E & Hy). rewrite Forall_forall in H. specialize (H y Hy).
  assert (script_eqb x y = true) by (apply script_eqb_eq; auto). congruence.
Qed.
Lemma dedup_distinct_of l : distinct_of l (dedup script_eqb l).
Proof.
  split; [apply FOP_NoDup, dedup_distinct, script_eqb_sym|]. split.
  - intros x Hx. apply dedup_in in Hx. auto.
  - intros x Hx. destruct (dedup_complete script_eqb script_eqb_refl l x Hx) as (y & Hy & E). apply script_eqb_eq in E. rewrite E. apply in_map. auto.
Qed.
Lemma distinct_of_perm l d d' : Permutation d d' -> distinct_of l d -> distinct_of l d'.
Proof.
  intros P (N & I & C). split; [eapply Permutation_NoDup; [apply Permutation_map; exact P|auto]|]. split.
  - intros x Hx. apply I. eapply Permutation_in; [apply Permutation_sym; exact P|auto].
  - intros x Hx. eapply Permutation_in; [apply Permutation_map; exact P|auto].
Qed.
Lemma distinct_of_equiv l l' d : (forall x, In x l <-> In x l') -> distinct_of l d -> distinct_of l' d.
Proof. intros E (N & I & C). split; auto. split; [intros x Hx; apply E; auto|intros x Hx; apply C, E; auto]. Qed.
Lemma distinct_of_unique l d d' : distinct_of l d -> distinct_of l d' -> Permutation (map str d) (map str d').
Proof.
  intros (N & I & C) (N' & I' & C'). apply NoDup_Permutation; auto.
  intros t. rewrite !in_map_iff. split; intros (x & <- & Hx).
  - apply in_map_iff. apply C', I. auto.
  - apply in_map_iff. apply C, I'. auto.
Qed.
Lemma meaningful_perm : forall l l', Forall nf l -> Forall nf l' -> Permutation (map str l) (map str l') -> Permutation (map str (filter_empty l)) (map str (filter_empty l')).
Proof.
  intros l l' F F' P. destruct (Permutation_map_inv str l' P) as (l1 & E & P1).
  assert (F1 : Forall nf l1) by (eapply Permutation_Forall; [exact P1|auto]).
  rewrite (filter_empty_str l l1 F F1 E). apply Permutation_map, Permutation_sym.
  unfold filter_empty. clear -P1. induction P1; simpl; auto.
  - destruct (negb (is_empty x)); auto.
  - destruct (negb (is_empty x)), (negb (is_empty y)); auto. apply perm_swap.
  - eapply perm_trans; eauto.
Qed.
Lemma mk_pm_flat_str d d' : Forall nf d -> Forall nf d' -> Permutation (map str d) (map str d') -> pm_str (mk_pm d []) = pm_str (mk_pm d' []).
Proof.
  intros F F' P. apply pm_str_key; [apply mk_pm_ok; auto|apply mk_pm_ok; auto|]. unfold pkey. f_equal.
  apply mk_pm_constant_key; auto. apply meaningful_perm; auto.
Qed.

(** ** The dictionary of the traits *)
Lemma last_items_sub {K V} (eqb : K -> K -> bool) (l : list (K * V)) : incl (last_items eqb l) l.
Proof.
  induction l as [|[k v] l IH]; intros x Hx; [destruct Hx|]. simpl in Hx. destruct (has_key eqb k l); [right; auto|].
  destruct Hx as [<-|Hx]; [left; auto|right; auto].
Qed.
Lemma traits_items (ps : list pm) :
  let l := map snd (set_items String.eqb (map (fun p => (pm_str p, p)) ps)) in
  NoDup (map pm_str l) /\ incl l ps /\ (forall t, In t (map pm_str l) <-> In t (map pm_str ps)).
Proof.
  intros l. assert (I : incl (set_items String.eqb (map (fun p => (pm_str p, p)) ps)) (map (fun p => (pm_str p, p)) ps)).
  { rewrite (set_items_last String.eqb String.eqb_eq). apply last_items_sub. }
  assert (E : map pm_str l = map fst (set_items String.eqb (map (fun p => (pm_str p, p)) ps))).
  { unfold l. rewrite map_map. apply map_ext_in. intros kv H. apply I in H. apply in_map_iff in H. destruct H as (p & <- & _). reflexivity. }
  split; [rewrite E; apply (set_items_nodup String.eqb String.eqb_eq)|]. split.
  - intros p Hp. unfold l in Hp. apply in_map_iff in Hp. destruct Hp as (kv & <- & H). apply I in H. apply in_map_iff in H. destruct H as (p & <- & Hp). auto.
  - intros t. rewrite E, (set_items_last String.eqb String.eqb_eq), (last_items_keys String.eqb String.eqb_eq). rewrite map_map. reflexivity.
Qed.

Definition trait_list (so : list script -> list script) (gs : list group) (constants : list script) : list pm :=
  flat_map (fun g =>
      let morphemes := so (dedup script_eqb (List.concat g ++ constants)%list) in
      if (Nat.eqb (List.length morphemes) 0 || Nat.ltb MORPHEME_SERIE_SIZE_LIMIT_CONTENT (List.length morphemes))%bool
      then [] else [mk_pm morphemes []]) (groups_combinations gs).
Lemma trait_list_spec so gs constants : set_order so -> gs <> [] -> forall p, In p (trait_list so gs constants) ->
  exists cs d, picks gs cs /\ distinct_of (List.concat cs ++ constants) d /\ 1 <= List.length d <= 5 /\ p = mk_pm d [].
Proof.
  intros SO N p H. unfold trait_list in H. apply in_flat_map in H. destruct H as (g & Hg & H). cbv zeta in H.
  destruct (groups_combinations_sound gs N g Hg) as (cs & P & K). set (d := so _) in H.
  destruct (Nat.eqb_spec (List.length d) 0) as [|L0]; [destruct H|]. destruct (Nat.ltb_spec MORPHEME_SERIE_SIZE_LIMIT_CONTENT (List.length d)) as [|L5]; [destruct H|].
  destruct H as [<-|[]]. exists cs, d. split; auto. split.
  - apply distinct_of_equiv with (l := (List.concat g ++ constants)%list).
    + intros x. rewrite !in_app_iff. pose proof (concat_perm _ _ P) as Pc. split; (intros [H|H]; [left|auto]); eapply Permutation_in; try exact H; auto using Permutation_sym.
    + eapply distinct_of_perm; [apply Permutation_sym, SO|]. apply dedup_distinct_of.
  - split; [|reflexivity]. unfold MORPHEME_SERIE_SIZE_LIMIT_CONTENT in L5. lia.
Qed.
Lemma picks_in gs cs : picks gs cs -> forall x, In x (List.concat cs) -> exists g, In g gs /\ In x (fst g).
Proof.
  intros (q & _ & F) x Hx. apply in_concat in Hx. destruct Hx as (c & Hc & Hx).
  assert (Y : exists g, In g gs /\ subseq c (fst g)).
  { clear -F Hc. induction F as [|g c' l cs' [H _] F IH]; [destruct Hc|]. destruct Hc as [->|Hc].
    - exists g. split; [left; auto|auto].
    - destruct (IH Hc) as (h & Hh & S). exists h. split; [right; auto|auto]. }
  destruct Y as (g & Hg & S). exists g. split; auto. apply (subseq_incl _ _ S). auto.
Qed.
Lemma distinct_nf gs cs constants d : Forall gok gs -> Forall nf constants -> picks gs cs -> distinct_of (List.concat cs ++ constants) d -> Forall nf d.
Proof.
  intros Fg Fc K (_ & I & _). apply Forall_forall. intros x Hx. apply I in Hx. rewrite Forall_forall in *. apply in_app_iff in Hx. destruct Hx as [Hx|Hx]; auto.
  destruct (picks_in _ _ K x Hx) as (g & Hg & Hi). specialize (Fg g Hg). unfold gok in Fg. rewrite Forall_forall in Fg. auto.
Qed.
Lemma trait_list_complete so gs constants t : set_order so -> gs <> [] -> Forall gok gs -> Forall nf constants ->
  (exists cs, picks gs cs /\ result_of constants cs t) -> In t (map pm_str (trait_list so gs constants)).
Proof.
  intros SO N Fg Fc (cs & K & d & D & L & ->). destruct (groups_combinations_complete gs N cs K) as (g & P & Hg).
  set (d' := so (dedup script_eqb (List.concat g ++ constants)%list)).
  assert (D' : distinct_of (List.concat cs ++ constants) d').
  { apply distinct_of_equiv with (l := (List.concat g ++ constants)%list).
    + intros x. rewrite !in_app_iff. pose proof (concat_perm _ _ P) as Pc. split; (intros [H|H]; [left|auto]); eapply Permutation_in; try exact H; auto using Permutation_sym.
    + eapply distinct_of_perm; [apply Permutation_sym, SO|]. apply dedup_distinct_of. }
  pose proof (distinct_of_unique _ _ _ D D') as U.
  assert (L' : List.length d' = List.length d) by (apply Permutation_length in U; rewrite !map_length in U; auto).
  rewrite (mk_pm_flat_str d d'); [|eapply distinct_nf; eauto|eapply distinct_nf; eauto|auto].
  apply in_map. unfold trait_list. apply in_flat_map. exists g. split; auto. cbv zeta. fold d'. rewrite L'.
  destruct (Nat.eqb_spec (List.length d) 0); [lia|]. destruct (Nat.ltb_spec MORPHEME_SERIE_SIZE_LIMIT_CONTENT (List.length d)) as [X|X].
  - unfold MORPHEME_SERIE_SIZE_LIMIT_CONTENT in X. lia.
  - left. reflexivity.
Qed.
Lemma traits_spec so gs constants : set_order so -> gs <> [] -> Forall gok gs -> Forall nf constants ->
  NoDup (map pm_str (traits so gs constants)) /\
  (forall t, In t (map pm_str (traits so gs constants)) <-> exists cs, picks gs cs /\ result_of constants cs t) /\
  (forall p, In p (traits so gs constants) -> exists cs d, picks gs cs /\ distinct_of (List.concat cs ++ constants) d /\ 1 <= List.length d <= 5 /\ p = mk_pm d []).
Proof.
  intros SO N Fg Fc. destruct (traits_items (trait_list so gs constants)) as (H1 & H2 & H3). fold (traits so gs constants) in *.
  change (map snd (set_items String.eqb (map (fun p => (pm_str p, p)) (trait_list so gs constants)))) with (traits so gs constants) in *.
  split; [auto|]. split.
  - intros t. rewrite H3. split; [|apply trait_list_complete; auto]. intros H. apply in_map_iff in H. destruct H as (p & <- & Hp).
    apply trait_list_spec in Hp; auto. destruct Hp as (cs & d & K & D & L & ->). exists cs. split; auto. exists d. auto.
  - intros p Hp. apply H2 in Hp. apply (trait_list_spec so); auto.
Qed.
Lemma pm_ss_groups so p : groups p <> [] -> pm_ss so p = traits so (groups p) (constant p).
Proof. unfold pm_ss. destruct (groups p); congruence. Qed.
Lemma nonempty_ss so p : set_order so -> pok p -> List.length (constant p) <= 5 -> NoDup (map str (constant p)) -> pm_ss so p <> [].
Proof.
  intros SO [[H1 H2] H3] L Nd. assert (D : groups p = [] \/ groups p <> []) by (destruct (groups p); [left; reflexivity|right; discriminate]).
  destruct D as [G|N]; [unfold pm_ss; rewrite G; discriminate|]. rewrite pm_ss_groups by auto.
  destruct (traits_spec so (groups p) (constant p) SO N H2 H1) as (_ & X & _).
  intros E. assert (Y : In (pm_str (mk_pm (constant p) [])) (map pm_str (traits so (groups p) (constant p)))).
  { apply X. exists (map (fun _ => []) (groups p)). split.
    - exists 0. split; [apply Forall_forall; intros; lia|]. apply Forall2_same. intros a _. split; [constructor|auto].
    - exists (constant p). assert (C : List.concat (map (fun _ : group => @nil script) (groups p)) = []) by (clear; induction (groups p); auto).
      rewrite C. split; [split; [auto|split; [apply incl_refl|intros x Hx; apply in_map; auto]]|]. split; [|reflexivity].
      split; [|auto]. destruct H3 as [->|[Nc _]]; [simpl; lia|]. destruct (constant p); [congruence|simpl; lia]. }
  rewrite E in Y. destruct Y.
Qed.
