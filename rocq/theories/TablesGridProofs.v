(** Proofs about the tables of scripts: grids, sums, and the whole. *)
From Coq Require Import List String Bool NArith Arith Lia Permutation.
From Verif Require Import Base Script ScriptParser SortProofs ScriptWf ScriptStrProofs ScriptOrderProofs ScriptSpec ScriptCtorProofs ScriptParseProofs ScriptSeqProofs ScriptMoreProofs ScriptAlgProofs Tables TablesSpec TablesProofs.
Import ListNotations.

Lemma Forall2_nth_r {A B} {R : A -> B -> Prop} {l l'} : Forall2 R l l' -> forall i y, nth_error l' i = Some y -> exists x, nth_error l i = Some x /\ R x y.
Proof. induction 1 as [|a b l l' H F IH]; intros [|i] y E; simpl in *; try discriminate; [injection E as <-; eauto|auto]. Qed.

(** * Boxes *)
Definition box {A B} (g : A -> A -> A -> B) X Y Z : list (list (list B)) := map (fun x => map (fun y => map (g x y) Z) Y) X.
Lemma shape_box {A B} (g : A -> A -> A -> B) X Y Z : shape (box g X Y Z) (List.length X) (List.length Y) (List.length Z).
Proof.
  split; [apply map_length|]. apply Forall_map, Forall_forall. intros x _. split; [apply map_length|]. apply Forall_map, Forall_forall. intros y _. apply map_length.
Qed.
Lemma flat_map_single {A B} (f : A -> B) l : flat_map (fun x => [f x]) l = map f l.
Proof. induction l; simpl; congruence. Qed.
Lemma row1 {A B} (g : A -> A -> B) Y Z p z : nth_error Z p = Some z -> flat_map (at_ p) (map (fun y => map (g y) Z) Y) = map (fun y => g y z) Y.
Proof.
  intros E. rewrite flat_map_map'. erewrite flat_map_ext; [apply flat_map_single|]. intros y. cbn. rewrite at_map. unfold at_. rewrite E. reflexivity.
Qed.
Lemma tab_box {A B} (g : A -> A -> A -> B) X Y Z p z : nth_error Z p = Some z -> tab (box g X Y Z) p = flat_map (fun x => map (fun y => g x y z) Y) X.
Proof. intros E. unfold tab, box. rewrite flat_map_map'. apply flat_map_ext. intros x. now apply row1. Qed.
Lemma row_box {A B} (g : A -> A -> A -> B) X Y Z i x p z : nth_error X i = Some x -> nth_error Z p = Some z -> row (box g X Y Z) i p = map (fun y => g x y z) Y.
Proof. intros Ex E. unfold row, box. rewrite at_map. unfold at_ at 2. rewrite Ex. cbn [map flat_map]. rewrite app_nil_r. now apply row1. Qed.
Lemma column_box {A B} (g : A -> A -> A -> B) X Y Z j y p z : nth_error Y j = Some y -> nth_error Z p = Some z -> column (box g X Y Z) j p = map (fun x => g x y z) X.
Proof.
  intros Ey E. unfold column, box. rewrite flat_map_map'. rewrite <- flat_map_single. apply flat_map_ext. intros x. rewrite at_map. unfold at_ at 2. rewrite Ey. cbn [map flat_map]. rewrite app_nil_r, at_map.
  unfold at_. now rewrite E.
Qed.
Lemma cells_box {A B} (g : A -> A -> A -> B) X Y Z : all_cells (box g X Y Z) = flat_map (fun x => flat_map (fun y => map (g x y) Z) Y) X.
Proof.
  unfold all_cells, box. induction X as [|x X IH]; simpl; [reflexivity|]. rewrite concat_app, IH. f_equal. symmetry. apply flat_map_concat_map.
Qed.

(** * Indexes *)
Lemma index_of_spec n x l : sing1 n x -> Forall (sing1 n) l -> NoDup (map wordof l) -> In (wordof x) (map wordof l) ->
  exists i, index_of x l = Ok i /\ i < List.length l /\ forall j w, nth_error (map wordof l) j = Some w -> (i = j <-> w = wordof x).
Proof.
  intros Sx F Nd Hx. rewrite Forall_forall in F. unfold index_of.
  assert (Hin : forall i y, In (i, y) (combine (seq 0 (List.length l)) l) -> nth_error l i = Some y).
  { intros i y. clear. assert (forall k, In (i, y) (combine (seq k (List.length l)) l) -> exists d, i = k + d /\ nth_error l d = Some y) as H.
    { induction l as [|z l IH]; intros k H; simpl in H; [destruct H|]. destruct H as [E|H]; [injection E as -> ->; exists 0; rewrite Nat.add_0_r; auto|].
      apply IH in H as (d & -> & E). exists (S d). split; [lia|exact E]. }
    intros H0. apply H in H0 as (d & -> & E). exact E. }
  assert (Hall : forall i y, nth_error l i = Some y -> In (i, y) (combine (seq 0 (List.length l)) l)).
  { clear. intros i y. assert (forall k, nth_error l i = Some y -> In (k + i, y) (combine (seq k (List.length l)) l)) as H.
    { revert i. induction l as [|z l IH]; intros [|i] k H; simpl in H; try discriminate; simpl; [injection H as ->; left; f_equal; lia|]. right. replace (k + S i) with (S k + i) by lia. now apply IH. }
    apply (H 0). }
  destruct (find (fun e => script_eqb (snd e) x) (rev (combine (seq 0 (List.length l)) l))) as [[i y]|] eqn:E.
  - apply find_some in E as [Hi E]. apply in_rev in Hi. apply Hin in Hi. cbn [snd] in E. exists i. split; [reflexivity|]. split; [apply nth_error_Some; congruence|].
    intros j w Hj. apply (sing1_word n y x) in E; auto; [|apply F; eapply nth_error_In; eauto]. split.
    + intros <-. rewrite nth_error_map, Hi in Hj. injection Hj as <-. exact E.
    + intros ->. apply (proj1 (NoDup_nth_error (map wordof l)) Nd); [rewrite map_length; apply nth_error_Some; congruence|]. rewrite Hj, nth_error_map, Hi. simpl. congruence.
  - exfalso. apply in_map_iff in Hx as (y & Ey & Hy). destruct (In_nth_error _ _ Hy) as [i Hi]. pose proof (find_none _ _ E (i, y)) as Nn. rewrite <- in_rev in Nn. specialize (Nn (Hall i y Hi)).
    cbn [snd] in Nn. apply (sing1_word n y x) in Ey; auto. congruence.
Qed.

(** * Grids *)
Lemma fill_ok n own pos sizes (g : word -> word -> word -> word) X Y Z :
  nth 0 sizes 1%N = N.of_nat (List.length X) -> nth 1 sizes 1%N = N.of_nat (List.length Y) -> nth 2 sizes 1%N = N.of_nat (List.length Z) ->
  Forall (sing1 n) own ->
  (forall i j k x y z, nth_error X i = Some x -> nth_error Y j = Some y -> nth_error Z k = Some z -> exists s, In s own /\ wordof s = g x y z) ->
  (forall s i j k x y z, In s own -> nth_error X i = Some x -> nth_error Y j = Some y -> nth_error Z k = Some z -> (same_position (pos s) [i; j; k] = true <-> wordof s = g x y z)) ->
  rel3 (has_word n) (fill sizes (map (fun s => (s, pos s)) own)) (box g X Y Z).
Proof.
  intros Sx Sy Sz F Ex Pos. unfold fill, box, rel3. rewrite Sx, Sy, Sz, !Nnat.Nat2N.id. apply F2_seq. intros i x Hx. apply F2_seq. intros j y Hy. apply F2_seq. intros k z Hz.
  destruct (find (fun e => same_position (snd e) [i; j; k]) (rev (map (fun s => (s, pos s)) own))) as [[s p]|] eqn:E; cbn [option_map fst].
  - apply find_some in E as [Hs E]. apply in_rev in Hs. apply in_map_iff in Hs as (s' & Es & Hs). injection Es as -> <-. cbn [snd] in E. exists s. split; [reflexivity|].
    rewrite Forall_forall in F. split; [auto|]. eapply Pos; eauto.
  - exfalso. destruct (Ex i j k x y z Hx Hy Hz) as (s & Hs & Ew). pose proof (find_none _ _ E (s, pos s)) as Nn. rewrite <- in_rev in Nn. specialize (Nn (in_map _ _ _ Hs)). cbn [snd] in Nn.
    apply (Pos s i j k x y z) in Ew; auto. congruence.
Qed.

Lemma p3z X Y (z : word) : map cat3 (product3 X Y [z]) = flat_map (fun x => map (fun y => cat3 (x, y, z)) Y) X.
Proof.
  unfold product3. rewrite map_flat_map'. apply flat_map_ext. intros x. rewrite map_flat_map'. apply flat_map_single.
Qed.
Lemma p3y X (y : word) Z : map cat3 (product3 X [y] Z) = flat_map (fun x => map (fun z => cat3 (x, y, z)) Z) X.
Proof.
  unfold product3. rewrite map_flat_map'. apply flat_map_ext. intros x. simpl. rewrite app_nil_r. apply map_map.
Qed.
Lemma p3x (x : word) Y Z : map cat3 (product3 [x] Y Z) = flat_map (fun y => map (fun z => cat3 (x, y, z)) Z) Y.
Proof.
  unfold product3. simpl. rewrite app_nil_r, map_flat_map'. apply flat_map_ext. intros y. apply map_map.
Qed.
Lemma p3 X Y Z : map cat3 (product3 X Y Z) = flat_map (fun x => flat_map (fun y => map (fun z => cat3 (x, y, z)) Z) Y) X.
Proof.
  unfold product3. rewrite map_flat_map'. apply flat_map_ext. intros x. rewrite map_flat_map'. apply flat_map_ext. intros y. apply map_map.
Qed.
Lemma combine_map {A B} (f : A -> B) l : combine l (map f l) = map (fun x => (x, f x)) l.
Proof. induction l; simpl; congruence. Qed.

Section Grid.
  Variables a b c : script.
  Hypothesis Wm : wf (Mul a b c).
  Hypothesis Pm : cardinal (Mul a b c) <> 1%N.
  Variables own la lb lc : list script.
  Hypothesis Eo : ss (Mul a b c) = Ok own.
  Hypotheses (Ea : ss a = Ok la) (Eb : ss b = Ok lb) (Ec : ss c = Ok lc).
  Hypotheses (Na : NoDup (words a)) (Nb : NoDup (words b)) (Nc : NoDup (words c)).
  Local Notation n := (layer a).

  Definition lst (d : nat) : list script := match d with 0 => la | 1 => lb | _ => lc end.
  Lemma lst_spec d : ss (pick a b c d) = Ok (lst d) /\ Forall (sing1 n) (lst d) /\ Permutation (map wordof (lst d)) (words (pick a b c d)) /\
    N.of_nat (List.length (lst d)) = cardinal (pick a b c d) /\ NoDup (map wordof (lst d)).
  Proof.
    pose proof (pick_good a b c Wm d) as [W L]. destruct (ss_total _ W) as (l & E & F & P & C). rewrite L in F.
    assert (l = lst d) as -> by (destruct d as [|[|d]]; simpl in *; congruence). split; [exact E|]. split; [exact F|]. split; [exact P|]. split; [exact C|].
    eapply Permutation_NoDup; [apply Permutation_sym, P|]. destruct d as [|[|d]]; auto.
  Qed.
  Lemma lst_good d x : In x (lst d) -> good n x /\ words x = [wordof x] /\ cardinal x = 1%N.
  Proof.
    destruct (lst_spec d) as (_ & F & _). rewrite Forall_forall in F. intros Hx. destruct (F x Hx) as (W & C & L). split; [split; auto|]. split; [now apply words_single|exact C].
  Qed.
  Lemma card_pos d : (1 <= cardinal (pick a b c d))%N.
  Proof.
    pose proof (pick_good a b c Wm d) as [W _]. rewrite <- length_words by exact W. pose proof (words_nonempty _ W). destruct (words (pick a b c d)); simpl; [congruence|lia].
  Qed.

  Definition idx (d : nat) (s : script) : nat :=
    match nth_child d s with Some x => match index_of x (lst d) with Ok i => i | Err _ => 0 end | None => 0 end.
  Definition comp (d : nat) (s : script) : word := match nth_child d s with Some x => wordof x | None => [] end.
  Lemma own_comp s : In s own -> wordof s = cat3 (comp 0 s, comp 1 s, comp 2 s) /\ forall d, d < 3 -> In (comp d s) (map wordof (lst d)).
  Proof.
    intros Hs. destruct (own_spec a b c Wm Pm own Eo s Hs) as (x & y & z & -> & Sx & Sy & Sz & Hx & Hy & Hz). split; [reflexivity|]. intros d Hd.
    destruct (lst_spec d) as (_ & _ & P & _). eapply Permutation_in; [apply Permutation_sym, P|]. destruct d as [|[|[|d]]]; [exact Hx|exact Hy|exact Hz|lia].
  Qed.
  Lemma idx_spec d s : d < 3 -> In s own ->
    match nth_child d s with Some x => index_of x (lst d) | None => Err KeyError end = Ok (idx d s) /\
    forall j w, nth_error (map wordof (lst d)) j = Some w -> (Nat.eqb (idx d s) j = true <-> comp d s = w).
  Proof.
    intros Hd Hs. destruct (own_comp s Hs) as [_ H]. specialize (H d Hd). unfold comp, idx in *.
    destruct (own_spec a b c Wm Pm own Eo s Hs) as (x & y & z & -> & Sx & Sy & Sz & _).
    assert (exists u, nth_child d (Mul x y z) = Some u /\ sing1 n u) as (u & Eu & Su) by (destruct d as [|[|[|d]]]; [exists x|exists y|exists z|lia]; auto).
    rewrite Eu in *. destruct (lst_spec d) as (_ & F & _ & _ & Nd). destruct (index_of_spec n u (lst d) Su F Nd H) as (i & Ei & _ & Hi). rewrite Ei.
    split; [reflexivity|]. intros j w Hj. rewrite Nat.eqb_eq, (Hi j w Hj). split; congruence.
  Qed.
  Lemma positions ds : Forall (fun d => d < 3) ds ->
    mapM (position (map (fun d => (d, lst d)) ds)) own = Ok (map (fun s => map (fun d => idx d s) ds) own).
  Proof.
    intros Hd. apply mapM_map. intros s Hs. unfold position. clear -Hd Hs Wm Pm Eo Ea Eb Ec Na Nb Nc. induction ds as [|d ds IH]; [reflexivity|].
    apply Forall_cons_iff in Hd as [Hd Hds]. cbn [map mapM fst snd]. destruct (idx_spec d s Hd Hs) as [-> _]. cbn [bind]. rewrite IH by exact Hds. reflexivity.
  Qed.
  Lemma comp_length d s : d < 3 -> In s own -> List.length (comp d s) = 3 ^ n.
  Proof.
    intros Hd Hs. destruct (own_comp s Hs) as [_ H]. specialize (H d Hd). apply in_map_iff in H as (x & <- & Hx). destruct (lst_spec d) as (_ & F & _). rewrite Forall_forall in F.
    eapply sing1_length; eauto.
  Qed.
  Lemma list_word d w : In w (map wordof (lst d)) -> List.length w = 3 ^ n.
  Proof. intros H. apply in_map_iff in H as (x & <- & Hx). destruct (lst_spec d) as (_ & F & _). rewrite Forall_forall in F. eapply sing1_length; eauto. Qed.
  Lemma word_of_comps s u v w : In s own -> In u (map wordof la) -> In v (map wordof lb) -> In w (map wordof lc) ->
    wordof s = cat3 (u, v, w) <-> comp 0 s = u /\ comp 1 s = v /\ comp 2 s = w.
  Proof.
    intros Hs Hu Hv Hw. destruct (own_comp s Hs) as [-> _]. split; [|intros (-> & -> & ->); reflexivity].
    apply cat3_inj; rewrite comp_length by (auto; lia); [rewrite (list_word 0)|rewrite (list_word 1)]; auto.
  Qed.
  Lemma some_own u v w : In u (map wordof la) -> In v (map wordof lb) -> In w (map wordof lc) -> exists s, In s own /\ wordof s = cat3 (u, v, w).
  Proof.
    intros Hu Hv Hw. eapply own_exists; eauto.
    - apply (Permutation_in _ (proj1 (proj2 (proj2 (lst_spec 0))))), Hu.
    - apply (Permutation_in _ (proj1 (proj2 (proj2 (lst_spec 1))))), Hv.
    - apply (Permutation_in _ (proj1 (proj2 (proj2 (lst_spec 2))))), Hw.
  Qed.
  Definition hdr (x y z : script) : script := match mk_mul_l [x; y; z] with Ok s => s | Err _ => x end.
  Lemma hdr_ok x y z : good n x -> good n y -> good n z -> (cardinal x <= cardinal a)%N -> (cardinal y <= cardinal b)%N -> (cardinal z <= cardinal c)%N ->
    mk_mul_l [x; y; z] = Ok (hdr x y z) /\ good (S n) (hdr x y z) /\ words (hdr x y z) = map cat3 (product3 (words x) (words y) (words z)).
  Proof.
    intros [Wx Lx] [Wy Ly] [Wz Lz] Cx Cy Cz. destruct (mk3_ok x y z) as [s E]; auto; try congruence.
    - rewrite Lx. apply (Ln a b c Wm).
    - eapply N.le_trans; [|apply (Cm a b c Wm)]. apply N.mul_le_mono; [apply N.mul_le_mono|]; auto.
    - unfold hdr. rewrite E. split; [reflexivity|]. apply mk3_words in E; auto. destruct E as (Ws & Ls & _ & _ & Ew). split; [split; [exact Ws|congruence]|exact Ew].
  Qed.
  Lemma good_a : good n a. Proof. exact (pick_good a b c Wm 0). Qed.
  Lemma good_b : good n b. Proof. exact (pick_good a b c Wm 1). Qed.
  Lemma good_c : good n c. Proof. exact (pick_good a b c Wm 2). Qed.
  Lemma sing_le d x : In x (lst d) -> (cardinal x <= cardinal (pick a b c d))%N.
  Proof. intros Hx. destruct (lst_good d x Hx) as (_ & _ & ->). apply card_pos. Qed.
  Lemma perm_a : Permutation (map wordof la) (words a). Proof. apply (lst_spec 0). Qed.
  Lemma perm_b : Permutation (map wordof lb) (words b). Proof. apply (lst_spec 1). Qed.
  Lemma perm_c : Permutation (map wordof lc) (words c). Proof. apply (lst_spec 2). Qed.

  Lemma size d : cardinal (pick a b c d) = N.of_nat (List.length (map wordof (lst d))).
  Proof. rewrite map_length. symmetry. apply (lst_spec d). Qed.
  Lemma only d : cardinal (pick a b c d) = 1%N -> map wordof (lst d) = [wordof (pick a b c d)].
  Proof.
    intros C. destruct (lst_spec d) as (_ & _ & P & _). rewrite (words_single _ (proj1 (pick_good a b c Wm d)) C) in P. apply Permutation_sym in P. now apply Permutation_length_1_inv in P.
  Qed.
  Lemma row_perm x : In x la -> Permutation (map cat3 (product3 [wordof x] (map wordof lb) (map wordof lc))) (words (hdr x b c)) /\ good (S n) (hdr x b c) /\ mk_mul_l [x; b; c] = Ok (hdr x b c).
  Proof.
    intros Hx. destruct (lst_good 0 x Hx) as (G & E & _). destruct (hdr_ok x b c G good_b good_c (sing_le 0 x Hx)) as (M & G' & ->); try apply N.le_refl.
    split; [|auto]. rewrite E. apply Permutation_map, product3_perm; auto using perm_b, perm_c.
  Qed.
  Lemma col_perm y : In y lb -> Permutation (map cat3 (product3 (map wordof la) [wordof y] (map wordof lc))) (words (hdr a y c)) /\ good (S n) (hdr a y c) /\ mk_mul_l [a; y; c] = Ok (hdr a y c).
  Proof.
    intros Hy. destruct (lst_good 1 y Hy) as (G & E & _). destruct (hdr_ok a y c good_a G good_c) as (M & G' & ->); try apply N.le_refl; [exact (sing_le 1 y Hy)|].
    split; [|auto]. rewrite E. apply Permutation_map, product3_perm; auto using perm_a, perm_c.
  Qed.
  Lemma tab_perm z : In z lc -> Permutation (map cat3 (product3 (map wordof la) (map wordof lb) [wordof z])) (words (hdr a b z)) /\ good (S n) (hdr a b z) /\ mk_mul_l [a; b; z] = Ok (hdr a b z).
  Proof.
    intros Hz. destruct (lst_good 2 z Hz) as (G & E & _). destruct (hdr_ok a b z good_a good_b G) as (M & G' & ->); try apply N.le_refl; [exact (sing_le 2 z Hz)|].
    split; [|auto]. rewrite E. apply Permutation_map, product3_perm; auto using perm_a, perm_b.
  Qed.
  Lemma row_tab_perm x z : In x la -> In z lc -> Permutation (map cat3 (product3 [wordof x] (map wordof lb) [wordof z])) (words (hdr x b z)) /\ good (S n) (hdr x b z) /\ mk_mul_l [x; b; z] = Ok (hdr x b z).
  Proof.
    intros Hx Hz. destruct (lst_good 0 x Hx) as (Gx & Ex & _). destruct (lst_good 2 z Hz) as (G & E & _). destruct (hdr_ok x b z Gx good_b G (sing_le 0 x Hx)) as (M & G' & ->); try apply N.le_refl; [exact (sing_le 2 z Hz)|].
    split; [|auto]. rewrite E, Ex. apply Permutation_map, product3_perm; auto using perm_b.
  Qed.
  Lemma col_tab_perm y z : In y lb -> In z lc -> Permutation (map cat3 (product3 (map wordof la) [wordof y] [wordof z])) (words (hdr a y z)) /\ good (S n) (hdr a y z) /\ mk_mul_l [a; y; z] = Ok (hdr a y z).
  Proof.
    intros Hy Hz. destruct (lst_good 1 y Hy) as (Gy & Ey & _). destruct (lst_good 2 z Hz) as (G & E & _). destruct (hdr_ok a y z good_a Gy G) as (M & G' & ->); try apply N.le_refl; [exact (sing_le 1 y Hy)|exact (sing_le 2 z Hz)|].
    split; [|auto]. rewrite E, Ey. apply Permutation_map, product3_perm; auto using perm_a.
  Qed.
  Lemma own_sings : Forall (sing1 (S n)) own.
  Proof. apply Forall_forall. intros s Hs. eapply own_sing; eauto. Qed.
  Lemma all_perm : Permutation (map cat3 (product3 (map wordof la) (map wordof lb) (map wordof lc))) (words (Mul a b c)).
  Proof. cbn [words]. apply Permutation_map, product3_perm; auto using perm_a, perm_b, perm_c. Qed.
  Lemma nth_in {A} (l : list A) i x : nth_error l i = Some x -> In x l.
  Proof. apply nth_error_In. Qed.
  Definition axes ds := map (fun d => (d, lst d)) ds.
  Definition posn ds (s : script) := map (fun d => idx d s) ds.

  Lemma fill3 : rel3 (has_word (S n)) (fill [cardinal a; cardinal b; cardinal c] (map (fun s => (s, posn [0; 1; 2] s)) own)) (box (fun u v w => cat3 (u, v, w)) (map wordof la) (map wordof lb) (map wordof lc)).
  Proof.
    apply fill_ok; [apply (size 0)|apply (size 1)|apply (size 2)|apply own_sings| |].
    - intros i j k x y z Hx Hy Hz. apply some_own; eauto using nth_in.
    - intros s i j k x y z Hs Hx Hy Hz. rewrite word_of_comps by eauto using nth_in. unfold same_position. cbn [forallb nth posn map]. rewrite !andb_true_iff.
      rewrite (proj2 (idx_spec 0 s ltac:(lia) Hs) i x Hx), (proj2 (idx_spec 1 s ltac:(lia) Hs) j y Hy), (proj2 (idx_spec 2 s ltac:(lia) Hs) k z Hz). tauto.
  Qed.
  Lemma grid3 : let t := fill [cardinal a; cardinal b; cardinal c] (map (fun s => (s, posn [0; 1; 2] s)) own) in
    exists W ts hs, rel3 (has_word (S n)) t W /\ mapM (fun z => mk_mul_l [a; b; z]) lc = Ok ts /\
      mapM (fun z => do r <- mapM (fun x => mk_mul_l [x; b; z]) la; do q <- mapM (fun y => mk_mul_l [a; y; z]) lb; Ok [r; q]) lc = Ok hs /\
      wpart (S n) W ts hs /\ Permutation (all_cells W) (words (Mul a b c)).
  Proof.
    intros t. exists (box (fun u v w => cat3 (u, v, w)) (map wordof la) (map wordof lb) (map wordof lc)), (map (fun z => hdr a b z) lc), (map (fun z => [map (fun x => hdr x b z) la; map (fun y => hdr a y z) lb]) lc).
    split; [|split; [|split; [|split]]].
    - apply fill3.
    - apply mapM_map. intros z Hz. now apply tab_perm.
    - apply mapM_map. intros z Hz. rewrite (mapM_map _ (fun x => hdr x b z)) by (intros; now apply row_tab_perm). cbn [bind]. rewrite (mapM_map _ (fun y => hdr a y z)) by (intros; now apply col_tab_perm). reflexivity.
    - eapply w_grid; [apply shape_box|now rewrite !map_length|now rewrite !map_length| |].
      + intros p s E. apply nth_error_map_some in E as (z & Ez & ->). destruct (tab_perm z (nth_in _ _ _ Ez)) as (P & G & _). split; [exact G|].
        rewrite (tab_box _ _ _ _ p (wordof z)) by (rewrite nth_error_map, Ez; reflexivity). rewrite p3z in P. exact P.
      + intros p h E. apply nth_error_map_some in E as (z & Ez & ->). assert (Ez' : nth_error (map wordof lc) p = Some (wordof z)) by (rewrite nth_error_map, Ez; reflexivity).
        eexists _, _. split; [reflexivity|]. split; [now rewrite !map_length|]. split; [now rewrite !map_length|]. split.
        * intros i s E. apply nth_error_map_some in E as (x & Ex & ->). destruct (row_tab_perm x z (nth_in _ _ _ Ex) (nth_in _ _ _ Ez)) as (P & G & _). split; [exact G|].
          rewrite (row_box _ _ _ _ i (wordof x) p (wordof z)) by (rewrite ?nth_error_map, ?Ex, ?Ez; reflexivity). rewrite product3_1, map_map in P. exact P.
        * intros j s E. apply nth_error_map_some in E as (y & Ey & ->). destruct (col_tab_perm y z (nth_in _ _ _ Ey) (nth_in _ _ _ Ez)) as (P & G & _). split; [exact G|].
          rewrite (column_box _ _ _ _ j (wordof y) p (wordof z)) by (rewrite ?nth_error_map, ?Ey, ?Ez; reflexivity). rewrite product3_0, map_map in P. exact P.
    - rewrite cells_box, <- p3. apply all_perm.
  Qed.
  Lemma nth_single {A} (z w : A) k : nth_error [z] k = Some w -> k = 0 /\ w = z.
  Proof. destruct k as [|[|k]]; simpl; intros E; try discriminate. injection E as <-. auto. Qed.
  (** The table of two of the three children: the words of the whole, those of the rows and those of the columns. *)
  Lemma one_table (g : word -> word -> word -> word) X Y z rows columns :
    Forall2 (fun x r => good (S n) r /\ Permutation (map (fun y => g x y z) Y) (words r)) X rows ->
    Forall2 (fun y q => good (S n) q /\ Permutation (map (fun x => g x y z) X) (words q)) Y columns ->
    Permutation (flat_map (fun x => map (fun y => g x y z) Y) X) (words (Mul a b c)) ->
    wpart (S n) (box g X Y [z]) [Mul a b c] [[rows; columns]] /\ Permutation (all_cells (box g X Y [z])) (words (Mul a b c)).
  Proof.
    intros Fr Fc P. split.
    - eapply w_grid; [apply shape_box|reflexivity|reflexivity| |].
      + intros p s E. apply nth_single in E as [-> ->]. split; [split; [exact Wm|reflexivity]|]. now rewrite (tab_box _ _ _ _ 0 z).
      + intros p h E. apply nth_single in E as [-> ->]. exists rows, columns. split; [reflexivity|]. split; [now rewrite (F2_length _ _ _ Fr)|]. split; [now rewrite (F2_length _ _ _ Fc)|]. split.
        * intros i s E. destruct (Forall2_nth_r Fr i s E) as (x & Ex & G & Px). split; [exact G|]. now rewrite (row_box _ _ _ _ i x 0 z).
        * intros i s E. destruct (Forall2_nth_r Fc i s E) as (x & Ex & G & Px). split; [exact G|]. now rewrite (column_box _ _ _ _ i x 0 z).
    - rewrite cells_box. erewrite flat_map_ext; [exact P|]. intros x. apply flat_map_single.
  Qed.
  Lemma F2_map {A B C} (R : B -> C -> Prop) (f : A -> B) (g : A -> C) l : (forall x, In x l -> R (f x) (g x)) -> Forall2 R (map f l) (map g l).
  Proof. induction l as [|x l IH]; intros H; simpl; constructor; [apply H; simpl; auto|apply IH; intros; apply H; simpl; auto]. Qed.

  Definition two (d e : nat) (C : Prop) : Prop :=
    C -> let t := fill [cardinal (pick a b c d); cardinal (pick a b c e)] (map (fun s => (s, posn [d; e] s)) own) in
    exists W h, rel3 (has_word (S n)) t W /\ mapM (fun ax => mapM (with_nth a b c (fst ax)) (snd ax)) (axes [d; e]) = Ok h /\
      wpart (S n) W [Mul a b c] [h] /\ Permutation (all_cells W) (words (Mul a b c)).
  Lemma fill_ab : cardinal c = 1%N -> rel3 (has_word (S n)) (fill [cardinal a; cardinal b] (map (fun s => (s, posn [0; 1] s)) own)) (box (fun u v w => cat3 (u, v, w)) (map wordof la) (map wordof lb) [wordof c]).
  Proof.
    intros C. pose proof (only 2 C) as O. cbn [lst pick] in O. apply fill_ok; [apply (size 0)|apply (size 1)|reflexivity|apply own_sings| |].
    - intros i j k x y z Hx Hy Hz. apply some_own; rewrite ?O; eauto using nth_in.
    - intros s i j k x y z Hs Hx Hy Hz. rewrite word_of_comps by (rewrite ?O; eauto using nth_in). unfold same_position. cbn [forallb nth posn map]. rewrite !andb_true_iff.
      rewrite (proj2 (idx_spec 0 s ltac:(lia) Hs) i x Hx), (proj2 (idx_spec 1 s ltac:(lia) Hs) j y Hy). apply nth_single in Hz as [-> ->].
      destruct (own_comp s Hs) as [_ Hc]. specialize (Hc 2 ltac:(lia)). cbn [lst] in Hc. rewrite O in Hc. destruct Hc as [<-|[]]. cbn. tauto.
  Qed.
  Lemma grid_ab : two 0 1 (cardinal c = 1%N).
  Proof.
    intros C t. pose proof (only 2 C) as O. cbn [lst pick] in O. assert (Lc : exists z, lc = [z]) by (destruct lc as [|z [|z' l]]; try discriminate; eauto).
    exists (box (fun u v w => cat3 (u, v, w)) (map wordof la) (map wordof lb) [wordof c]), [map (fun x => hdr x b c) la; map (fun y => hdr a y c) lb].
    split; [|split].
    - exact (fill_ab C).
    - unfold axes. cbn [map mapM fst snd lst]. rewrite (mapM_map _ (fun x => hdr x b c)) by (intros; now apply row_perm). cbn [bind].
      rewrite (mapM_map _ (fun y => hdr a y c)) by (intros; now apply col_perm). reflexivity.
    - apply one_table.
      + apply F2_map. intros x Hx. destruct (row_perm x Hx) as (P & G & _). split; [exact G|]. rewrite O, product3_1, map_map in P. exact P.
      + apply F2_map. intros y Hy. destruct (col_perm y Hy) as (P & G & _). split; [exact G|]. rewrite O, product3_0, map_map in P. exact P.
      + pose proof all_perm as P. rewrite O, p3z in P. exact P.
  Qed.
  Lemma fill_ac : cardinal b = 1%N -> rel3 (has_word (S n)) (fill [cardinal a; cardinal c] (map (fun s => (s, posn [0; 2] s)) own)) (box (fun u v w => cat3 (u, w, v)) (map wordof la) (map wordof lc) [wordof b]).
  Proof.
    intros C. pose proof (only 1 C) as O. cbn [lst pick] in O. apply fill_ok; [apply (size 0)|apply (size 2)|reflexivity|apply own_sings| |].
    - intros i j k x y z Hx Hy Hz. apply some_own; rewrite ?O; eauto using nth_in.
    - intros s i j k x y z Hs Hx Hy Hz. rewrite word_of_comps by (rewrite ?O; eauto using nth_in). unfold same_position. cbn [forallb nth posn map]. rewrite !andb_true_iff.
      rewrite (proj2 (idx_spec 0 s ltac:(lia) Hs) i x Hx), (proj2 (idx_spec 2 s ltac:(lia) Hs) j y Hy). apply nth_single in Hz as [-> ->].
      destruct (own_comp s Hs) as [_ Hc]. specialize (Hc 1 ltac:(lia)). cbn [lst] in Hc. rewrite O in Hc. destruct Hc as [<-|[]]. cbn. tauto.
  Qed.
  Lemma grid_ac : two 0 2 (cardinal b = 1%N).
  Proof.
    intros C t. pose proof (only 1 C) as O. cbn [lst pick] in O.
    exists (box (fun u v w => cat3 (u, w, v)) (map wordof la) (map wordof lc) [wordof b]), [map (fun x => hdr x b c) la; map (fun z => hdr a b z) lc].
    split; [|split].
    - exact (fill_ac C).
    - unfold axes. cbn [map mapM fst snd lst]. rewrite (mapM_map _ (fun x => hdr x b c)) by (intros; now apply row_perm). cbn [bind].
      rewrite (mapM_map _ (fun z => hdr a b z)) by (intros; now apply tab_perm). reflexivity.
    - apply one_table.
      + apply F2_map. intros x Hx. destruct (row_perm x Hx) as (P & G & _). split; [exact G|]. rewrite O, product3_2, map_map in P. exact P.
      + apply F2_map. intros z Hz. destruct (tab_perm z Hz) as (P & G & _). split; [exact G|]. rewrite O, product3_0, map_map in P. exact P.
      + pose proof all_perm as P. rewrite O, p3y in P. exact P.
  Qed.
  Lemma fill_bc : cardinal a = 1%N -> rel3 (has_word (S n)) (fill [cardinal b; cardinal c] (map (fun s => (s, posn [1; 2] s)) own)) (box (fun u v w => cat3 (w, u, v)) (map wordof lb) (map wordof lc) [wordof a]).
  Proof.
    intros C. pose proof (only 0 C) as O. cbn [lst pick] in O. apply fill_ok; [apply (size 1)|apply (size 2)|reflexivity|apply own_sings| |].
    - intros i j k x y z Hx Hy Hz. apply some_own; rewrite ?O; eauto using nth_in.
    - intros s i j k x y z Hs Hx Hy Hz. rewrite word_of_comps by (rewrite ?O; eauto using nth_in). unfold same_position. cbn [forallb nth posn map]. rewrite !andb_true_iff.
      rewrite (proj2 (idx_spec 1 s ltac:(lia) Hs) i x Hx), (proj2 (idx_spec 2 s ltac:(lia) Hs) j y Hy). apply nth_single in Hz as [-> ->].
      destruct (own_comp s Hs) as [_ Hc]. specialize (Hc 0 ltac:(lia)). cbn [lst] in Hc. rewrite O in Hc. destruct Hc as [<-|[]]. cbn. tauto.
  Qed.
  Lemma grid_bc : two 1 2 (cardinal a = 1%N).
  Proof.
    intros C t. pose proof (only 0 C) as O. cbn [lst pick] in O.
    exists (box (fun u v w => cat3 (w, u, v)) (map wordof lb) (map wordof lc) [wordof a]), [map (fun y => hdr a y c) lb; map (fun z => hdr a b z) lc].
    split; [|split].
    - exact (fill_bc C).
    - unfold axes. cbn [map mapM fst snd lst]. rewrite (mapM_map _ (fun y => hdr a y c)) by (intros; now apply col_perm). cbn [bind].
      rewrite (mapM_map _ (fun z => hdr a b z)) by (intros; now apply tab_perm). reflexivity.
    - apply one_table.
      + apply F2_map. intros y Hy. destruct (col_perm y Hy) as (P & G & _). split; [exact G|]. rewrite O, product3_2, map_map in P. exact P.
      + apply F2_map. intros z Hz. destruct (tab_perm z Hz) as (P & G & _). split; [exact G|]. rewrite O, product3_1, map_map in P. exact P.
      + pose proof all_perm as P. rewrite O, p3x in P. exact P.
  Qed.
End Grid.


Lemma wtables_one s t ts hs W : rel3 (has_word (layer s)) t W -> wpart (layer s) W ts hs -> Permutation (all_cells W) (words s) ->
  wtables s {| t_cells := [t]; t_scripts := ts; t_headers := hs |}.
Proof.
  intros R P C. exists [{| p_words := W; p_scripts := ts; p_headers := hs |}]. cbn [map t_cells t_scripts t_headers p_words p_scripts p_headers List.concat flat_map].
  rewrite !app_nil_r. split; [repeat constructor; exact R|]. split; [reflexivity|]. split; [reflexivity|]. split; [repeat constructor; exact P|exact C].
Qed.
Lemma plurals_filter a b c : map snd (plurals a b c) = filter several [a; b; c].
Proof. unfold plurals. cbn [filter snd]. unfold plural. fold (several a) (several b) (several c). destruct (several a), (several b), (several c); reflexivity. Qed.
Lemma too_wide_plurals a b c : existsb (fun e => N.ltb MAX_SIZE_HEADER (cardinal (snd e))) (plurals a b c) = true <-> exists x, In x [a; b; c] /\ (12 < cardinal x)%N.
Proof.
  rewrite existsb_exists. split.
  - intros ([k x] & Hx & L). apply N.ltb_lt in L. exists x. split; [|exact L]. apply (in_map snd) in Hx. rewrite plurals_filter in Hx. apply filter_In in Hx. apply Hx.
  - intros (x & Hx & L). assert (H : In x (map snd (plurals a b c))).
    { rewrite plurals_filter. apply filter_In. split; [exact Hx|]. unfold several. destruct (N.eqb_spec (cardinal x) 1) as [E|]; [rewrite E in L; lia|reflexivity]. }
    apply in_map_iff in H as (e & <- & He). exists e. split; [exact He|]. now apply N.ltb_lt.
Qed.
Lemma combine_fill {A B} (f : A -> B) l : combine l (map f l) = map (fun x => (x, f x)) l.
Proof. apply combine_map. Qed.

Lemma several_not x : several x = false -> cardinal x = 1%N.
Proof. unfold several. destruct (N.eqb_spec (cardinal x) 1); [auto|discriminate]. Qed.
Lemma several_yes x : several x = true <-> cardinal x <> 1%N.
Proof. unfold several. destruct (N.eqb_spec (cardinal x) 1); simpl; split; intros; congruence. Qed.

Lemma grid_w a b c : wf (Mul a b c) -> cardinal (Mul a b c) <> 1%N -> sums_disjoint (Mul a b c) -> 2 <= List.length (plurals a b c) ->
  (exists t, grid a b c = Ok t /\ wtables (Mul a b c) t /\ forall x, In x [a; b; c] -> ~ (12 < cardinal x)%N) \/
  (grid a b c = Err ValueError /\ exists x, In x [a; b; c] /\ (12 < cardinal x)%N).
Proof.
  intros Wm Pm (Da & Db & Dc) L. unfold grid. pose proof (too_wide_plurals a b c) as TW.
  destruct (existsb _ (plurals a b c)); [right; split; [reflexivity|]; now apply TW|]. left.
  assert (Na : forall x, In x [a; b; c] -> ~ (12 < cardinal x)%N) by (intros x Hx H; enough (false = true) by discriminate; apply TW; eauto). clear TW.
  pose proof (Wa a b c Wm) as Wa. pose proof (Wb a b c Wm) as Wb. pose proof (Wc a b c Wm) as Wc.
  destruct (ss_total a Wa) as (la & Ea & _). destruct (ss_total b Wb) as (lb & Eb & _). destruct (ss_total c Wc) as (lc & Ec & _). destruct (ss_total (Mul a b c) Wm) as (own & Eo & _).
  assert (Nda : NoDup (words a)) by now apply words_nodup. assert (Ndb : NoDup (words b)) by now apply words_nodup. assert (Ndc : NoDup (words c)) by now apply words_nodup.
  pose proof (positions a b c Wm Pm own la lb lc Eo Ea Eb Ec Nda Ndb Ndc) as Po.
  assert (Pl : plurals a b c = filter (fun e => several (snd e)) [(0, a); (1, b); (2, c)]) by reflexivity. cbn [filter snd] in Pl.
  destruct (several a) eqn:Sa, (several b) eqn:Sb, (several c) eqn:Sc; rewrite Pl in *; cbn [List.length] in L; try lia; clear L Pl; cbn [mapM fst snd map]; rewrite ?Ea, ?Eb, ?Ec; cbn [bind]; rewrite Eo; cbn [bind].
  - specialize (Po [0; 1; 2] ltac:(repeat constructor)). cbn [map lst] in Po. rewrite Po. cbn [bind]. rewrite combine_map.
    destruct (grid3 a b c Wm Pm own la lb lc Eo Ea Eb Ec Nda Ndb Ndc) as (W & ts & hs & R & -> & -> & P & C). cbn [bind]. eexists. split; [reflexivity|]. split; [|exact Na]. eapply wtables_one; eauto.
  - specialize (Po [0; 1] ltac:(repeat constructor)). cbn [map lst] in Po. rewrite Po. cbn [bind]. rewrite combine_map.
    destruct (grid_ab a b c Wm Pm own la lb lc Eo Ea Eb Ec Nda Ndb Ndc (several_not _ Sc)) as (W & hs & R & E & P & C). unfold axes in E. cbn [map lst] in E. rewrite E. cbn [bind].
    eexists. split; [reflexivity|]. split; [|exact Na]. eapply wtables_one; eauto.
  - specialize (Po [0; 2] ltac:(repeat constructor)). cbn [map lst] in Po. rewrite Po. cbn [bind]. rewrite combine_map.
    destruct (grid_ac a b c Wm Pm own la lb lc Eo Ea Eb Ec Nda Ndb Ndc (several_not _ Sb)) as (W & hs & R & E & P & C). unfold axes in E. cbn [map lst] in E. rewrite E. cbn [bind].
    eexists. split; [reflexivity|]. split; [|exact Na]. eapply wtables_one; eauto.
  - specialize (Po [1; 2] ltac:(repeat constructor)). cbn [map lst] in Po. rewrite Po. cbn [bind]. rewrite combine_map.
    destruct (grid_bc a b c Wm Pm own la lb lc Eo Ea Eb Ec Nda Ndb Ndc (several_not _ Sa)) as (W & hs & R & E & P & C). unfold axes in E. cbn [map lst] in E. rewrite E. cbn [bind].
    eexists. split; [reflexivity|]. split; [|exact Na]. eapply wtables_one; eauto.
Qed.

(** * Sums *)
Definition wtabs (n : nat) (ws : list word) (t : tabs) : Prop :=
  exists parts, Forall2 (rel3 (has_word n)) (t_cells t) (map p_words parts) /\
    t_scripts t = List.concat (map p_scripts parts) /\ t_headers t = List.concat (map p_headers parts) /\
    Forall (fun p => wpart n (p_words p) (p_scripts p) (p_headers p)) parts /\
    Permutation (flat_map (fun p => all_cells (p_words p)) parts) ws.
Lemma wtabs_app n ws ws' t u : wtabs n ws t -> wtabs n ws' u ->
  wtabs n (ws ++ ws') {| t_cells := t_cells t ++ t_cells u; t_scripts := t_scripts t ++ t_scripts u; t_headers := t_headers t ++ t_headers u |}.
Proof.
  intros (p & Rp & Sp & Hp & Fp & Pp) (q & Rq & Sq & Hq & Fq & Pq). exists (p ++ q)%list. cbn [t_cells t_scripts t_headers]. rewrite !map_app, !concat_app, flat_map_app.
  split; [now apply F2_app|]. split; [congruence|]. split; [congruence|]. split; [now apply Forall_app|now apply Permutation_app].
Qed.
Fixpoint all_tables (l : list script) : res tabs :=
  match l with
  | [] => Ok {| t_cells := []; t_scripts := []; t_headers := [] |}
  | c :: r =>
    do t <- tables c; do u <- all_tables r;
    Ok {| t_cells := t_cells t ++ t_cells u; t_scripts := t_scripts t ++ t_scripts u; t_headers := t_headers t ++ t_headers u |}
  end.
Lemma tables_add cs : cardinal (Add cs) <> 1%N -> tables (Add cs) =
  if existsb (fun c => negb (paradigm c)) cs
  then do l <- ss (Add cs); Ok {| t_cells := [map (fun x => [[Some x]]) l]; t_scripts := [Add cs]; t_headers := [[[Add cs]]] |}
  else all_tables cs.
Proof.
  intros N. apply N.eqb_neq in N. transitivity (if N.eqb (cardinal (Add cs)) 1 then Ok {| t_cells := [[[[Some (Add cs)]]]]; t_scripts := [Add cs]; t_headers := [] |} else
    if existsb (fun c => negb (paradigm c)) cs
    then do l <- ss (Add cs); Ok {| t_cells := [map (fun x => [[Some x]]) l]; t_scripts := [Add cs]; t_headers := [[[Add cs]]] |}
    else all_tables cs); [|rewrite N; reflexivity].
  reflexivity.
Qed.
Lemma tables_mul a b c : cardinal (Mul a b c) <> 1%N -> tables (Mul a b c) =
  match plurals a b c with
  | [(n, _)] => do t <- match n with 0 => tables a | 1 => tables b | _ => tables c end; from_child a b c n t
  | _ => grid a b c
  end.
Proof.
  intros N. apply N.eqb_neq in N. transitivity (if N.eqb (cardinal (Mul a b c)) 1 then Ok {| t_cells := [[[[Some (Mul a b c)]]]]; t_scripts := [Mul a b c]; t_headers := [] |} else
    match plurals a b c with
    | [(n, _)] => do t <- match n with 0 => tables a | 1 => tables b | _ => tables c end; from_child a b c n t
    | _ => grid a b c
    end); [reflexivity|rewrite N; reflexivity].
Qed.

Definition tables_ok (s : script) : Prop :=
  (exists t, tables s = Ok t /\ wtables s t /\ ~ too_wide s) \/ (tables s = Err ValueError /\ too_wide s).

Lemma one_plural a b c k : wf (Mul a b c) -> cardinal (Mul a b c) <> 1%N -> k < 3 -> filter several [a; b; c] = [pick a b c k] ->
  (forall j, j < 3 -> j <> k -> cardinal (pick a b c j) = 1%N) ->
  tables (Mul a b c) = (do t <- tables (pick a b c k); from_child a b c k t) -> tables_ok (pick a b c k) -> tables_ok (Mul a b c).
Proof.
  intros Wm Pm K F One E [(t & Et & Wt & Tw)|[Et Tw]].
  - left. destruct (from_child_w a b c k t Wm Pm K One Wt) as (t' & Ef & Wt'). exists t'. split; [rewrite E, Et; exact Ef|]. split; [exact Wt'|].
    intros T. inversion T as [? ? ? x L Hx Cx|? ? ? x Fx Tx|]; subst; [rewrite F in L; simpl in L; lia|]. rewrite F in Fx. injection Fx as <-. auto.
  - right. split; [rewrite E, Et; reflexivity|]. eapply wide_child; eauto.
Qed.

Lemma tables_w s : wf s -> sums_disjoint s -> cardinal s <> 1%N -> tables_ok s.
Proof.
  induction s as [l|p|a b c IHa IHb IHc|cs IH] using script_ind'; intros W D N; try (simpl in N; congruence).
  - pose proof (Wa a b c W) as Wa. pose proof (Wb a b c W) as Wb. pose proof (Wc a b c W) as Wc. pose proof D as (Da & Db & Dc).
    specialize (IHa Wa Da). specialize (IHb Wb Db). specialize (IHc Wc Dc). pose proof (tables_mul a b c N) as E.
    assert (Pl : plurals a b c = filter (fun e => several (snd e)) [(0, a); (1, b); (2, c)]) by reflexivity. cbn [filter snd] in Pl.
    assert (Fl : filter several [a; b; c] = map snd (plurals a b c)) by (symmetry; apply plurals_filter).
    assert (G : 2 <= List.length (plurals a b c) -> tables (Mul a b c) = grid a b c -> tables_ok (Mul a b c)).
    { intros L Eg. destruct (grid_w a b c W N D L) as [(t & Et & Wt & Nw)|[Et (x & Hx & Cx)]].
      - left. exists t. split; [congruence|]. split; [exact Wt|]. intros T. inversion T as [? ? ? x _ Hx Cx|? ? ? x Fx Tx|]; subst; [eapply Nw; eauto|].
        assert (List.length (filter several [a; b; c]) = 1) by (rewrite Fx; reflexivity). rewrite Fl, map_length in H. lia.
      - right. split; [congruence|]. eapply wide_mul; eauto. now rewrite Fl, map_length. }
    destruct (several a) eqn:Sa, (several b) eqn:Sb, (several c) eqn:Sc; rewrite Pl in E, G, Fl; cbn [List.length map snd] in G, Fl; try (apply G; [lia|exact E]);
      rewrite ?several_yes in *; repeat match goal with H : several _ = false |- _ => apply several_not in H end.
    + apply (one_plural a b c 0); auto. intros [|[|[|j]]]; simpl; auto; lia.
    + apply (one_plural a b c 1); auto. intros [|[|[|j]]]; simpl; auto; lia.
    + apply (one_plural a b c 2); auto. intros [|[|[|j]]]; simpl; auto; lia.
    + exfalso. apply N. simpl. now rewrite Sa, Sb, Sc.
  - pose proof (tables_add cs N) as E. destruct (existsb (fun c => negb (paradigm c)) cs) eqn:Ex.
    + left. destruct (ss_total (Add cs) W) as (l & El & Fl & Pl & _). rewrite El in E. cbn [bind] in E. eexists. split; [exact E|]. split.
      * apply wtables_one with (W := map (fun x => [[wordof x]]) l).
        -- clear -Fl. unfold rel3. induction Fl as [|x l Sx Fl IH]; simpl; constructor; [|exact IH]. repeat constructor. exists x. auto.
        -- apply w_column with (k := List.length l).
           ++ split; [apply map_length|]. apply Forall_map, Forall_forall. intros x _. split; [reflexivity|]. repeat constructor.
           ++ split; [exact W|reflexivity].
           ++ eapply Permutation_trans; [|exact Pl]. clear. unfold all_cells. induction l; simpl; [constructor|now constructor].
        -- eapply Permutation_trans; [|exact Pl]. clear. unfold all_cells. induction l; simpl; [constructor|now constructor].
      * intros T. inversion T as [| |? x Hall Hx Tx]; subst. apply existsb_exists in Ex as (y & Hy & Py). apply negb_true_iff in Py. apply (Hall y Hy). apply cardinal_paradigm; [|exact Py].
        apply (wf_add_in cs y W Hy).
    + assert (Hall : forall y, In y cs -> cardinal y <> 1%N).
      { intros y Hy C. apply cardinal_paradigm in C; [|apply (wf_add_in cs y W Hy)]. assert (existsb (fun c => negb (paradigm c)) cs = true) by (apply existsb_exists; exists y; rewrite C; auto). congruence. }
      assert (X : forall l, incl l cs -> (exists t, all_tables l = Ok t /\ wtabs (layer (Add cs)) (flat_map words l) t /\ forall x, In x l -> ~ too_wide x) \/ (all_tables l = Err ValueError /\ exists x, In x l /\ too_wide x)).
      { destruct D as [_ D]. induction l as [|x l IHl]; intros I.
        - left. eexists. split; [reflexivity|]. split; [|intros x []]. exists []. repeat split; constructor.
        - assert (Hx : In x cs) by (apply I; simpl; auto). destruct (wf_add_in cs x W Hx) as (Wx & _ & Lx).
          assert (Dx : sums_disjoint x).
          { clear -D Hx. induction cs as [|y cs IHc]; [destruct Hx|]. destruct D as [Dy D]. destruct Hx as [->|Hx]; auto. }
          rewrite Forall_forall in IH. cbn [all_tables]. destruct (IH x Hx Wx Dx (Hall x Hx)) as [(t & -> & Wt & Tw)|[-> Tw]]; cbn [bind].
          2:{ right. split; [reflexivity|]. exists x. simpl. auto. }
          destruct IHl as [(u & -> & Wu & Tu)|[-> (y & Hy & Ty)]]; [intros z Hz; apply I; simpl; auto| |]; cbn [bind].
          + left. eexists. split; [reflexivity|]. split; [|intros y [<-|Hy]; auto]. cbn [flat_map]. apply wtabs_app; [|exact Wu]. rewrite <- Lx. exact Wt.
          + right. split; [reflexivity|]. exists y. simpl. auto. }
      destruct (X cs (incl_refl cs)) as [(t & Et & Wt & Tw)|[Et (x & Hx & Tx)]].
      * left. exists t. split; [congruence|]. split; [exact Wt|]. intros T. inversion T as [| |? x _ Hx Tx]; subst. eapply Tw; eauto.
      * right. split; [congruence|]. eapply wide_term; eauto.
Qed.

(** * Places *)
Lemma Ok_inj {A} (a b : A) : Ok a = Ok b -> a = b. Proof. now intros [= H]. Qed.
Lemma F2_nth {A B} {R : A -> B -> Prop} {l l'} : Forall2 R l l' -> forall i y, nth_error l' i = Some y -> exists x, nth_error l i = Some x /\ R x y.
Proof. exact Forall2_nth_r. Qed.
Lemma rel3_at {A B} (R : A -> B -> Prop) t u p y : rel3 R t u -> cell_at u p = Some y -> exists x, cell_at t p = Some x /\ R x y.
Proof.
  intros H E. destruct p as [|i [|j [|k p]]]; simpl in *; try discriminate. destruct (nth_error u i) as [r|] eqn:Ei; [|discriminate].
  destruct (F2_nth H i r Ei) as (r' & -> & Hr). destruct (nth_error r j) as [c|] eqn:Ej; [|discriminate].
  destruct (F2_nth Hr j c Ej) as (c' & -> & Hc). exact (F2_nth Hc k y E).
Qed.
Lemma box_at {A B} (g : A -> A -> A -> B) X Y Z i j k x y z p : nth_error X i = Some x -> nth_error Y j = Some y -> nth_error Z k = Some z -> cell_at (box g X Y Z) (i :: j :: k :: p) = Some (g x y z).
Proof. intros Ex Ey Ez. cbn [cell_at]. unfold box. now rewrite nth_error_map, Ex; cbn [option_map]; rewrite nth_error_map, Ey; cbn [option_map]; rewrite nth_error_map, Ez. Qed.
Lemma grid_at a b c t la lb lc i j k x y z : wf (Mul a b c) -> cardinal (Mul a b c) <> 1%N -> sums_disjoint (Mul a b c) -> 2 <= List.length (filter several [a; b; c]) -> grid a b c = Ok t ->
  ss a = Ok la -> ss b = Ok lb -> ss c = Ok lc -> nth_error la i = Some x -> nth_error lb j = Some y -> nth_error lc k = Some z ->
  exists arr s s', t_cells t = [arr] /\ cell_at arr (coordinates a b c i j k) = Some (Some s) /\ mk_mul_l [x; y; z] = Ok s' /\ str s = str s'.
Proof.
  intros Wm Pm (Da & Db & Dc) L E Ea Eb Ec Hx Hy Hz. rewrite <- plurals_filter, map_length in L. unfold grid in E. destruct (existsb _ (plurals a b c)); [discriminate|].
  pose proof (Wa a b c Wm) as Wa. pose proof (Wb a b c Wm) as Wb. pose proof (Wc a b c Wm) as Wc. destruct (ss_total (Mul a b c) Wm) as (own & Eo & _).
  assert (Nda : NoDup (words a)) by now apply words_nodup. assert (Ndb : NoDup (words b)) by now apply words_nodup. assert (Ndc : NoDup (words c)) by now apply words_nodup.
  pose proof (positions a b c Wm Pm own la lb lc Eo Ea Eb Ec Nda Ndb Ndc) as Po.
  pose proof (lst_good a b c Wm la lb lc Ea Eb Ec Nda Ndb Ndc) as Lg.
  destruct (Lg 0 x (nth_error_In _ _ Hx)) as (Gx & Wx & Cx). destruct (Lg 1 y (nth_error_In _ _ Hy)) as (Gy & Wy & Cy). destruct (Lg 2 z (nth_error_In _ _ Hz)) as (Gz & Wz & Cz).
  pose proof (sing_le a b c Wm Pm la lb lc Ea Eb Ec Nda Ndb Ndc) as Le.
  destruct (hdr_ok a b c Wm x y z Gx Gy Gz) as (M & [Gs Ls] & Ws); [apply (Le 0 x), (nth_error_In _ _ Hx)|apply (Le 1 y), (nth_error_In _ _ Hy)|apply (Le 2 z), (nth_error_In _ _ Hz)|].
  rewrite Wx, Wy, Wz in Ws. cbn [product3 flat_map map app] in Ws.
  assert (Sh : sing1 (S (layer a)) (hdr x y z) /\ wordof (hdr x y z) = cat3 (wordof x, wordof y, wordof z)).
  { assert (C1 : cardinal (hdr x y z) = 1%N) by (rewrite <- length_words by exact Gs; rewrite Ws; reflexivity). split; [split; auto|]. pose proof (words_single _ Gs C1) as Q. rewrite Ws in Q. symmetry. exact (f_equal (hd []) Q). }
  destruct Sh as [Sh Wh].
  assert (Fin : forall arr W p, rel3 (has_word (S (layer a))) arr W -> cell_at W p = Some (cat3 (wordof x, wordof y, wordof z)) -> t_cells t = [arr] -> coordinates a b c i j k = p ->
    exists arr s s', t_cells t = [arr] /\ cell_at arr (coordinates a b c i j k) = Some (Some s) /\ mk_mul_l [x; y; z] = Ok s' /\ str s = str s').
  { intros arr W p R Ew Et Ep. destruct (rel3_at _ _ _ _ _ R Ew) as (cl & Ecl & s & -> & Ss & Es). exists arr, s, (hdr x y z). split; [exact Et|]. split; [now rewrite Ep|]. split; [exact M|].
    eapply sing1_text; eauto. congruence. }
  assert (Hx' : nth_error (map wordof la) i = Some (wordof x)) by (rewrite nth_error_map, Hx; reflexivity).
  assert (Hy' : nth_error (map wordof lb) j = Some (wordof y)) by (rewrite nth_error_map, Hy; reflexivity).
  assert (Hz' : nth_error (map wordof lc) k = Some (wordof z)) by (rewrite nth_error_map, Hz; reflexivity).
  assert (Pl : plurals a b c = filter (fun e => several (snd e)) [(0, a); (1, b); (2, c)]) by reflexivity. cbn [filter snd] in Pl.
  assert (Co : coordinates a b c i j k = (map snd (filter (fun e => several (fst e)) [(a, i); (b, j); (c, k)]) ++ [0; 0; 0])%list) by reflexivity. cbn [filter fst] in Co.
  destruct (several a) eqn:Sa, (several b) eqn:Sb, (several c) eqn:Sc; rewrite Pl in *; cbn [List.length] in L; try lia; clear L Pl; cbn [mapM fst snd map app] in *; rewrite ?Ea, ?Eb, ?Ec in E; cbn [bind] in E; rewrite Eo in E; cbn [bind] in E.
  - specialize (Po [0; 1; 2] ltac:(repeat constructor)). cbn [map lst] in Po. rewrite Po in E. cbn [bind] in E. rewrite combine_map in E.
    destruct (mapM _ lc) as [ts|]; cbn [bind] in E; [|discriminate]. destruct (mapM _ lc) as [hs|]; cbn [bind] in E; [|discriminate]. apply Ok_inj in E. subst t.
    eapply Fin; [apply (fill3 a b c Wm Pm own la lb lc Eo Ea Eb Ec Nda Ndb Ndc)|rewrite (box_at _ _ _ _ i j k (wordof x) (wordof y) (wordof z)); auto|reflexivity|exact Co].
  - specialize (Po [0; 1] ltac:(repeat constructor)). cbn [map lst] in Po. rewrite Po in E. cbn [bind] in E. rewrite combine_map in E.
    match type of E with context[do h <- ?m; _] => destruct m as [hs|] end; cbn [bind] in E; [|discriminate]. apply Ok_inj in E. subst t.
    pose proof (only a b c Wm la lb lc Ea Eb Ec Nda Ndb Ndc 2 (several_not _ Sc)) as O. cbn [lst pick] in O. rewrite O in Hz'. destruct k as [|[|k]]; try discriminate. injection Hz' as Q.
    eapply Fin; [apply (fill_ab a b c Wm Pm own la lb lc Eo Ea Eb Ec Nda Ndb Ndc (several_not _ Sc))|rewrite (box_at _ _ _ _ i j 0 (wordof x) (wordof y) (wordof c)); [rewrite Q; reflexivity|auto|auto|reflexivity]|reflexivity|exact Co].
  - specialize (Po [0; 2] ltac:(repeat constructor)). cbn [map lst] in Po. rewrite Po in E. cbn [bind] in E. rewrite combine_map in E.
    match type of E with context[do h <- ?m; _] => destruct m as [hs|] end; cbn [bind] in E; [|discriminate]. apply Ok_inj in E. subst t.
    pose proof (only a b c Wm la lb lc Ea Eb Ec Nda Ndb Ndc 1 (several_not _ Sb)) as O. cbn [lst pick] in O. rewrite O in Hy'. destruct j as [|[|j]]; try discriminate. injection Hy' as Q.
    eapply Fin; [apply (fill_ac a b c Wm Pm own la lb lc Eo Ea Eb Ec Nda Ndb Ndc (several_not _ Sb))|rewrite (box_at _ _ _ _ i k 0 (wordof x) (wordof z) (wordof b)); [rewrite Q; reflexivity|auto|auto|reflexivity]|reflexivity|exact Co].
  - specialize (Po [1; 2] ltac:(repeat constructor)). cbn [map lst] in Po. rewrite Po in E. cbn [bind] in E. rewrite combine_map in E.
    match type of E with context[do h <- ?m; _] => destruct m as [hs|] end; cbn [bind] in E; [|discriminate]. apply Ok_inj in E. subst t.
    pose proof (only a b c Wm la lb lc Ea Eb Ec Nda Ndb Ndc 0 (several_not _ Sa)) as O. cbn [lst pick] in O. rewrite O in Hx'. destruct i as [|[|i]]; try discriminate. injection Hx' as Q.
    eapply Fin; [apply (fill_bc a b c Wm Pm own la lb lc Eo Ea Eb Ec Nda Ndb Ndc (several_not _ Sa))|rewrite (box_at _ _ _ _ j k 0 (wordof y) (wordof z) (wordof a)); [rewrite Q; reflexivity|auto|auto|reflexivity]|reflexivity|exact Co].
Qed.
