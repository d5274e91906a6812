(** Proofs about the siblings and the tables of a dictionary. *)
From Coq Require Import List String Ascii Bool NArith Arith Lia Permutation Sorted.
From Verif Require Import Base Script ScriptParser SortProofs ScriptWf ScriptStrProofs ScriptOrderProofs ScriptSpec ScriptCtorProofs ScriptParseProofs ScriptSeqProofs ScriptMoreProofs ScriptAlgProofs ScriptEqProofs UslParserProofs Tables TablesSpec TablesProofs TablesGridProofs TablesAllProofs Dictionary DictionarySpec DictTableProofs DictLoadProofs DictRelProofs.
Import ListNotations.

Lemma couples_cons {A} (x : A) l a b : In (a, b) (couples (x :: l)) <-> a = x /\ In b l \/ In (a, b) (couples l).
Proof.
  cbn [couples]. rewrite in_app_iff, in_map_iff. split.
  - intros [(y & E & H)|H]; [injection E as <- <-; auto|auto].
  - intros [[-> H]|H]; [left; eauto|auto].
Qed.
Lemma couples_split {A} (l : list A) a b : In (a, b) (couples l) <-> exists l1 l2 l3, l = (l1 ++ a :: l2 ++ b :: l3)%list.
Proof.
  split.
  - induction l as [|x l IH]; [intros []|]. rewrite couples_cons. intros [[-> H]|H].
    + apply in_split in H as (l2 & l3 & ->). exists [], l2, l3. reflexivity.
    + destruct (IH H) as (l1 & l2 & l3 & ->). exists (x :: l1), l2, l3. reflexivity.
  - intros (l1 & l2 & l3 & ->). induction l1 as [|x l1 IH]; cbn [app]; rewrite couples_cons; [left; split; [reflexivity|apply in_or_app; simpl; auto]|auto].
Qed.
Lemma couples_two {A} (l : list A) a b : two_of a b l <-> In (a, b) (couples l) \/ In (b, a) (couples l).
Proof.
  rewrite !couples_split. unfold two_of. split.
  - intros (l1 & l2 & l3 & [H|H]); eauto.
  - intros [(l1 & l2 & l3 & H)|(l1 & l2 & l3 & H)]; eauto.
Qed.
Lemma two_in {A} (a b : A) l : two_of a b l -> In a l /\ In b l.
Proof. intros (l1 & l2 & l3 & [->| ->]); rewrite !in_app_iff; cbn [In]; rewrite !in_app_iff; cbn [In]; auto 10. Qed.
Lemma couples_filter_map {A B} (f : A -> B) p (l : list A) a b : In (a, b) (couples (filter p (map f l))) <-> exists x y, In (x, y) (couples l) /\ f x = a /\ f y = b /\ p a = true /\ p b = true.
Proof.
  induction l as [|z l IH]; [split; [intros []|intros (x & y & [] & _)]|]. cbn [map filter].
  assert (X : (exists x y, In (x, y) (couples (z :: l)) /\ f x = a /\ f y = b /\ p a = true /\ p b = true) <-> (f z = a /\ p a = true /\ In b (filter p (map f l))) \/ exists x y, In (x, y) (couples l) /\ f x = a /\ f y = b /\ p a = true /\ p b = true).
  { split.
    - intros (x & y & H & Ex & Ey & Pa & Pb). apply couples_cons in H as [[-> H]|H]; [left|right; eauto 8]. split; [exact Ex|]. split; [exact Pa|]. apply filter_In. split; [rewrite <- Ey; now apply in_map|exact Pb].
    - intros [(Ez & Pa & H)|(x & y & H & X)]; [|exists x, y; rewrite couples_cons; auto]. apply filter_In in H as [H Pb]. apply in_map_iff in H as (y & Ey & Hy). exists z, y. rewrite couples_cons. auto 8. }
  rewrite X. destruct (p (f z)) eqn:P.
  - rewrite couples_cons, IH. split; intros [H|H]; auto; left; [destruct H as [-> H]; auto|destruct H as (<- & _ & H); auto].
  - rewrite IH. split; [auto|]. intros [(<- & Pa & _)|H]; [congruence|exact H].
Qed.

Lemma siblings_spec fo inh rel f m i j : siblings fo inh rel f = Ok m ->
  (In (i, j) m <-> exists e m', In e fo /\ inhibited inh (fst e) rel = false /\ layer (fst e) <> 0 /\ f (snd e) = Ok m' /\ In (i, j) m').
Proof.
  unfold siblings. intros E. destruct (mapM _ fo) as [l|] eqn:El; cbn [bind] in E; [|discriminate]. apply Ok_inj in E. subst m. rewrite (mapM_concat_in _ _ _ (i, j) El). split.
  - intros (e & y & He & Ey & H). cbn beta in Ey. destruct (inhibited inh (fst e) rel) eqn:I; cbn [orb] in Ey; [apply Ok_inj in Ey; subst y; destruct H|]. destruct (Nat.eqb_spec (layer (fst e)) 0) as [L|L]; [apply Ok_inj in Ey; subst y; destruct H|]. exists e, y. auto.
  - intros (e & y & He & I & L & Ey & H). exists e, y. split; [exact He|]. split; [|exact H]. cbn beta. rewrite I. destruct (Nat.eqb_spec (layer (fst e)) 0); [contradiction|exact Ey].
Qed.
Lemma siblings_in_spec sc rel ts m i j : siblings_in sc rel ts = Ok m ->
  (In (i, j) m <-> exists x y, In (x, y) (couples ts) /\ is_mul (tscript x) = true /\ is_mul (tscript y) = true /\ rel (tscript x) (tscript y) = Ok true /\
     (idx sc (tscript x) = Ok i /\ idx sc (tscript y) = Ok j \/ idx sc (tscript x) = Ok j /\ idx sc (tscript y) = Ok i)).
Proof.
  unfold siblings_in. intros E. destruct (mapM _ (couples _)) as [l|] eqn:El; cbn [bind] in E; [|discriminate]. apply Ok_inj in E. subst m. rewrite (mapM_concat_in _ _ _ (i, j) El).
  assert (B : forall a b v, (do i <- idx sc a; do j <- idx sc b; do b <- rel a b; Ok (if b then both i j else [])) = Ok v -> (In (i, j) v <-> rel a b = Ok true /\ (idx sc a = Ok i /\ idx sc b = Ok j \/ idx sc a = Ok j /\ idx sc b = Ok i))).
  { intros a b v Ev. destruct (idx sc a) as [i'|]; cbn [bind] in Ev; [|discriminate]. destruct (idx sc b) as [j'|]; cbn [bind] in Ev; [|discriminate]. destruct (rel a b) as [[]|]; cbn [bind] in Ev; [| |discriminate]; apply Ok_inj in Ev; subst v; cbn [both In].
    - split; [intros [X|[X|[]]]; injection X as <- <-; auto|]. intros [_ [[X Y]|[X Y]]]; apply Ok_inj in X; apply Ok_inj in Y; subst; auto.
    - split; [intros []|]. intros [X _]. discriminate. }
  split.
  - intros ([a b] & v & H & Ev & Hv). cbn [fst snd] in Ev. apply couples_filter_map in H as (x & y & H & <- & <- & Pa & Pb). apply (B _ _ _ Ev) in Hv as [R I]. exists x, y. auto.
  - intros (x & y & H & Px & Py & R & I). assert (H' : In (tscript x, tscript y) (couples (filter is_mul (map tscript ts)))) by (apply couples_filter_map; eauto 8).
    destruct (combine_all _ _ _ _ El H') as (v & Ev & _). exists (tscript x, tscript y), v. split; [exact H'|]. split; [exact Ev|]. cbn [fst snd] in Ev. apply (B _ _ _ Ev). auto.
Qed.
Lemma twins_in_spec sc ts m i j : twins_in sc ts = Ok m ->
  (In (i, j) m <-> exists x y, In (x, y) (couples ts) /\ is_mul (tscript x) = true /\ is_mul (tscript y) = true /\ same (child 0 (tscript x)) (child 1 (tscript x)) = Ok true /\ same (child 0 (tscript y)) (child 1 (tscript y)) = Ok true /\
     cardinal (tscript x) = cardinal (tscript y) /\ (idx sc (tscript x) = Ok i /\ idx sc (tscript y) = Ok j \/ idx sc (tscript x) = Ok j /\ idx sc (tscript y) = Ok i)).
Proof.
  unfold twins_in. set (ms := filter is_mul (map tscript ts)). intros E. destruct (mapM _ ms) as [tw|] eqn:Et; cbn [bind] in E; [|discriminate]. destruct (mapM _ (permutations2 _)) as [l|] eqn:El; cbn [bind] in E; [|discriminate]. apply Ok_inj in E. subst m.
  rewrite (mapM_concat_in _ _ _ (i, j) El).
  set (g := fun s => match same (child 0 s) (child 1 s) with Ok b => b | Err _ => false end).
  assert (F : map fst (filter snd (combine ms tw)) = filter g ms).
  { clear El l. revert tw Et. generalize ms. induction ms0 as [|s ms0 IH]; intros tw Et; cbn [mapM] in Et; [apply Ok_inj in Et; now subst tw|]. destruct (same (child 0 s) (child 1 s)) as [b|] eqn:Es; cbn [bind] in Et; [|discriminate].
    destruct (mapM _ ms0) as [r|]; cbn [bind] in Et; [|discriminate]. apply Ok_inj in Et. subst tw. cbn [combine filter snd]. unfold g at 1. rewrite Es. destruct b; cbn [map fst]; [f_equal|]; apply IH; reflexivity. }
  rewrite F in *. clear F Et tw.
  assert (FF : filter g ms = filter (fun s => is_mul s && g s) (map tscript ts)).
  { unfold ms. clear. induction (map tscript ts) as [|s l IH]; cbn [filter]; [reflexivity|]. destruct (is_mul s); cbn [andb filter]; [destruct (g s); congruence|exact IH]. }
  rewrite FF in *. clear FF.
  assert (G : forall s, is_mul s && g s = true <-> is_mul s = true /\ same (child 0 s) (child 1 s) = Ok true).
  { intros s. rewrite andb_true_iff. unfold g. destruct (same (child 0 s) (child 1 s)) as [[]|]; intuition congruence. }
  assert (P : forall a b, In (a, b) (permutations2 (filter (fun s => is_mul s && g s) (map tscript ts))) <-> exists x y, In (x, y) (couples ts) /\ (is_mul (tscript x) = true /\ same (child 0 (tscript x)) (child 1 (tscript x)) = Ok true) /\ (is_mul (tscript y) = true /\ same (child 0 (tscript y)) (child 1 (tscript y)) = Ok true) /\ ((a, b) = (tscript x, tscript y) \/ (a, b) = (tscript y, tscript x))).
  { intros a b. unfold permutations2. rewrite in_flat_map. split.
    - intros ([a' b'] & H & X). apply couples_filter_map in H as (x & y & H & <- & <- & Px & Py). apply G in Px, Py. exists x, y. split; [exact H|]. split; [exact Px|]. split; [exact Py|]. cbn [In fst snd] in X. intuition congruence.
    - intros (x & y & H & Px & Py & X). apply G in Px, Py. exists (tscript x, tscript y). split; [apply couples_filter_map; eauto 8|]. cbn [In fst snd]. intuition congruence. }
  assert (B : forall a b v, (if N.eqb (cardinal a) (cardinal b) then do i <- idx sc a; do j <- idx sc b; Ok [(i, j)] else Ok []) = Ok v -> (In (i, j) v <-> cardinal a = cardinal b /\ idx sc a = Ok i /\ idx sc b = Ok j)).
  { intros a b v Ev. destruct (N.eqb_spec (cardinal a) (cardinal b)) as [C|C]; [|apply Ok_inj in Ev; subst v; split; [intros []|intros [X _]; contradiction]].
    destruct (idx sc a) as [i'|]; cbn [bind] in Ev; [|discriminate]. destruct (idx sc b) as [j'|]; cbn [bind] in Ev; [|discriminate]. apply Ok_inj in Ev. subst v. cbn [In]. intuition congruence. }
  split.
  - intros ([a b] & v & H & Ev & Hv). cbn [fst snd] in Ev. apply (B _ _ _ Ev) in Hv as (C & Ia & Ib). apply P in H as (x & y & H & [Mx Tx] & [My Ty] & [X|X]); injection X as -> ->; exists x, y; auto 12.
  - intros (x & y & H & Mx & My & Tx & Ty & C & [[Ix Iy]|[Ix Iy]]).
    + assert (H' : In (tscript x, tscript y) (permutations2 (filter (fun s => is_mul s && g s) (map tscript ts)))) by (apply P; exists x, y; auto 12).
      destruct (combine_all _ _ _ _ El H') as (v & Ev & _). exists (tscript x, tscript y), v. split; [exact H'|]. split; [exact Ev|]. cbn [fst snd] in Ev. apply (B _ _ _ Ev). auto.
    + assert (H' : In (tscript y, tscript x) (permutations2 (filter (fun s => is_mul s && g s) (map tscript ts)))) by (apply P; exists x, y; auto 12).
      destruct (combine_all _ _ _ _ El H') as (v & Ev & _). exists (tscript y, tscript x), v. split; [exact H'|]. split; [exact Ev|]. cbn [fst snd] in Ev. apply (B _ _ _ Ev). auto.
Qed.

(** * The kinds of siblings *)
Lemma same_true a b : same a b = Ok true <-> exists x y, a = Ok x /\ b = Ok y /\ str x = str y.
Proof.
  unfold same. destruct a as [x|], b as [y|]; cbn [bind]; split; try discriminate; try (intros (x' & y' & X & Y & _); discriminate).
  - intros H. apply Ok_inj in H. apply script_eqb_str in H. eauto.
  - intros (x' & y' & X & Y & H). apply Ok_inj in X. apply Ok_inj in Y. subst. f_equal. now apply script_eqb_str.
Qed.
Lemma text_layer a b : wf a -> wf b -> str a = str b -> layer a = layer b.
Proof. intros Wa Wb E. apply (same_text a b Wa Wb E). Qed.
Lemma sum_pair cs x y : wf (Add cs) -> nth_error cs 0 = Some x -> nth_error cs 1 = Some y -> nf x /\ nf y /\ lt x y = true.
Proof.
  intros W X Y. destruct cs as [|x' [|y' cs]]; try discriminate. cbn in X, Y. injection X as ->. injection Y as ->.
  destruct (wf_add_in _ x W (or_introl eq_refl)) as (Wx & Ax & _). destruct (wf_add_in _ y W (or_intror (or_introl eq_refl))) as (Wy & Ay & _). split; [now apply nf_notadd|]. split; [now apply nf_notadd|].
  simpl in W. decompose [and] W. match goal with H : sorted_lt _ |- _ => inversion H as [|? ? ? F]; subst; rewrite Forall_forall in F; apply F; simpl; auto end.
Qed.
Lemma opposed_ok s t : wf s -> wf t -> layer s = layer t -> (opposed_sibling s t = Ok true <-> opposed s t).
Proof.
  intros Ws Wt L. unfold opposed_sibling, opposed. split.
  - destruct (negb (is_empty s) && negb (is_empty t) && N.eqb (cardinal s) (cardinal t)) eqn:B; cbn [and_then]; [|discriminate]. intros E. apply andb_true_iff in B as [B C]. apply andb_true_iff in B as [Es Et]. apply negb_true_iff in Es, Et. apply N.eqb_eq in C.
    split; [exact C|]. split; [exact Es|]. split; [exact Et|].
    destruct (same (child 0 s) (child 1 t)) as [b|] eqn:S1; cbn [bind] in E; [|discriminate]. destruct b; cbn [and_then] in E; [|discriminate].
    apply same_true in S1 as (x & y & X & Y & Exy). apply same_true in E as (x' & y' & X' & Y' & Exy').
    destruct s as [n|p|a b c|cs]; try discriminate; destruct t as [n'|p'|a' b' c'|cs']; try discriminate.
    + cbn [child nth] in *. apply Ok_inj in X. apply Ok_inj in Y. apply Ok_inj in X'. apply Ok_inj in Y'. subst. repeat eexists; eauto.
    + exfalso. cbn [child nth] in X, Y. apply Ok_inj in X. subst x. destruct (nth_error cs' 1) as [y0|] eqn:N1; [|discriminate]. apply Ok_inj in Y. subst y0. destruct (wf_add_in cs' y Wt (nth_error_In _ _ N1)) as (Wy & _ & Ly).
      pose proof (text_layer a y (proj1 (wf_mul_inv a b c Ws)) Wy Exy) as X. cbn [layer] in L. unfold layer in *. fold layer in *. lia.
    + exfalso. cbn [child nth] in X, Y. apply Ok_inj in Y. subst y. destruct (nth_error cs 0) as [y0|] eqn:N1; [|discriminate]. apply Ok_inj in X. subst y0. destruct (wf_add_in cs x Ws (nth_error_In _ _ N1)) as (Wx & _ & Lx).
      destruct (wf_mul_inv a' b' c' Wt) as (_ & Wb & _ & _ & _ & _ & Lb & _). pose proof (text_layer x b' Wx Wb Exy) as X. cbn [layer] in L. unfold layer in *. fold layer in *. lia.
    + exfalso. cbn [child] in *. destruct (nth_error cs 0) as [x0|] eqn:N0; [|discriminate]. destruct (nth_error cs 1) as [x1|] eqn:N1; [|discriminate]. destruct (nth_error cs' 0) as [y0|] eqn:M0; [|discriminate]. destruct (nth_error cs' 1) as [y1|] eqn:M1; [|discriminate].
      apply Ok_inj in X. apply Ok_inj in Y. apply Ok_inj in X'. apply Ok_inj in Y'. subst. destruct (sum_pair cs x x' Ws N0 N1) as (Nx & Nx' & Lx). destruct (sum_pair cs' y' y Wt M0 M1) as (Ny' & Ny & Ly).
      apply script_eqb_str in Exy, Exy'. rewrite script_eqb_sym in Exy. rewrite script_eqb_sym in Exy'. rewrite (lt_eqb y' y x' x) in Ly; auto. pose proof (lt_trans_nf _ _ _ Nx Nx' Nx Lx Ly) as X. rewrite lt_irr in X. discriminate.
  - intros (C & Es & Et & a & b & c & a' & b' & c' & -> & -> & E1 & E2). rewrite Es, Et. apply N.eqb_eq in C. rewrite C. cbn [negb andb and_then].
    assert (S1 : same (child 0 (Mul a b c)) (child 1 (Mul a' b' c')) = Ok true) by (apply same_true; exists a, b'; auto). rewrite S1. cbn [bind and_then]. apply same_true. exists b, a'. auto.
Qed.
Lemma associated_ok s t : wf s -> wf t -> is_mul s = true -> is_mul t = true -> (associated_sibling s t = Ok true <-> associated s t).
Proof.
  intros Ws Wt Ms Mt. unfold associated_sibling, associated. split.
  - destruct (N.eqb_spec (cardinal s) (cardinal t)) as [C|C]; cbn [and_then]; [|discriminate]. intros E. split; [exact C|].
    destruct (same (child 0 s) (child 0 t)) as [[]|] eqn:S0; cbn [bind and_then] in E; [|discriminate|discriminate]. destruct (same (child 1 s) (child 1 t)) as [[]|] eqn:S1; cbn [bind and_then] in E; [|discriminate|discriminate]. destruct (same (child 2 s) (child 2 t)) as [[]|] eqn:S2; cbn [bind negb] in E; [discriminate| |discriminate].
    apply same_true in S0 as (x & y & X & Y & Exy). apply same_true in S1 as (x' & y' & X' & Y' & Exy').
    destruct s as [n|p|a b c|cs]; try discriminate; destruct t as [n'|p'|a' b' c'|cs']; try discriminate. cbn [child nth] in *. apply Ok_inj in X. apply Ok_inj in Y. apply Ok_inj in X'. apply Ok_inj in Y'. subst.
    exists x, x', c, y, y', c'. repeat split; auto. intros X. assert (Z : same (Ok c) (Ok c') = Ok true) by (apply same_true; eauto). congruence.
  - intros (C & a & b & c & a' & b' & c' & -> & -> & E1 & E2 & N3). apply N.eqb_eq in C. rewrite C. cbn [and_then].
    assert (S0 : same (child 0 (Mul a b c)) (child 0 (Mul a' b' c')) = Ok true) by (apply same_true; exists a, a'; auto). rewrite S0. cbn [bind and_then].
    assert (S1 : same (child 1 (Mul a b c)) (child 1 (Mul a' b' c')) = Ok true) by (apply same_true; exists b, b'; auto). rewrite S1. cbn [bind and_then].
    destruct (same (child 2 (Mul a b c)) (child 2 (Mul a' b' c'))) as [[]|] eqn:S2; cbn [bind negb]; [|reflexivity|discriminate]. apply same_true in S2 as (x & y & X & Y & Exy). cbn [child nth] in X, Y. apply Ok_inj in X. apply Ok_inj in Y. subst. contradiction.
Qed.
Lemma crossed_ok s t : wf s -> wf t -> layer s = layer t -> is_mul s = true -> is_mul t = true -> (crossed_sibling s t = Ok true <-> crossed s t).
Proof.
  intros Ws Wt L Ms Mt. unfold crossed_sibling, crossed.
  assert (Ch : forall a b c a' b' c', s = Mul a b c -> t = Mul a' b' c' -> (opposed_sibling a a' = Ok true <-> opposed a a') /\ (opposed_sibling b b' = Ok true <-> opposed b b')).
  { intros a b c a' b' c' -> ->. destruct (wf_mul_inv a b c Ws) as (Wa & Wb & _ & _ & _ & _ & Lb & _). destruct (wf_mul_inv a' b' c' Wt) as (Wa' & Wb' & _ & _ & _ & _ & Lb' & _). cbn [layer] in L. split; apply opposed_ok; auto; congruence. }
  split.
  - destruct (Nat.leb 2 (layer s) && N.eqb (cardinal s) (cardinal t)) eqn:B; cbn [and_then]; [|discriminate]. intros E. apply andb_true_iff in B as [B C]. apply Nat.leb_le in B. apply N.eqb_eq in C. split; [exact C|]. split; [exact B|].
    destruct s as [n|p|a b c|cs]; try discriminate; destruct t as [n'|p'|a' b' c'|cs']; try discriminate. cbn [child nth bind] in E. destruct (Ch a b c a' b' c' eq_refl eq_refl) as [O1 O2].
    destruct (opposed_sibling a a') as [[]|] eqn:Oa; cbn [bind and_then] in E; [|discriminate|discriminate]. exists a, b, c, a', b', c'. split; [reflexivity|]. split; [reflexivity|]. split; [now apply O1|now apply O2].
  - intros (C & B & a & b & c & a' & b' & c' & -> & -> & Oa & Ob). destruct (Ch a b c a' b' c' eq_refl eq_refl) as [O1 O2]. apply Nat.leb_le in B. apply N.eqb_eq in C. rewrite B, C. cbn [andb and_then child nth bind]. rewrite (proj2 O1 Oa). cbn [bind and_then]. now apply O2.
Qed.
Lemma twin_ok s : is_mul s = true -> (same (child 0 s) (child 1 s) = Ok true <-> exists a b c, s = Mul a b c /\ str a = str b).
Proof.
  intros M. rewrite same_true. split.
  - intros (x & y & X & Y & E). destruct s as [n|p|a b c|cs]; try discriminate. cbn [child nth] in X, Y. apply Ok_inj in X. apply Ok_inj in Y. subst. eauto.
  - intros (a & b & c & -> & E). exists a, b. auto.
Qed.
Lemma opposed_sym s t : opposed s t -> opposed t s.
Proof. intros (C & Es & Et & a & b & c & a' & b' & c' & -> & -> & E1 & E2). split; [auto|]. split; [auto|]. split; [auto|]. exists a', b', c', a, b, c. auto. Qed.
Lemma associated_sym s t : associated s t -> associated t s.
Proof. intros (C & a & b & c & a' & b' & c' & -> & -> & E1 & E2 & N3). split; [auto|]. exists a', b', c', a, b, c. auto 8. Qed.
Lemma crossed_sym s t : layer s = layer t -> crossed s t -> crossed t s.
Proof. intros L (C & B & a & b & c & a' & b' & c' & -> & -> & O1 & O2). split; [auto|]. split; [congruence|]. exists a', b', c', a, b, c. auto 8 using opposed_sym. Qed.
Lemma twin_sym s t : twin s t -> twin t s.
Proof. intros (C & X & Y). split; [auto|auto]. Qed.
