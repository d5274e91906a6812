(** Proofs about the tables of scripts. *)
From Coq Require Import List String Bool NArith Arith Lia Permutation.
From Verif Require Import Base Script ScriptParser SortProofs ScriptWf ScriptStrProofs ScriptOrderProofs ScriptSpec ScriptCtorProofs ScriptParseProofs ScriptSeqProofs ScriptMoreProofs ScriptAlgProofs Tables TablesSpec.
Import ListNotations.

(** * Lists *)
Lemma at_map {A B} (f : A -> B) k l : at_ k (map f l) = map f (at_ k l).
Proof. unfold at_. rewrite nth_error_map. destruct (nth_error l k); reflexivity. Qed.
Lemma flat_map_map' {A B C} (f : A -> B) (g : B -> list C) l : flat_map g (map f l) = flat_map (fun x => g (f x)) l.
Proof. induction l; simpl; congruence. Qed.
Lemma map_flat_map' {A B C} (f : B -> C) (g : A -> list B) l : map f (flat_map g l) = flat_map (fun x => map f (g x)) l.
Proof. induction l; simpl; [reflexivity|]. rewrite map_app. congruence. Qed.
Lemma flat_map_at_map {A B} (f : A -> B) p (l : list (list A)) : flat_map (at_ p) (map (map f) l) = map f (flat_map (at_ p) l).
Proof. rewrite flat_map_map', map_flat_map'. apply flat_map_ext. intros x. apply at_map. Qed.
Lemma tab_map {A B} (f : A -> B) t p : tab (map (map (map f)) t) p = map f (tab t p).
Proof. unfold tab. rewrite flat_map_map', map_flat_map'. apply flat_map_ext. intros x. apply flat_map_at_map. Qed.
Lemma row_map {A B} (f : A -> B) t i p : row (map (map (map f)) t) i p = map f (row t i p).
Proof. unfold row. rewrite at_map, flat_map_map', map_flat_map'. apply flat_map_ext. intros x. apply flat_map_at_map. Qed.
Lemma column_map {A B} (f : A -> B) t j p : column (map (map (map f)) t) j p = map f (column t j p).
Proof. unfold column. rewrite flat_map_map', map_flat_map'. apply flat_map_ext. intros x. rewrite at_map. apply flat_map_at_map. Qed.
Lemma all_cells_map {A B} (f : A -> B) t : all_cells (map (map (map f)) t) = map f (all_cells t).
Proof. unfold all_cells. rewrite <- concat_map, <- concat_map. reflexivity. Qed.
Lemma shape_map {A B} (f : A -> B) t n m k : shape t n m k -> shape (map (map (map f)) t) n m k.
Proof.
  intros [L F]. split; [now rewrite map_length|]. apply Forall_map. eapply Forall_impl; [|exact F]. intros r [Lr Fr].
  split; [now rewrite map_length|]. apply Forall_map. eapply Forall_impl; [|exact Fr]. intros c Lc. now rewrite map_length.
Qed.
Lemma F2_length {A B} (R : A -> B -> Prop) l l' : Forall2 R l l' -> List.length l = List.length l'.
Proof. induction 1; simpl; congruence. Qed.
Lemma F2_app {A B} (R : A -> B -> Prop) l1 l1' l2 l2' : Forall2 R l1 l1' -> Forall2 R l2 l2' -> Forall2 R (l1 ++ l2) (l1' ++ l2').
Proof. induction 1; simpl; auto. Qed.
Lemma F2_seq {A B C} (R : B -> C -> Prop) (f : nat -> B) (g : A -> C) l : (forall i x, nth_error l i = Some x -> R (f i) (g x)) ->
  Forall2 R (map f (seq 0 (List.length l))) (map g l).
Proof.
  enough (H : forall k, (forall i x, nth_error l i = Some x -> R (f (k + i)) (g x)) -> Forall2 R (map f (seq k (List.length l))) (map g l)) by (intros; apply H; auto).
  induction l as [|x l IH]; intros k H; simpl; [constructor|]. constructor; [specialize (H 0 x eq_refl); now rewrite Nat.add_0_r in H|].
  apply IH. intros i y Hy. specialize (H (S i) y Hy). now rewrite Nat.add_succ_r in H.
Qed.
Lemma F2_concat {A B} (R : A -> B -> Prop) l l' : Forall2 (Forall2 R) l l' -> Forall2 R (List.concat l) (List.concat l').
Proof. induction 1; simpl; [constructor|now apply F2_app]. Qed.
Lemma F2_at {A B} (R : A -> B -> Prop) k l l' : Forall2 R l l' -> Forall2 R (at_ k l) (at_ k l').
Proof.
  intros F. revert k. unfold at_. induction F as [|x y l l' Hxy F IH]; intros [|k]; simpl; try constructor; auto.
Qed.
Lemma F2_flat_map {A B A' B'} (R : A -> B -> Prop) (R' : A' -> B' -> Prop) f f' l l' : (forall x y, R x y -> Forall2 R' (f x) (f' y)) ->
  Forall2 R l l' -> Forall2 R' (flat_map f l) (flat_map f' l').
Proof. intros H. induction 1; simpl; [constructor|apply F2_app; auto]. Qed.
Definition rel3 {A B} (R : A -> B -> Prop) := Forall2 (Forall2 (Forall2 R)).
Lemma rel3_cells {A B} (R : A -> B -> Prop) t u : rel3 R t u -> Forall2 R (all_cells t) (all_cells u).
Proof. intros H. apply F2_concat, F2_concat, H. Qed.
Lemma rel3_tab {A B} (R : A -> B -> Prop) t u p : rel3 R t u -> Forall2 R (tab t p) (tab u p).
Proof. apply F2_flat_map. intros x y. apply F2_flat_map. intros c d. apply F2_at. Qed.
Lemma rel3_row {A B} (R : A -> B -> Prop) t u i p : rel3 R t u -> Forall2 R (row t i p) (row u i p).
Proof. intros H. unfold row. eapply F2_flat_map; [|apply F2_at, H]. intros x y. apply F2_flat_map. intros c d. apply F2_at. Qed.
Lemma rel3_column {A B} (R : A -> B -> Prop) t u j p : rel3 R t u -> Forall2 R (column t j p) (column u j p).
Proof. apply F2_flat_map. intros x y H. eapply F2_flat_map; [|apply F2_at, H]. intros c d. apply F2_at. Qed.
Lemma rel3_shape {A B} (R : A -> B -> Prop) t u n m k : rel3 R t u -> shape u n m k -> shape t n m k.
Proof.
  intros H [L F]. split; [rewrite (F2_length _ _ _ H); exact L|]. clear L. induction H as [|r r' t u Hr H IH]; [constructor|].
  inversion F as [|? ? [Lr Fr] F']; subst. constructor; [|auto]. split; [apply (F2_length _ _ _ Hr)|]. clear -Hr Fr.
  induction Hr as [|c c' r r' Hc Hr IH]; [constructor|]. inversion Fr; subst. constructor; [apply (F2_length _ _ _ Hc)|auto].
Qed.
Lemma mapM_rel {A B} (f : A -> res B) (R : A -> B -> Prop) l l' : (forall x y, In x l -> f x = Ok y -> R x y) -> mapM f l = Ok l' -> Forall2 R l l'.
Proof.
  revert l'. induction l as [|x l IH]; intros l' H E; simpl in E; [injection E as <-; constructor|].
  destruct (f x) as [y|] eqn:Ex; cbn [bind] in E; [|discriminate]. destruct (mapM f l) as [r|] eqn:El; cbn [bind] in E; [|discriminate].
  injection E as <-. constructor; [apply H; simpl; auto|apply IH; auto]. intros; apply H; simpl; auto.
Qed.
Lemma mapM_total {A B} (f : A -> res B) l : (forall x, In x l -> exists y, f x = Ok y) -> exists l', mapM f l = Ok l'.
Proof.
  induction l as [|x l IH]; intros H; simpl; [eauto|]. destruct (H x (or_introl eq_refl)) as [y ->]. cbn [bind].
  destruct IH as [r ->]; [intros; apply H; simpl; auto|]. cbn [bind]. eauto.
Qed.

Lemma Forall2_In_l {A B} {R : A -> B -> Prop} {l l'} : Forall2 R l l' -> forall x, In x l -> exists y, In y l' /\ R x y.
Proof. induction 1 as [|a b l l' H F IH]; intros x []; [subst; exists b; simpl; auto|]. destruct (IH x H0) as (y & ? & ?). exists y. simpl. auto. Qed.

(** * Words of multiplications *)
Lemma words_unwrap c : words (unwrap c) = words c.
Proof. destruct c as [| | |[|x [|y cs]]]; auto. simpl. now rewrite app_nil_r. Qed.
Lemma words_nullify c : wf c -> words (nullify (unwrap c)) = words c.
Proof.
  intros W. destruct (child_ok_nullify c W) as [Wn Kn]. pose proof (cardinal_nullify_unwrap c W) as Cn.
  unfold nullify in *. destruct (is_empty (unwrap c)) eqn:E; [|apply words_unwrap]. simpl in Cn.
  rewrite (words_single c W) by auto. simpl. f_equal.
  apply (wordof_means c); auto. apply means_unwrap. apply means_empty; auto.
  destruct c as [| | |[|x [|y cs]]]; auto. apply (wf_add_in _ x W (or_introl eq_refl)).
Qed.
Lemma mk3_words x y z s : wf x -> wf y -> wf z -> mk_mul_l [x; y; z] = Ok s ->
  wf s /\ layer s = S (layer x) /\ layer y = layer x /\ layer z = layer x /\ words s = map cat3 (product3 (words x) (words y) (words z)).
Proof.
  intros Wx Wy Wz E. assert (Ws : wf s) by (eapply mk_mul_l_wf; [|exact E]; intros c [<-|[<-|[<-|[]]]]; auto).
  apply mk_mul_l_inv in E. destruct E as (a & b & c & -> & _ & Ea & Eb & Ec & L1 & L2 & _). cbn [nth hd] in *. subst a b c.
  rewrite !layer_nullify, !layer_unwrap in *. split; [exact Ws|]. split; [cbn [layer]; now rewrite layer_nullify, layer_unwrap|].
  split; [congruence|]. split; [congruence|]. cbn [words]. now rewrite !words_nullify.
Qed.
Lemma mk3_ok x y z : wf x -> wf y -> wf z -> layer y = layer x -> layer z = layer x -> layer x < MAX_LAYER ->
  (cardinal x * cardinal y * cardinal z <= MAX_SINGULAR_SEQUENCES)%N -> exists s, mk_mul_l [x; y; z] = Ok s.
Proof.
  intros Wx Wy Wz Ly Lz L C. pose proof (mk_mul_l_result [x; y; z]) as R.
  destruct (mk_mul_l [x; y; z]) as [s|e]; [eauto|]. exfalso. destruct R as [[E _]|[[E _]|[[(c & d & Hc & Hd & E) _]|[[E _]|[(c & Hc & E) _]]]]].
  - intros c [<-|[<-|[<-|[]]]]; auto.
  - discriminate.
  - simpl in E. lia.
  - simpl in Hc, Hd. intuition (subst; congruence).
  - simpl in E. lia.
  - simpl in Hc. intuition (subst; lia).
Qed.

(** * Words and texts *)
Lemma sing1_word n x y : sing1 n x -> sing1 n y -> (script_eqb x y = true <-> wordof x = wordof y).
Proof.
  intros Sx Sy. rewrite (sing1_eq n x y Sx Sy). destruct Sx as (Wx & Cx & _), Sy as (Wy & Cy & _). split.
  - intros (w & Hx & Hy). apply wordof_means in Hx; auto. apply wordof_means in Hy; auto. congruence.
  - intros E. exists (wordof x). split; apply wordof_means; auto.
Qed.
Lemma sing1_text n x y : sing1 n x -> sing1 n y -> wordof x = wordof y -> str x = str y.
Proof. intros Sx Sy E. apply String.eqb_eq. apply (sing1_word n x y); auto. Qed.
(** The cell has this word. *)
Definition has_word (n : nat) (c : cell) (w : word) : Prop := exists x, c = Some x /\ sing1 n x /\ wordof x = w.
Lemma ss_total s : wf s -> exists l, ss s = Ok l /\ Forall (sing1 (layer s)) l /\ Permutation (map wordof l) (words s) /\ N.of_nat (List.length l) = cardinal s.
Proof.
  intros W. destruct (ss_spec_wf s W) as (l & E & F & C & _). exists l. split; [exact E|]. split; [exact F|]. split; [now apply ss_words|exact C].
Qed.
Lemma texts_perm n l l' : Forall (sing1 n) l -> Forall (sing1 n) l' -> Permutation (map wordof l) (map wordof l') -> Permutation (map str l) (map str l').
Proof.
  intros F F' P. apply Permutation_map_inv in P as (l1 & E & P).
  assert (F1 : Forall (sing1 n) l1) by exact (Permutation_Forall P F').
  eapply Permutation_trans; [|apply Permutation_map, Permutation_sym, P]. enough (map str l = map str l1) by (rewrite H; reflexivity). clear P F'.
  revert l1 F1 E. induction F as [|x l Sx F IH]; intros [|y l1] F1 E; try discriminate; [reflexivity|]. simpl in *. injection E as E1 E2.
  inversion F1; subst. f_equal; [eapply sing1_text; eauto|auto].
Qed.
Lemma covers_by n h l ws : wf h -> layer h = n -> Forall2 (has_word n) l ws -> Permutation ws (words h) -> covers h l.
Proof.
  intros W L F P. destruct (ss_total h W) as (x & E & Fx & Px & _). exists x. split; [exact E|]. rewrite L in Fx.
  assert (exists ys, l = map Some ys /\ Forall (sing1 n) ys /\ map wordof ys = ws) as (ys & -> & Fy & <-).
  { clear -F. induction F as [|c w l ws (y & -> & Sy & <-) F (ys & -> & Fy & <-)]; [exists []; auto|]. exists (y :: ys). auto. }
  rewrite !map_map. change (fun x => option_map str (Some x)) with (fun x => Some (str x)). rewrite <- !(map_map str Some). apply Permutation_map.
  apply (texts_perm n); auto. eapply Permutation_trans; [exact Px|]. now apply Permutation_sym.
Qed.

(** * Descriptions with words *)
Definition good (n : nat) (h : script) : Prop := wf h /\ layer h = n.
Inductive wpart (n : nat) : list (list (list word)) -> list script -> list header -> Prop :=
| w_column W s k : shape W k 1 1 -> good n s -> Permutation (all_cells W) (words s) -> wpart n W [s] [[[s]]]
| w_grid W ts hs r q k : shape W r q k -> List.length ts = k -> List.length hs = k ->
    (forall p s, nth_error ts p = Some s -> good n s /\ Permutation (tab W p) (words s)) ->
    (forall p h, nth_error hs p = Some h -> exists rows columns, h = [rows; columns] /\
       List.length rows = r /\ List.length columns = q /\
       (forall i x, nth_error rows i = Some x -> good n x /\ Permutation (row W i p) (words x)) /\
       (forall j x, nth_error columns j = Some x -> good n x /\ Permutation (column W j p) (words x))) ->
    wpart n W ts hs.
Lemma wpart_described n t W ts hs : rel3 (has_word n) t W -> wpart n W ts hs -> described t ts hs.
Proof.
  intros R D. revert R. destruct D as [W0 s k S [Ws Ls] P|W0 ts0 hs0 r q k S Lt Lh T H]; intros R.
  - eapply a_column; [eapply rel3_shape; eauto|]. eapply covers_by; eauto. now apply rel3_cells.
  - eapply a_grid; eauto; [eapply rel3_shape; eauto| |].
    + intros p s E. destruct (T p s E) as [[Ws Ls] P]. eapply covers_by; eauto. now apply rel3_tab.
    + intros p h E. destruct (H p h E) as (rows & columns & -> & Lr & Lc & Hr & Hc). exists rows, columns. split; [reflexivity|]. split; [exact Lr|]. split; [exact Lc|]. split.
      * intros i x Ex. destruct (Hr i x Ex) as [[Wx Lx] P]. eapply covers_by; eauto. now apply rel3_row.
      * intros j x Ex. destruct (Hc j x Ex) as [[Wx Lx] P]. eapply covers_by; eauto. now apply rel3_column.
Qed.
Record part := { p_words : list (list (list word)); p_scripts : list script; p_headers : list header }.
(** The tables of a script, with words. *)
Definition wtables (s : script) (t : tabs) : Prop :=
  exists parts, Forall2 (rel3 (has_word (layer s))) (t_cells t) (map p_words parts) /\
    t_scripts t = List.concat (map p_scripts parts) /\ t_headers t = List.concat (map p_headers parts) /\
    Forall (fun p => wpart (layer s) (p_words p) (p_scripts p) (p_headers p)) parts /\
    Permutation (flat_map (fun p => all_cells (p_words p)) parts) (words s).

(** * The singular sequences of a multiplication *)
Section Mult.
  Variables a b c : script.
  Hypothesis Wm : wf (Mul a b c).
  Hypothesis Pm : cardinal (Mul a b c) <> 1%N.
  Variable own : list script.
  Hypothesis Eo : ss (Mul a b c) = Ok own.
  Local Notation n := (layer a).

  Lemma Wa : wf a. Proof. apply Wm. Qed.
  Lemma Wb : wf b. Proof. apply Wm. Qed.
  Lemma Wc : wf c. Proof. apply Wm. Qed.
  Lemma Lb : layer b = n. Proof. apply Wm. Qed.
  Lemma Lc : layer c = n. Proof. apply Wm. Qed.
  Lemma Ln : n < MAX_LAYER. Proof. apply Wm. Qed.
  Lemma Cm : (cardinal a * cardinal b * cardinal c <= MAX_SINGULAR_SEQUENCES)%N. Proof. apply Wm. Qed.
  Lemma own_perm : Permutation (map wordof own) (map cat3 (product3 (words a) (words b) (words c))).
  Proof. exact (ss_words (Mul a b c) own Wm Eo). Qed.
  Lemma child_nf d : wf d -> child_ok d -> nf d.
  Proof. intros W [_ K]. split; auto. Qed.
  Lemma own_spec s : In s own -> exists x y z, s = Mul x y z /\ sing1 n x /\ sing1 n y /\ sing1 n z /\
    In (wordof x) (words a) /\ In (wordof y) (words b) /\ In (wordof z) (words c).
  Proof.
    intros Hs. pose proof Eo as E. rewrite ss_mul in E by exact Wm.
    assert (P : paradigm (Mul a b c) = true).
    { destruct (paradigm (Mul a b c)) eqn:P; auto. exfalso. apply Pm. apply cardinal_paradigm; auto. }
    rewrite P in E. pose proof Wm as (Wa & Wb & Wc & Ka & Kb & Kc & Lb & Lc & Ln & _).
    destruct (ss_spec a (child_nf a Wa Ka)) as (la & Ea & Fa & _). destruct (ss_spec b (child_nf b Wb Kb)) as (lb & Eb & Fb & _).
    destruct (ss_spec c (child_nf c Wc Kc)) as (lc & Ec & Fc & _). rewrite Ea, Eb, Ec in E. cbn [bind] in E.
    destruct (mapM _ (product3 la lb lc)) as [l|] eqn:El; cbn [bind] in E; [|discriminate]. injection E as <-.
    apply (Permutation_in _ (isort_perm l)) in Hs. apply (mapM_rel _ (fun t s => let '(x, y, z) := t in In x la /\ In y lb /\ In z lc /\ mk_mul_l [x; y; z] = Ok s)) in El.
    2:{ intros [[x y] z] s' Hin E'. apply in_product3 in Hin. destruct Hin as (? & ? & ?). auto. }
    assert (exists x y z, In x la /\ In y lb /\ In z lc /\ mk_mul_l [x; y; z] = Ok s) as (x & y & z & Hx & Hy & Hz & M).
    { clear -El Hs. induction El as [|[[x y] z] s' t l H F IH]; [destruct Hs|]. destruct Hs as [->|Hs]; [exists x, y, z; tauto|auto]. }
    rewrite Lb in Fb. rewrite Lc in Fc. rewrite Forall_forall in Fa, Fb, Fc.
    destruct (mul3_ok n x y z Ln (Fa x Hx) (Fb y Hy) (Fc z Hz)) as [M' _]. rewrite M in M'. injection M' as ->.
    exists (nullify x), (nullify y), (nullify z). split; [reflexivity|].
    assert (S1 : forall x, sing n x -> sing1 n (nullify x) /\ wordof (nullify x) = wordof x).
    { intros u Su. destruct (nullify_ok n u Su) as (W1 & _ & C1 & L1 & _). split; [split; auto|]. destruct Su as (N & C & _). apply wordof_nullify; auto. apply N. }
    destruct (S1 x (Fa x Hx)) as [Sx ->], (S1 y (Fb y Hy)) as [Sy ->], (S1 z (Fc z Hz)) as [Sz ->]. split; [exact Sx|]. split; [exact Sy|]. split; [exact Sz|].
    split; [|split].
    - eapply Permutation_in; [apply (ss_words a la Wa Ea)|now apply in_map].
    - eapply Permutation_in; [apply (ss_words b lb Wb Eb)|now apply in_map].
    - eapply Permutation_in; [apply (ss_words c lc Wc Ec)|now apply in_map].
  Qed.
  Lemma own_exists u v w : In u (words a) -> In v (words b) -> In w (words c) -> exists s, In s own /\ wordof s = cat3 (u, v, w).
  Proof.
    intros Hu Hv Hw. assert (H : In (cat3 (u, v, w)) (map wordof own)).
    { eapply Permutation_in; [apply Permutation_sym, own_perm|]. apply in_map, in_product3. auto. }
    apply in_map_iff in H as (s & E & H). eauto.
  Qed.
  Lemma own_sing s : In s own -> sing1 (S n) s.
  Proof.
    intros Hs. destruct (ss_total (Mul a b c) Wm) as (l & E & F & _). rewrite Eo in E. injection E as <-. rewrite Forall_forall in F. exact (F s Hs).
  Qed.
  Lemma word_length d w : wf d -> layer d = n -> In w (words d) -> List.length w = 3 ^ n.
  Proof. intros W L H. rewrite <- L. apply means_length; auto. now apply words_means. Qed.
  Lemma sing1_length x : sing1 n x -> List.length (wordof x) = 3 ^ n.
  Proof. intros (W & C & L). rewrite <- L. apply means_length; auto. now apply wordof_means. Qed.
  Lemma cat3_inj u v w u' v' w' : List.length u = List.length u' -> List.length v = List.length v' -> cat3 (u, v, w) = cat3 (u', v', w') -> u = u' /\ v = v' /\ w = w'.
  Proof. intros L1 L2 E. simpl in E. apply app_length_inj in E; [|exact L1]. destruct E as [-> E]. apply app_length_inj in E; [|exact L2]. destruct E as [-> ->]. auto. Qed.

  Definition pick (k : nat) : script := match k with 0 => a | 1 => b | _ => c end.
  Definition put_word (k : nat) (w : word) : word :=
    match k with 0 => cat3 (w, wordof b, wordof c) | 1 => cat3 (wordof a, w, wordof c) | _ => cat3 (wordof a, wordof b, w) end.
  (** The k-th child is the only one with several words. *)
  Variable k : nat.
  Hypothesis K3 : k < 3.
  Hypothesis One : forall j, j < 3 -> j <> k -> cardinal (pick j) = 1%N.
  Lemma pick_good j : good n (pick j).
  Proof. destruct j as [|[|j]]; split; simpl; auto using Wa, Wb, Wc, Lb, Lc. Qed.
  Lemma single j : j < 3 -> j <> k -> words (pick j) = [wordof (pick j)].
  Proof. intros H N. apply words_single; [apply pick_good|auto]. Qed.
  Lemma product3_0 {A} (l : list A) v w : product3 l [v] [w] = map (fun u => (u, v, w)) l.
  Proof. unfold product3. induction l as [|u l IH]; [reflexivity|]. cbn [flat_map map app] in *. now rewrite IH. Qed.
  Lemma product3_1 {A} (l : list A) u w : product3 [u] l [w] = map (fun v => (u, v, w)) l.
  Proof. unfold product3. simpl. rewrite app_nil_r. induction l; simpl; [reflexivity|]. now rewrite IHl. Qed.
  Lemma product3_2 {A} (l : list A) u v : product3 [u] [v] l = map (fun w => (u, v, w)) l.
  Proof. unfold product3. simpl. now rewrite !app_nil_r. Qed.
  Lemma mul_words : map cat3 (product3 (words a) (words b) (words c)) = map (put_word k) (words (pick k)).
  Proof.
    pose proof (single 0) as S0. pose proof (single 1) as S1. pose proof (single 2) as S2. cbn [pick] in *.
    destruct k as [|[|[|j]]]; cbn [pick]; [rewrite S1, S2, product3_0 by lia|rewrite S0, S2, product3_1 by lia|rewrite S0, S1, product3_2 by lia|lia]; now rewrite map_map.
  Qed.
  Lemma with_nth_words h s : good n h -> with_nth a b c k h = Ok s -> good (S n) s /\ words s = map (put_word k) (words h).
  Proof.
    intros [Wh Lh] E. pose proof (single 0) as S0. pose proof (single 1) as S1. pose proof (single 2) as S2. cbn [pick] in *.
    destruct k as [|[|[|j]]]; cbn [with_nth] in E; [| | |lia]; apply mk3_words in E; auto using Wa, Wb, Wc; destruct E as (Ws & Ls & _ & _ & ->).
    - split; [split; auto; congruence|]. rewrite S1, S2, product3_0 by lia. now rewrite map_map.
    - split; [split; auto|]. rewrite S0, S2, product3_1 by lia. now rewrite map_map.
    - split; [split; auto|]. rewrite S0, S1, product3_2 by lia. now rewrite map_map.
  Qed.
  Lemma with_nth_ok h : good n h -> (cardinal h <= cardinal (pick k))%N -> exists s, with_nth a b c k h = Ok s.
  Proof.
    intros [Wh Lh] C. pose proof Cm as Cm. destruct k as [|[|[|j]]]; cbn [with_nth pick] in *; [| | |lia];
      apply mk3_ok; auto using Wa, Wb, Wc, Lb, Lc, Ln; rewrite ?Lh, ?Lb, ?Lc; auto using Ln.
    - eapply N.le_trans; [|exact Cm]. apply N.mul_le_mono_r, N.mul_le_mono_r, C.
    - eapply N.le_trans; [|exact Cm]. apply N.mul_le_mono_r, N.mul_le_mono_l, C.
    - eapply N.le_trans; [|exact Cm]. apply N.mul_le_mono_l, C.
  Qed.
  Lemma nth_child_own s x : In s own -> sing1 n x -> In (wordof x) (words (pick k)) -> text_is x (nth_child k s) = true <-> wordof s = put_word k (wordof x).
  Proof.
    intros Hs Sx Hx. destruct (own_spec s Hs) as (u & v & w & -> & Su & Sv & Sw & Hu & Hv & Hw).
    pose proof (single 0) as S0. pose proof (single 1) as S1. pose proof (single 2) as S2. cbn [pick] in *.
    pose proof (sing1_length u Su) as L1. pose proof (sing1_length v Sv) as L2. pose proof (sing1_length w Sw) as L3. pose proof (sing1_length x Sx) as L4.
    change (wordof (Mul u v w)) with (cat3 (wordof u, wordof v, wordof w)).
    destruct k as [|[|[|j]]]; [| | |lia]; cbn [nth_child nth_error text_is put_word]; rewrite (sing1_word n) by auto.
    - rewrite S1 in Hv by lia. rewrite S2 in Hw by lia. destruct Hv as [<-|[]], Hw as [<-|[]]. split; [intros ->; reflexivity|]. intros E. apply cat3_inj in E as (E & _); auto; congruence.
    - rewrite S0 in Hu by lia. rewrite S2 in Hw by lia. destruct Hu as [<-|[]], Hw as [<-|[]]. split; [intros ->; reflexivity|]. intros E. apply cat3_inj in E as (_ & E & _); auto; congruence.
    - rewrite S0 in Hu by lia. rewrite S1 in Hv by lia. destruct Hu as [<-|[]], Hv as [<-|[]]. split; [intros ->; reflexivity|]. intros E. apply cat3_inj in E as (_ & _ & E); auto; congruence.
  Qed.
  Lemma resolve_ok x w : has_word n x w -> In w (words (pick k)) -> exists y, resolve k own x = Ok y /\ has_word (S n) y (put_word k w).
  Proof.
    intros (x' & -> & Sx & <-) Hw. cbn [resolve].
    destruct (find (fun s => text_is x' (nth_child k s)) (rev own)) as [s|] eqn:F.
    - apply find_some in F as [Hs T]. apply in_rev in Hs. exists (Some s). split; [reflexivity|]. exists s. split; [reflexivity|]. split; [now apply own_sing|]. now apply nth_child_own.
    - exfalso. assert (exists s, In s own /\ wordof s = put_word k (wordof x')) as (s & Hs & E).
      { assert (H : In (put_word k (wordof x')) (map wordof own)) by (eapply Permutation_in; [apply Permutation_sym, own_perm|]; rewrite mul_words; now apply in_map).
        apply in_map_iff in H as (s & E & H). eauto. }
      pose proof (find_none _ _ F s) as N. rewrite <- in_rev in N. specialize (N Hs). cbv beta in N. apply nth_child_own in E; auto. congruence.
  Qed.
End Mult.

(** * Tables of the only plural child *)
Lemma length_words s : wf s -> N.of_nat (List.length (words s)) = cardinal s.
Proof. intros W. destruct (ss_total s W) as (l & _ & _ & P & C). rewrite <- (Permutation_length P), map_length. exact C. Qed.
Lemma mapM_map {A B} (f : A -> res B) g l : (forall x, In x l -> f x = Ok (g x)) -> mapM f l = Ok (map g l).
Proof.
  induction l as [|x l IH]; intros H; simpl; [reflexivity|]. rewrite H by (simpl; auto). cbn [bind]. rewrite IH by (intros; apply H; simpl; auto). reflexivity.
Qed.
Lemma at_length {A} p (l : list A) : List.length (at_ p l) <= List.length l.
Proof. unfold at_. destruct (nth_error l p) eqn:E; simpl; [|lia]. assert (p < List.length l) by (apply nth_error_Some; congruence). lia. Qed.
Lemma flat_at_length {A} p (l : list (list A)) : List.length (flat_map (at_ p) l) <= List.length (List.concat l).
Proof. induction l as [|x l IH]; simpl; [lia|]. rewrite !app_length. pose proof (at_length p x). lia. Qed.
Lemma concat_at {A} i (t : list (list A)) : List.length (List.concat (at_ i t)) <= List.length (List.concat t).
Proof.
  unfold at_. destruct (nth_error t i) eqn:E; simpl; [|lia]. apply nth_error_split in E as (t1 & t2 & -> & _). rewrite concat_app. simpl. rewrite !app_length. simpl. lia.
Qed.
Lemma tab_length {A} (t : list (list (list A))) p : List.length (tab t p) <= List.length (all_cells t).
Proof.
  unfold tab, all_cells. induction t as [|r t IH]; simpl; [lia|]. rewrite concat_app, !app_length. pose proof (flat_at_length p r). lia.
Qed.
Lemma row_length {A} (t : list (list (list A))) i p : List.length (row t i p) <= List.length (all_cells t).
Proof.
  unfold row. pose proof (tab_length (at_ i t) p) as H. unfold tab, all_cells in *. eapply Nat.le_trans; [exact H|]. unfold at_. destruct (nth_error t i) eqn:E; simpl; [|lia].
  apply nth_error_split in E as (t1 & t2 & -> & _). rewrite !concat_app. simpl. rewrite !concat_app, !app_length. simpl. lia.
Qed.
Lemma column_length {A} (t : list (list (list A))) j p : List.length (column t j p) <= List.length (all_cells t).
Proof.
  unfold column, all_cells. induction t as [|r t IH]; simpl; [lia|]. rewrite concat_app, !app_length.
  pose proof (flat_at_length p (at_ j r)). pose proof (concat_at j r). lia.
Qed.
Definition nice (n m : nat) (h : script) : Prop := good n h /\ List.length (words h) <= m.
Lemma nth_error_Forall {A} (P : A -> Prop) l : (forall p x, nth_error l p = Some x -> P x) -> Forall P l.
Proof. intros H. apply Forall_forall. intros x Hx. apply In_nth_error in Hx as [p Hp]. eauto. Qed.
Lemma wpart_nice n W ts hs : wpart n W ts hs ->
  Forall (nice n (List.length (all_cells W))) ts /\ Forall (Forall (Forall (nice n (List.length (all_cells W))))) hs.
Proof.
  intros [W0 s k S G P|W0 ts0 hs0 r q k S Lt Lh T H].
  - assert (nice n (List.length (all_cells W0)) s) by (split; [exact G|rewrite (Permutation_length P); lia]). auto.
  - split; apply nth_error_Forall.
    + intros p s E. destruct (T p s E) as [G P]. split; [exact G|]. rewrite <- (Permutation_length P). apply tab_length.
    + intros p h E. destruct (H p h E) as (rows & columns & -> & _ & _ & Hr & Hc). repeat constructor; apply nth_error_Forall.
      * intros i x Ex. destruct (Hr i x Ex) as [G P]. split; [exact G|]. rewrite <- (Permutation_length P). apply row_length.
      * intros j x Ex. destruct (Hc j x Ex) as [G P]. split; [exact G|]. rewrite <- (Permutation_length P). apply column_length.
Qed.
Lemma nth_error_map_some {A B} (f : A -> B) l p y : nth_error (map f l) p = Some y -> exists x, nth_error l p = Some x /\ y = f x.
Proof. rewrite nth_error_map. destruct (nth_error l p); simpl; intros E; [injection E as <-; eauto|discriminate]. Qed.
Lemma wpart_map n n' W ts hs (f : word -> word) (g : script -> script) :
  (forall h, nice n (List.length (all_cells W)) h -> good n' (g h) /\ words (g h) = map f (words h)) ->
  wpart n W ts hs -> wpart n' (map (map (map f)) W) (map g ts) (map (map (map g)) hs).
Proof.
  intros G D. pose proof (wpart_nice _ _ _ _ D) as [Nt Nh]. destruct D as [W0 s k S G0 P|W0 ts0 hs0 r q k S Lt Lh T H].
  - inversion Nt; subst. destruct (G s) as [G1 G2]; auto. eapply w_column; [apply shape_map; eassumption|exact G1|]. rewrite all_cells_map, G2. now apply Permutation_map.
  - rewrite Forall_forall in Nt. eapply w_grid; [apply shape_map; eassumption|now rewrite map_length|now rewrite map_length| |].
    + intros p s E. apply nth_error_map_some in E as (s0 & E & ->). destruct (T p s0 E) as [_ P]. destruct (G s0) as [G1 G2]; [apply Nt; eapply nth_error_In; eauto|].
      split; [exact G1|]. rewrite tab_map, G2. now apply Permutation_map.
    + intros p h E. apply nth_error_map_some in E as (h0 & E & ->). rewrite Forall_forall in Nh. specialize (Nh h0 (nth_error_In _ _ E)).
      destruct (H p h0 E) as (rows & columns & -> & Lr & Lc & Hr & Hc). inversion Nh as [|? ? Nr Nh']; subst. inversion Nh' as [|? ? Nc _]; subst. rewrite Forall_forall in Nr, Nc.
      exists (map g rows), (map g columns). split; [reflexivity|]. split; [now rewrite map_length|]. split; [now rewrite map_length|]. split.
      * intros i x Ex. apply nth_error_map_some in Ex as (x0 & Ex & ->). destruct (Hr i x0 Ex) as [_ P]. destruct (G x0) as [G1 G2]; [apply Nr; eapply nth_error_In; eauto|].
        split; [exact G1|]. rewrite row_map, G2. now apply Permutation_map.
      * intros j x Ex. apply nth_error_map_some in Ex as (x0 & Ex & ->). destruct (Hc j x0 Ex) as [_ P]. destruct (G x0) as [G1 G2]; [apply Nc; eapply nth_error_In; eauto|].
        split; [exact G1|]. rewrite column_map, G2. now apply Permutation_map.
Qed.

Lemma in_part_words (parts : list part) p w : In p parts -> In w (all_cells (p_words p)) -> In w (flat_map (fun p => all_cells (p_words p)) parts).
Proof. intros Hp Hw. apply in_flat_map. eauto. Qed.
Lemma part_length (parts : list part) p : In p parts -> List.length (all_cells (p_words p)) <= List.length (flat_map (fun p => all_cells (p_words p)) parts).
Proof. intros Hp. apply in_split in Hp as (l1 & l2 & ->). rewrite flat_map_app, app_length. simpl. rewrite app_length. lia. Qed.
Lemma in_concat3 {A} (t : list (list (list A))) r c x : In r t -> In c r -> In x c -> In x (all_cells t).
Proof. intros Hr Hc Hx. unfold all_cells. apply in_concat. exists c. split; auto. apply in_concat. eauto. Qed.

Lemma from_child_w a b c k t : wf (Mul a b c) -> cardinal (Mul a b c) <> 1%N -> k < 3 ->
  (forall j, j < 3 -> j <> k -> cardinal (pick a b c j) = 1%N) -> wtables (pick a b c k) t ->
  exists t', from_child a b c k t = Ok t' /\ wtables (Mul a b c) t'.
Proof.
  intros Wm Pm K3 One (parts & Rc & Et & Eh & Fp & Pp).
  destruct (ss_total (Mul a b c) Wm) as (own & Eo & _). unfold from_child. rewrite Eo. cbn [bind].
  assert (Lk : layer (pick a b c k) = layer a) by apply (pick_good a b c Wm). rewrite Lk in *.
  assert (Wk : wf (pick a b c k)) by apply (pick_good a b c Wm).
  set (r := fun x => match resolve k own x with Ok y => y | Err _ => x end).
  set (g := fun h => match with_nth a b c k h with Ok s => s | Err _ => h end).
  assert (Hr : forall x w, has_word (layer a) x w -> In w (words (pick a b c k)) -> resolve k own x = Ok (r x) /\ has_word (S (layer a)) (r x) (put_word a b c k w)).
  { intros x w Hx Hw. destruct (resolve_ok a b c Wm Pm own Eo k K3 One x w Hx Hw) as (y & E & Hy). unfold r. rewrite E. auto. }
  assert (Hg : forall h, nice (layer a) (List.length (words (pick a b c k))) h -> with_nth a b c k h = Ok (g h) /\ good (S (layer a)) (g h) /\ words (g h) = map (put_word a b c k) (words h)).
  { intros h [G L]. destruct (with_nth_ok a b c Wm Pm k K3 One h) as [s E]; [exact G| |].
    - rewrite <- (length_words h) by apply G. rewrite <- (length_words (pick a b c k)) by exact Wk. lia.
    - unfold g. rewrite E. split; [reflexivity|]. eapply with_nth_words; eauto. }
  assert (Fn : Forall (fun p => Forall (nice (layer a) (List.length (words (pick a b c k)))) (p_scripts p) /\ Forall (Forall (Forall (nice (layer a) (List.length (words (pick a b c k)))))) (p_headers p)) parts).
  { apply Forall_forall. intros p Hp. rewrite Forall_forall in Fp. destruct (wpart_nice _ _ _ _ (Fp p Hp)) as [N1 N2]. pose proof (part_length parts p Hp) as L. rewrite (Permutation_length Pp) in L.
    assert (Up : forall h, nice (layer a) (List.length (all_cells (p_words p))) h -> nice (layer a) (List.length (words (pick a b c k))) h) by (intros h [G0 L0]; split; [exact G0|lia]).
    split; [eapply Forall_impl; [exact Up|exact N1]|]. eapply Forall_impl; [|exact N2]. intros x. apply Forall_impl. intros y. apply Forall_impl. exact Up. }
  assert (Rc' : Forall2 (fun t W => mapM (mapM (mapM (resolve k own))) t = Ok (map (map (map r)) t) /\ rel3 (has_word (S (layer a))) (map (map (map r)) t) (map (map (map (put_word a b c k))) W)) (t_cells t) (map p_words parts)).
  { assert (Hin : Forall (fun W => forall w, In w (all_cells W) -> In w (words (pick a b c k))) (map p_words parts)).
    { apply Forall_map, Forall_forall. intros p Hp w Hw. eapply Permutation_in; [exact Pp|]. eapply in_part_words; eauto. }
    clear -Rc Hin Hr. induction Rc as [|u W us Ws R Rc IH]; [constructor|]. inversion Hin as [|? ? Hw Hin']; subst. constructor; [|auto]. clear -R Hw Hr.
    assert (X : Forall2 (Forall2 (Forall2 (fun x w => has_word (layer a) x w /\ In w (words (pick a b c k))))) u W).
    { assert (Hw' : Forall (Forall (Forall (fun w => In w (words (pick a b c k))))) W).
      { apply Forall_forall. intros ro Hro. apply Forall_forall. intros co Hco. apply Forall_forall. intros w Hiw. apply Hw. eapply in_concat3; eauto. }
      clear -R Hw'. unfold rel3 in R. induction R as [|x y u W Rx R IH]; [constructor|]. inversion Hw' as [|? ? H1 H2]; subst. constructor; [|auto]. clear -Rx H1.
      induction Rx as [|x y u W Rx R IH]; [constructor|]. inversion H1 as [|? ? H3 H4]; subst. constructor; [|auto]. clear -Rx H3.
      induction Rx as [|x y u W Rx R IH]; [constructor|]. inversion H3; subst. constructor; auto. }
    split.
    - clear -X Hr. apply mapM_map. intros ro Hro. apply mapM_map. intros co Hco. apply mapM_map. intros x Hx.
      enough (exists w, has_word (layer a) x w /\ In w (words (pick a b c k))) as (w & H1 & H2) by (exact (proj1 (Hr x w H1 H2))).
      apply (Forall2_In_l X) in Hro as (ro' & _ & Hro'). apply (Forall2_In_l Hro') in Hco as (co' & _ & Hco'). apply (Forall2_In_l Hco') in Hx as (w & _ & Hx'). eauto.
    - unfold rel3. clear -X Hr. induction X as [|x y u W Rx R IH]; [constructor|]. constructor; [|auto]. clear -Rx Hr.
      induction Rx as [|x y u W Rx R IH]; [constructor|]. constructor; [|auto]. clear -Rx Hr.
      induction Rx as [|x y u W [Rx Hy] R IH]; [constructor|]. constructor; [|auto]. exact (proj2 (Hr x y Rx Hy)). }
  rewrite (mapM_map _ (map (map (map r)))).
  2:{ intros u Hu. apply (Forall2_In_l Rc') in Hu as (W & _ & E & _). exact E. }
  cbn [bind]. rewrite Et, Eh.
  assert (Ng : forall h, nice (layer a) (List.length (words (pick a b c k))) h -> with_nth a b c k h = Ok (g h)) by (intros h H; apply Hg; exact H).
  rewrite Forall_forall in Fn.
  rewrite (mapM_map _ g).
  2:{ intros h Hh. apply in_concat in Hh as (l & Hl & Hh). apply in_map_iff in Hl as (p & <- & Hp). destruct (Fn p Hp) as [N1 _]. rewrite Forall_forall in N1. auto. }
  cbn [bind]. rewrite (mapM_map _ (map (map g))).
  2:{ intros h Hh. apply in_concat in Hh as (l & Hl & Hh). apply in_map_iff in Hl as (p & <- & Hp). destruct (Fn p Hp) as [_ N2]. rewrite Forall_forall in N2. specialize (N2 h Hh).
    rewrite Forall_forall in N2. apply mapM_map. intros d Hd. specialize (N2 d Hd). rewrite Forall_forall in N2. apply mapM_map. auto. }
  cbn [bind]. eexists. split; [reflexivity|].
  exists (map (fun p => {| p_words := map (map (map (put_word a b c k))) (p_words p); p_scripts := map g (p_scripts p); p_headers := map (map (map g)) (p_headers p) |}) parts).
  cbn [t_cells t_scripts t_headers layer]. rewrite !map_map. cbn [p_words p_scripts p_headers]. split; [|split; [|split; [|split]]].
  - clear -Rc'. rewrite <- (map_map p_words (map (map (map (put_word a b c k))))). induction Rc' as [|u W us Ws [_ R] Rc' IH]; [constructor|]. constructor; auto.
  - now rewrite concat_map, map_map.
  - now rewrite concat_map, map_map.
  - apply Forall_map, Forall_forall. intros p Hp. cbn [p_words p_scripts p_headers]. rewrite Forall_forall in Fp. eapply wpart_map; [|apply Fp, Hp].
    intros h [G L]. apply Hg. split; [exact G|]. pose proof (part_length parts p Hp) as L'. rewrite (Permutation_length Pp) in L'. lia.
  - rewrite flat_map_map'. cbn [p_words]. cbn [words]. rewrite (mul_words a b c Wm Pm k K3 One). eapply Permutation_trans; [|apply Permutation_map, Pp].
    rewrite map_flat_map'. erewrite flat_map_ext; [apply Permutation_refl|]. intros p. cbn. apply all_cells_map.
Qed.
