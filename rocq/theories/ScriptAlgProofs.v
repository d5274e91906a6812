(** Classes, promotion, algebra of sums, determinism, when constructors succeed. *)
From Coq Require Import List String Bool NArith Arith Lia Sorted Permutation.
From Verif Require Import Base Script ScriptParser SortProofs ScriptWf ScriptStrProofs ScriptOrderProofs ScriptSpec ScriptCtorProofs ScriptParseProofs ScriptSeqProofs ScriptMoreProofs.
Import ListNotations.

(** * Classes *)
Lemma maxl_ge x l : In x l -> x <= maxl l.
Proof. unfold maxl. induction l; simpl; [tauto|]. intros [->|H]; [lia|]. specialize (IHl H). lia. Qed.
Lemma maxl_in l : l <> [] -> In (maxl l) l.
Proof.
  unfold maxl. induction l as [|x l IH]; [congruence|]. intros _. simpl.
  destruct l as [|y l]; [simpl; lia|].
  destruct (Nat.max_spec x (fold_right Nat.max 0 (y :: l))) as [[_ ->]|[_ ->]]; auto.
  right. apply IH. discriminate.
Qed.

Lemma pow3_pos n : 0 < 3 ^ n.
Proof. induction n; simpl; lia. Qed.

Lemma means_cons s w : wf s -> means s w -> exists x r, w = x :: r.
Proof.
  intros W M. apply means_length in M; auto. pose proof (pow3_pos (layer s)).
  destruct w as [|x r]; [simpl in M; lia|eauto].
Qed.

Lemma class_means s : wf s ->
  (forall w, means s w -> word_class w <= script_class s) /\
  (exists w, means s w /\ word_class w = script_class s).
Proof.
  induction s as [l|p|a b c IHa IHb IHc|cs IH] using script_ind'; intros W.
  - assert (X : word_class (repeat None (3 ^ l)) = 0).
    { unfold word_class. destruct (3 ^ l); reflexivity. }
    split.
    + intros w ->. simpl. rewrite X. auto.
    + exists (repeat None (3 ^ l)). split; [reflexivity|auto].
  - split.
    + intros w ->. destruct p; simpl; auto.
    + exists [Some p]. split; [reflexivity|]. destruct p; reflexivity.
  - apply wf_mul_inv in W. destruct W as (Wa & Wb & Wc & _).
    destruct (IHa Wa) as [H1 (u0 & Hu0 & E0)]. split.
    + intros w (u & v & t & Hu & Hv & Ht & ->). simpl script_class.
      destruct (means_cons a u Wa Hu) as (x & r & ->). apply H1 in Hu. exact Hu.
    + destruct (means_inhabited b Wb) as [v Hv]. destruct (means_inhabited c Wc) as [t Ht].
      exists (u0 ++ v ++ t)%list. split; [exists u0, v, t; auto|].
      destruct (means_cons a u0 Wa Hu0) as (x & r & ->). simpl script_class. rewrite <- E0. reflexivity.
  - rewrite Forall_forall in IH. cbn [script_class].
    assert (K : forall c, In c cs -> wf c) by (intros c Hc; apply (wf_add_in _ _ W Hc)).
    split.
    + intros w H. apply means_add in H. destruct H as (c & Hc & H).
      destruct (IH c Hc (K c Hc)) as [H1 _]. specialize (H1 w H).
      assert (script_class c <= maxl (map script_class cs)); [|lia].
      apply maxl_ge, in_map; auto.
    + assert (I : In (maxl (map script_class cs)) (map script_class cs)).
      { apply maxl_in. destruct cs; [simpl in W; tauto|discriminate]. }
      apply in_map_iff in I. destruct I as (c & Ec & Hc).
      destruct (IH c Hc (K c Hc)) as [_ (w & Hw & E)]. exists w. split; [|congruence].
      apply means_add; eauto.
Qed.

(** * Promotion *)
Lemma promote_step s : wf s -> layer s < MAX_LAYER ->
  exists r, mk_mul_l [s] = Ok r /\ wf r /\ is_add r = false /\ layer r = S (layer s) /\
    cardinal r = cardinal s /\
    forall w, means r w <-> exists u, means s u /\ w = (u ++ repeat None (2 * 3 ^ layer s))%list.
Proof.
  intros W L.
  destruct (child_ok_nullify s W) as [W1 K1].
  set (a := nullify (unwrap s)) in *. set (n := Null (layer s)).
  assert (La : layer a = layer s) by (unfold a; rewrite layer_nullify, layer_unwrap; auto).
  assert (Ma : forall w, means a w <-> means s w).
  { intros w. unfold a. rewrite means_nullify, means_unwrap; [tauto|].
    destruct s as [| | |[|x [|y cs]]]; auto. apply (wf_add_in _ x W). left; auto. }
  assert (Ca : cardinal a = cardinal s).
  { assert (U : cardinal (unwrap s) = cardinal s).
    { destruct s as [| | |[|x [|y cs]]]; auto. simpl. lia. }
    assert (Wu : nf (unwrap s)).
    { destruct s as [| | |cs]; try (apply nf_notadd; auto; fail).
      destruct cs as [|x [|y cs]]; simpl; [simpl in W; tauto| |split; auto; discriminate].
      destruct (wf_add_in _ x W (or_introl eq_refl)) as (? & ? & _). apply nf_notadd; auto. }
    unfold a, nullify. destruct (is_empty (unwrap s)) eqn:E; auto.
    rewrite <- U. symmetry. apply empty_cardinal; auto using nf_wf, empty_nf_notadd. }
  assert (C : (cardinal s <= MAX_SINGULAR_SEQUENCES)%N).
  { destruct s; simpl in W; unfold MAX_SINGULAR_SEQUENCES in *; simpl; try lia; simpl in W; lia. }
  exists (Mul a n n).
  assert (Wr : wf (Mul a n n)).
  { cbn [wf]. cbn [cardinal n]. rewrite !N.mul_1_r, Ca, La.
    repeat split; simpl; auto; try apply K1; try discriminate; try lia. }
  split; [|split; [auto|split; [auto|split; [|split]]]].
  - unfold mk_mul_l. cbn [map hd nth]. fold a. fold n.
    change (layer n) with (layer s). rewrite La, Nat.eqb_refl. cbn [andb negb].
    cbn [cardinal n]. rewrite !N.mul_1_r, Ca. apply N.ltb_ge in C. rewrite C.
    cbn [layer]. rewrite La.
    assert (X : Nat.ltb MAX_LAYER (S (layer s)) = false) by (apply Nat.ltb_ge; lia).
    rewrite X. reflexivity.
  - simpl. congruence.
  - simpl. rewrite !N.mul_1_r. auto.
  - intros w. simpl means. split.
    + intros (u & v & t & Hu & -> & -> & ->). exists u. rewrite <- Ma. split; auto.
      rewrite <- repeat_app. do 2 f_equal. lia.
    + intros (u & Hu & ->). exists u, (repeat None (3 ^ layer s)), (repeat None (3 ^ layer s)).
      rewrite Ma. repeat split; auto. rewrite <- repeat_app. do 2 f_equal. lia.
Qed.

Lemma promote_n_spec n : forall s, wf s -> layer s + n <= MAX_LAYER ->
  exists r, promote_n n s = Ok r /\ wf r /\ layer r = layer s + n /\ cardinal r = cardinal s /\
    forall w, means r w <-> exists u, means s u /\
       w = (u ++ repeat None (3 ^ (layer s + n) - 3 ^ layer s))%list.
Proof.
  induction n as [|n IH]; intros s W L.
  - exists s. repeat split; auto; try lia.
    + intros H. exists w. split; auto. rewrite Nat.add_0_r, Nat.sub_diag. simpl. rewrite app_nil_r. auto.
    + intros (u & Hu & ->). rewrite Nat.add_0_r, Nat.sub_diag. simpl. rewrite app_nil_r. auto.
  - destruct (promote_step s W) as (r1 & E1 & W1 & _ & L1 & C1 & M1); [lia|].
    destruct (IH r1 W1) as (r & E & Wr & Lr & Cr & Mr); [lia|].
    exists r. simpl. rewrite E1. cbn [bind].
    split; auto. split; auto. split; [lia|]. split; [congruence|].
    assert (P : 3 ^ S (layer s) <= 3 ^ (layer s + S n)) by (apply Nat.pow_le_mono_r; lia).
    assert (Q : 3 ^ S (layer s) = 3 * 3 ^ layer s) by reflexivity.
    intros w. rewrite Mr. rewrite L1. replace (S (layer s) + n) with (layer s + S n) by lia.
    split.
    + intros (u & Hu & ->). apply M1 in Hu. destruct Hu as (u' & Hu' & ->).
      exists u'. split; auto. rewrite <- app_assoc, <- repeat_app. do 2 f_equal. lia.
    + intros (u & Hu & ->). exists (u ++ repeat None (2 * 3 ^ layer s))%list. split.
      * apply M1. eauto.
      * rewrite <- app_assoc, <- repeat_app. do 2 f_equal. lia.
Qed.

Lemma promote_n_add a : forall b s, promote_n (a + b) s = (do r <- promote_n a s; promote_n b r).
Proof.
  induction a as [|a IH]; intros b s; auto. simpl. destruct (mk_mul_l [s]); cbn [bind]; auto.
Qed.

Lemma mk_mul_l_top s : wf s -> layer s = MAX_LAYER -> mk_mul_l [s] = Err IndexError.
Proof.
  intros W L. unfold mk_mul_l. cbn [map hd nth].
  assert (La : layer (nullify (unwrap s)) = layer s) by (rewrite layer_nullify, layer_unwrap; auto).
  cbn [layer]. rewrite La, Nat.eqb_refl. cbn [andb negb].
  cbn [cardinal]. rewrite !N.mul_1_r.
  assert (C : (cardinal (nullify (unwrap s)) <= MAX_SINGULAR_SEQUENCES)%N).
  { destruct (child_ok_nullify s W) as [W1 _]. destruct (nullify (unwrap s)); simpl in W1;
    unfold MAX_SINGULAR_SEQUENCES in *; simpl; try lia; simpl in W1; lia. }
  apply N.ltb_ge in C. rewrite C, L. reflexivity.
Qed.

Lemma promote_high s l : wf s -> MAX_LAYER < l -> promote s l = Err IndexError.
Proof.
  intros W L. pose proof (nf_layer_le s W) as Ls. unfold promote.
  replace (l - layer s) with ((MAX_LAYER - layer s) + S (l - S MAX_LAYER)) by lia.
  rewrite promote_n_add.
  destruct (promote_n_spec (MAX_LAYER - layer s) s W) as (r & -> & Wr & Lr & _); [lia|].
  cbn [bind promote_n]. rewrite mk_mul_l_top; auto. lia.
Qed.

Lemma promote_compose s l l' : wf s -> layer s <= l <= l' ->
  (do r <- promote s l; promote r l') = promote s l'.
Proof.
  intros W [H1 H2]. destruct (Nat.le_gt_cases l MAX_LAYER) as [H|H].
  - unfold promote at 1 3. replace (l' - layer s) with ((l - layer s) + (l' - l)) by lia.
    rewrite promote_n_add.
    destruct (promote_n_spec (l - layer s) s W) as (r & -> & Wr & Lr & _); [lia|].
    cbn [bind]. unfold promote. do 2 f_equal. lia.
  - rewrite !promote_high by (auto; lia). reflexivity.
Qed.

(** * Determinism of the parser *)
Lemma mapM_ext_in {A B} (f g : A -> res B) l : (forall x, In x l -> f x = g x) -> mapM f l = mapM g l.
Proof.
  intros H. induction l as [|x l IH]; auto. simpl. rewrite (H x) by (simpl; auto).
  destruct (g x); cbn [bind]; auto.
  change (bind (mapM f l) (fun ys => Ok (a :: ys)) = bind (mapM g l) (fun ys => Ok (a :: ys))).
  rewrite IH; auto. intros; apply H; simpl; auto.
Qed.

Lemma mapM_in {A B} (f : A -> res B) l l' y : mapM f l = Ok l' -> In y l' -> exists x, In x l /\ f x = Ok y.
Proof.
  intros E. apply mapM_inv in E. induction E as [|x z l l' H E IH]; intros I; [destruct I|].
  destruct I as [<-|I]; [exists x; simpl; auto|]. destruct (IH I) as (x' & ? & ?). exists x'. simpl; auto.
Qed.

Section Det.
  Variables so so' : list script -> list script.
  Hypothesis SO : set_order so.
  Hypothesis SO' : set_order so'.

  Lemma eval_sum_det ts : Forall (fun t => eval so t = eval so' t) ts ->
    eval_sum so (eval so) ts = eval_sum so' (eval so') ts.
  Proof.
    intros F. unfold eval_sum. rewrite Forall_forall in F.
    rewrite <- (mapM_ext_in (eval so) (eval so')) by auto.
    destruct (mapM (eval so) ts) as [l|] eqn:E; cbn [bind]; auto.
    apply mk_add_order; auto. intros c Hc. apply in_rev in Hc.
    destruct (mapM_in _ _ _ _ E Hc) as (t & _ & Et).
    apply constructible_wf. apply (eval_constructible so SO t); auto.
  Qed.

  Lemma eval_det t : eval so t = eval so' t.
  Proof.
    induction t as [p|k|k|n args IH] using tree_ind'; auto.
    - simpl. unfold mk_add_char. destruct (find _ REMARKABLE_ADDITION) as [[k' v]|]; auto.
      apply mk_add_order; auto. apply wf_letters_in.
    - rewrite !eval_mul. rewrite Forall_forall in IH.
      rewrite (mapM_ext_in _ (eval_sum so' (eval so'))); auto.
      intros ts Hts. apply eval_sum_det. auto.
  Qed.

  Lemma parse_det t : parse so t = parse so' t.
  Proof.
    unfold parse. destruct (parse_tree (lex t)) as [ts|]; auto. f_equal.
    assert (X : eval_sum so (eval so) ts = eval_sum so' (eval so') ts).
    { apply eval_sum_det. apply Forall_forall. intros; apply eval_det. }
    destruct ts as [|t0 [|t1 ts]]; simpl; auto. apply eval_det.
  Qed.
End Det.

(** * Algebra of sums *)
Lemma mk_add_ext_terms so so' cs cs' L : set_order so -> set_order so' ->
  cs <> [] -> cs' <> [] ->
  (forall c, In c cs -> nf c /\ layer c = L) -> (forall c, In c cs' -> nf c /\ layer c = L) ->
  (forall n, in_terms cs n <-> in_terms cs' n) ->
  same_result (mk_add so cs) (mk_add so' cs').
Proof.
  intros SO SO' NE NE' K K' T.
  assert (F : forall c, In c cs -> nf c) by (intros; apply K; auto).
  assert (F' : forall c, In c cs' -> nf c) by (intros; apply K'; auto).
  assert (Fw : forall c, In c cs -> wf c) by (intros; apply F; auto).
  assert (Fw' : forall c, In c cs' -> wf c) by (intros; apply F'; auto).
  pose proof (flatten_norm_perm cs cs' F F' T) as PF.
  assert (FW : forall x, In x (flatten cs) -> wf x) by (intros x Hx; apply (flatten_in _ _ Fw Hx)).
  assert (FW' : forall x, In x (flatten cs') -> wf x) by (intros x Hx; apply (flatten_in _ _ Fw' Hx)).
  assert (Sum : sumN (map cardinal (so (flatten cs))) = sumN (map cardinal (so' (flatten cs')))).
  { rewrite (sumN_perm _ (map cardinal (flatten cs))) by (apply Permutation_map, SO).
    rewrite (sumN_perm (map cardinal (so' (flatten cs'))) (map cardinal (flatten cs')))
      by (apply Permutation_map, SO').
    rewrite <- (map_cardinal_norm (flatten cs)), <- (map_cardinal_norm (flatten cs')) by auto.
    apply sumN_perm, Permutation_map, PF. }
  assert (Len : List.length (so (flatten cs)) = List.length (so' (flatten cs'))).
  { rewrite (Permutation_length (SO _)), (Permutation_length (SO' _)).
    rewrite <- (map_length norm (flatten cs)), <- (map_length norm (flatten cs')).
    apply Permutation_length; auto. }
  assert (U : forall so0 l, l <> [] -> (forall c, In c l -> nf c /\ layer c = L) ->
    mk_add so0 l = match so0 (flatten l) with
      | [] => Err IndexError
      | _ => if N.ltb MAX_SINGULAR_SEQUENCES (sumN (map cardinal (so0 (flatten l))))
             then Err TooManySingularSequences else Ok (Add (isort (so0 (flatten l)))) end).
  { intros so0 l Hl Kl. unfold mk_add. destruct l as [|c0 r]; [congruence|].
    assert (B : forallb (fun c => Nat.eqb (layer c) (layer c0)) (c0 :: r) = true).
    { apply forallb_forall. intros c Hc. apply Nat.eqb_eq.
      destruct (Kl c Hc) as [_ ->]. destruct (Kl c0 (or_introl eq_refl)) as [_ ->]. auto. }
    rewrite B. reflexivity. }
  pose proof (U so cs NE K) as U1. pose proof (U so' cs' NE' K') as U2.
  assert (R : forall s s', mk_add so cs = Ok s -> mk_add so' cs' = Ok s' -> str s = str s').
  { intros s s' E E'.
    destruct (mk_add_terms _ _ _ SO F E) as (l & -> & W & S & I).
    destruct (mk_add_terms _ _ _ SO' F' E') as (l' & -> & W' & S' & I').
    apply script_eqb_eq. apply script_eqb_norm; auto. rewrite !norm_add. f_equal.
    apply add_norm_unique; auto. intros n. rewrite I, I'. auto. }
  destruct (mk_add so cs) as [s|e] eqn:E, (mk_add so' cs') as [s'|e'] eqn:E'.
  - simpl. apply R; auto.
  - exfalso. destruct (so (flatten cs)) eqn:Z, (so' (flatten cs')) eqn:Z'; simpl in Len; try discriminate.
    rewrite <- Z, <- Z' in *. rewrite Sum in U1.
    destruct (N.ltb _ _); discriminate.
  - exfalso. destruct (so (flatten cs)) eqn:Z, (so' (flatten cs')) eqn:Z'; simpl in Len; try discriminate.
    rewrite <- Z, <- Z' in *. rewrite Sum in U1.
    destruct (N.ltb _ _); discriminate.
  - simpl. destruct (so (flatten cs)) eqn:Z, (so' (flatten cs')) eqn:Z'; simpl in Len; try discriminate.
    + congruence.
    + rewrite <- Z, <- Z' in *. rewrite Sum in U1. destruct (N.ltb _ _); congruence.
Qed.

Lemma in_terms_two a b n : in_terms [a; b] n <-> in_terms [a] n \/ in_terms [b] n.
Proof.
  unfold in_terms. split.
  - intros (c & [<-|[<-|[]]] & D); [left; exists a|right; exists b]; simpl; auto.
  - intros [(c & [<-|[]] & D)|(c & [<-|[]] & D)]; [exists a|exists b]; simpl; auto.
Qed.

Lemma in_terms_add l n : in_terms [Add l] n <-> In n (map norm l).
Proof.
  unfold in_terms. rewrite in_map_iff. split.
  - intros (c & [<-|[]] & [[X _]|(d & Hd & X)]); [discriminate|]. exists d; auto.
  - intros (d & X & Hd). exists (Add l). split; [left; auto|]. right. exists d; auto.
Qed.

Lemma script_add_terms so a b r : set_order so -> nf a -> nf b -> script_add so a b = Ok r ->
  layer r = layer a /\ layer b = layer a /\ wf r /\
  exists l, r = Add l /\ forall n, In n (map norm l) <-> in_terms [a] n \/ in_terms [b] n.
Proof.
  intros SO Na Nb E. unfold script_add in E.
  assert (F : forall c, In c [a; b] -> nf c) by (intros c [<-|[<-|[]]]; auto).
  destruct (mk_add_terms _ _ _ SO F E) as (l & -> & W & S & I).
  pose proof E as E2. apply mk_add_inv in E2. destruct E2 as (c0 & r & X & L & NE & _ & Y).
  injection X as <- <-.
  assert (Lb : layer b = layer a) by (apply L; simpl; auto).
  split; [|split; [auto|split; [auto|exists l; split; auto; intros n; rewrite I; apply in_terms_two]]].
  destruct l as [|x l]; [simpl in W; tauto|].
  assert (Hx : In (norm x) (map norm (x :: l))) by (left; auto).
  assert (Wx : wf x) by (apply (wf_add_in _ x W); left; auto).
  apply I in Hx. destruct Hx as (c & Hc & D). simpl.
  assert (Lc : layer c = layer a) by (apply L; auto). rewrite <- Lc.
  destruct D as [[_ D]|(d & Hd & D)].
  - rewrite <- (layer_norm x), <- D, layer_norm; auto. apply F; auto.
  - destruct c as [| | |ds]; simpl in Hd; try tauto.
    destruct (wf_add_in ds d (nf_wf _ (F _ Hc)) Hd) as (Wd & _ & <-).
    rewrite <- (layer_norm x), <- D, layer_norm; auto.
Qed.

Lemma script_add_comm so so' a b : set_order so -> set_order so' -> nf a -> nf b ->
  same_result (script_add so a b) (script_add so' b a).
Proof.
  intros SO SO' Na Nb. unfold script_add. apply mk_add_ext; auto.
  - intros c [<-|[<-|[]]]; auto.
  - intros c [<-|[<-|[]]]; auto.
  - intros n. simpl. tauto.
Qed.

Lemma script_add_idem so a : set_order so -> nf a -> same_result (script_add so a a) (Ok a).
Proof.
  intros SO Na. unfold script_add.
  assert (X : exists l, mk_add so [a; a] = Ok (Add l) /\ wf (Add l) /\ map norm l = map norm (addends a)).
  { assert (Wd : wf (Add (addends a))).
    { destruct a as [| | |cs]; try (apply wf_one; auto; exact (proj1 Na)). exact (proj1 Na). }
    apply mk_add_of_terms; auto.
    - discriminate.
    - intros c [<-|[<-|[]]]; auto.
    - assert (La : layer a = layer (Add (addends a))) by (destruct a; reflexivity).
      intros c [<-|[<-|[]]]; auto.
    - intros n. rewrite in_terms_two. destruct a as [| | |cs].
      4:{ simpl addends. rewrite !in_terms_add. tauto. }
      all: simpl addends; split;
           [intros [(c & [<-|[]] & [[_ D]|(d & [] & _)])|(c & [<-|[]] & [[_ D]|(d & [] & _)])]; simpl; auto
           |intros [<-|[]]; left; eexists; split; [left; reflexivity|left; auto]]. }
  destruct X as (l & -> & W & M). simpl. apply script_eqb_eq. apply script_eqb_norm; auto using nf_wf.
  rewrite norm_add, M. destruct a; try reflexivity. symmetry. apply norm_add.
Qed.

Lemma script_add_assoc so1 so2 so3 so4 a b c ab bc :
  set_order so1 -> set_order so2 -> set_order so3 -> set_order so4 ->
  nf a -> nf b -> nf c ->
  script_add so1 a b = Ok ab -> script_add so2 b c = Ok bc -> nf ab -> nf bc ->
  same_result (script_add so3 ab c) (script_add so4 a bc).
Proof.
  intros S1 S2 S3 S4 Na Nb Nc Eab Ebc Nab Nbc.
  destruct (script_add_terms _ _ _ _ S1 Na Nb Eab) as (L1 & L1' & W1 & l1 & -> & I1).
  destruct (script_add_terms _ _ _ _ S2 Nb Nc Ebc) as (L2 & L2' & W2 & l2 & -> & I2).
  unfold script_add. apply mk_add_ext_terms with (L := layer a); auto; try discriminate.
  - intros x [<-|[<-|[]]]; split; auto. congruence.
  - intros x [<-|[<-|[]]]; split; auto. congruence.
  - intros n. rewrite !in_terms_two, !in_terms_add, I1, I2. tauto.
Qed.

(** * When the constructors succeed *)
Lemma until_none_all {A} (cs : list A) : until_none (map Some cs) = cs.
Proof. induction cs; simpl; congruence. Qed.

Lemma cardinal_nullify_unwrap c : wf c -> cardinal (nullify (unwrap c)) = cardinal c.
Proof.
  intros W.
  assert (U : cardinal (unwrap c) = cardinal c).
  { destruct c as [| | |[|x [|y cs]]]; auto. simpl. lia. }
  assert (Wu : nf (unwrap c)).
  { destruct c as [| | |cs]; try (apply nf_notadd; auto; fail).
    destruct cs as [|x [|y cs]]; simpl; [simpl in W; tauto| |split; auto; discriminate].
    destruct (wf_add_in _ x W (or_introl eq_refl)) as (? & ? & _). apply nf_notadd; auto. }
  unfold nullify. destruct (is_empty (unwrap c)) eqn:E; auto.
  rewrite <- U. symmetry. apply empty_cardinal; auto using nf_wf, empty_nf_notadd.
Qed.

Lemma mk_mul_l_result cs : (forall c, In c cs -> wf c) ->
  match mk_mul_l cs with
  | Ok s => cs <> [] /\ List.length cs <= 3 /\ (exists l, l < MAX_LAYER /\ forall c, In c cs -> layer c = l) /\
            (prodN (map cardinal cs) <= MAX_SINGULAR_SEQUENCES)%N
  | Err e =>
    (cs = [] /\ e = IndexError) \/
    (3 < List.length cs /\ e = InvalidScript) \/
    ((exists c d, In c cs /\ In d cs /\ layer c <> layer d) /\ e = InvalidScript) \/
    ((MAX_SINGULAR_SEQUENCES < prodN (map cardinal cs))%N /\ e = TooManySingularSequences) \/
    ((exists c, In c cs /\ layer c = MAX_LAYER) /\ e = IndexError)
  end.
Proof.
  intros F. unfold mk_mul_l.
  destruct cs as [|x [|y [|z [|w cs]]]]; cbn [map hd nth]; auto.
  4: right; left; split; [simpl; lia|auto].
  all: rewrite !layer_nullify, !layer_unwrap.
  all: cbn [layer cardinal].
  all: rewrite ?(cardinal_nullify_unwrap x), ?(cardinal_nullify_unwrap y), ?(cardinal_nullify_unwrap z)
         by (apply F; simpl; auto).
  all: rewrite ?layer_nullify, ?layer_unwrap; cbn [layer].
  all: pose proof (nf_layer_le x (F x (or_introl eq_refl))) as Lx.
  - rewrite Nat.eqb_refl. cbn [andb negb].
    replace (cardinal x * 1 * 1)%N with (prodN (map cardinal [x])) by (simpl; lia).
    destruct (N.ltb_spec MAX_SINGULAR_SEQUENCES (prodN (map cardinal [x]))); [auto 10|].
    destruct (Nat.ltb_spec MAX_LAYER (S (layer x))).
    + do 4 right. split; auto. exists x. simpl. split; auto. lia.
    + split; [discriminate|]. split; [simpl; lia|]. split; auto.
      exists (layer x). split; [lia|]. intros c [<-|[]]; auto.
  - destruct (Nat.eqb_spec (layer x) (layer y)) as [E|E]; cbn [andb].
    2:{ cbn [negb]. right; right; left. split; auto. exists x, y. simpl; auto. }
    rewrite <- E, Nat.eqb_refl. cbn [negb].
    replace (cardinal x * cardinal y * 1)%N with (prodN (map cardinal [x; y])) by (simpl; lia).
    destruct (N.ltb_spec MAX_SINGULAR_SEQUENCES (prodN (map cardinal [x; y]))); [auto 10|].
    destruct (Nat.ltb_spec MAX_LAYER (S (layer x))).
    + do 4 right. split; auto. exists x. simpl. split; auto. lia.
    + split; [discriminate|]. split; [simpl; lia|]. split; auto.
      exists (layer x). split; [lia|]. intros c [<-|[<-|[]]]; auto.
  - destruct (Nat.eqb_spec (layer x) (layer y)) as [E|E]; cbn [andb].
    2:{ cbn [negb]. right; right; left. split; auto. exists x, y. repeat split; simpl; auto. }
    destruct (Nat.eqb_spec (layer y) (layer z)) as [E2|E2]; cbn [negb].
    2:{ right; right; left. split; auto. exists y, z. repeat split; simpl; auto. }
    replace (cardinal x * cardinal y * cardinal z)%N with (prodN (map cardinal [x; y; z])) by (simpl; lia).
    destruct (N.ltb_spec MAX_SINGULAR_SEQUENCES (prodN (map cardinal [x; y; z]))); [auto 10|].
    destruct (Nat.ltb_spec MAX_LAYER (S (layer x))).
    + do 4 right. split; auto. exists x. simpl. split; auto. lia.
    + split; [discriminate|]. split; [simpl; lia|]. split; auto.
      exists (layer x). split; [lia|]. intros c [<-|[<-|[<-|[]]]]; congruence.
Qed.

(** For sums: [ts] lists the distinct terms. *)
Lemma term_of_in_terms cs n : in_terms cs n <-> exists c t, In c cs /\ term_of t c /\ norm t = n.
Proof.
  unfold in_terms, term_of. split.
  - intros (c & Hc & [[A D]|(d & Hd & D)]); [exists c, c|exists c, d]; auto.
  - intros (c & t & Hc & [[A ->]|Hd] & D); exists c; split; auto. right. eauto.
Qed.

Lemma mk_add_result so cs ts : set_order so -> (forall c, In c cs -> nf c) -> distinct_terms cs ts ->
  match mk_add so cs with
  | Ok s => cs <> [] /\ (forall c d, In c cs -> In d cs -> layer c = layer d) /\
            (sumN (map cardinal ts) <= MAX_SINGULAR_SEQUENCES)%N
  | Err e =>
    (cs = [] /\ e = InvalidScript) \/
    ((exists c d, In c cs /\ In d cs /\ layer c <> layer d) /\ e = IncompatiblesScriptsLayers) \/
    ((MAX_SINGULAR_SEQUENCES < sumN (map cardinal ts))%N /\ e = TooManySingularSequences)
  end.
Proof.
  intros SO F (ND & T1 & T2).
  assert (Fw : forall c, In c cs -> wf c) by (intros; apply F; auto).
  assert (Wt : forall c t, In c cs -> term_of t c -> wf t).
  { intros c t Hc [[_ ->]|Ht]; auto. destruct c as [| | |ds]; simpl in Ht; try tauto.
    apply (wf_add_in ds t (Fw _ Hc) Ht). }
  assert (Wts : forall t, In t ts -> wf t).
  { intros t Ht. destruct (T1 t Ht) as (c & Hc & Hct). eauto. }
  assert (FW : forall x, In x (flatten cs) -> wf x) by (intros x Hx; apply (flatten_in _ _ Fw Hx)).
  assert (PF : Permutation (map norm (flatten cs)) (map norm ts)).
  { apply NoDup_Permutation.
    - apply distinct_norm_nodup; [auto|apply flatten_distinct].
    - clear T1 T2 FW. induction ts as [|t ts IH]; simpl; constructor.
      + simpl in ND. inversion ND; subst. intros I. apply in_map_iff in I. destruct I as (t' & E & Ht').
        apply H1. rewrite <- (str_norm t), <- E, str_norm by (apply Wts; simpl; auto). apply in_map; auto.
      + simpl in ND. inversion ND; subst. apply IH; auto. intros; apply Wts; simpl; auto.
    - intros n. transitivity (in_terms cs n).
      + rewrite <- flatten_norm by auto. rewrite in_map_iff.
        split; intros (x & ? & ?); exists x; tauto.
      + rewrite term_of_in_terms, in_map_iff. split.
        * intros (c & t & Hc & Ht & <-). destruct (T2 c t Hc Ht) as (t' & Ht' & E).
          exists t'. split; auto. apply str_inj_norm; eauto.
        * intros (t & <- & Ht). destruct (T1 t Ht) as (c & Hc & Hct). exists c, t. auto. }
  assert (Sum : sumN (map cardinal (so (flatten cs))) = sumN (map cardinal ts)).
  { rewrite (sumN_perm _ (map cardinal (flatten cs))) by (apply Permutation_map, SO).
    rewrite <- (map_cardinal_norm (flatten cs)), <- (map_cardinal_norm ts) by auto.
    apply sumN_perm, Permutation_map, PF. }
  unfold mk_add. destruct cs as [|c0 r]; [auto|].
  destruct (forallb (fun c => Nat.eqb (layer c) (layer c0)) (c0 :: r)) eqn:B; cbn [negb].
  2:{ right; left. split; auto.
      assert (exists c, In c (c0 :: r) /\ layer c <> layer c0) as (c & Hc & Hn).
      { clear -B. induction (c0 :: r) as [|x l IH]; [discriminate|]. simpl in B.
        destruct (Nat.eqb_spec (layer x) (layer c0)); simpl in B.
        - destruct (IH B) as (c & ? & ?). exists c. simpl; auto.
        - exists x. simpl; auto. }
      exists c, c0. simpl; auto. }
  rewrite forallb_forall in B. rewrite Sum.
  destruct (so (flatten (c0 :: r))) as [|x fl] eqn:Z.
  { exfalso. pose proof (SO (flatten (c0 :: r))) as P. rewrite Z in P. apply Permutation_nil in P.
    rewrite P in PF. apply Permutation_nil in PF. destruct ts; [|discriminate].
    assert (exists t, term_of t c0) as [t Ht].
    { destruct c0 as [| | |[|d ds]]; try (eexists; left; split; reflexivity).
      - destruct (F (Add []) (or_introl eq_refl)) as [W _]. simpl in W. tauto.
      - exists d. right. simpl; auto. }
    destruct (T2 c0 t (or_introl eq_refl) Ht) as (? & [] & _). }
  destruct (N.ltb_spec MAX_SINGULAR_SEQUENCES (sumN (map cardinal ts))) as [C|C]; [auto|].
  split; [discriminate|]. split; auto.
  intros c d Hc Hd. apply B in Hc, Hd. apply Nat.eqb_eq in Hc, Hd. congruence.
Qed.
