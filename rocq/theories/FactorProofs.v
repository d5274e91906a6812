(** The factorisation preserves the words. *)
From Coq Require Import List String Bool NArith Arith Lia Permutation.
From Verif Require Import Base Script ScriptParser SortProofs ScriptWf ScriptStrProofs ScriptOrderProofs ScriptSpec ScriptCtorProofs ScriptSeqProofs ScriptMoreProofs TablesProofs Factor FactorBoxProofs.
Import ListNotations.

(** The words of a factorisation *)
Fixpoint fwords (f : fact) : list word :=
  match f with
  | FScript s => [wordof s]
  | FTuple a b c => map cat3 (product3 (flat_map fwords a) (flat_map fwords b) (flat_map fwords c))
  end.
(** Its layer *)
Fixpoint shaped (f : fact) (n : nat) : Prop :=
  match f, n with
  | FScript s, _ => sing n s
  | FTuple _ _ _, 0 => False
  | FTuple a b c, S m => m < MAX_LAYER /\ a <> [] /\ b <> [] /\ c <> [] /\
      fold_right (fun f Q => shaped f m /\ Q) True a /\ fold_right (fun f Q => shaped f m /\ Q) True b /\ fold_right (fun f Q => shaped f m /\ Q) True c
  end.
Definition all_shaped (fs : list fact) (n : nat) : Prop := fold_right (fun f Q => shaped f n /\ Q) True fs.
Lemma all_shaped_Forall fs n : all_shaped fs n <-> Forall (fun f => shaped f n) fs.
Proof. induction fs as [|f fs IH]; cbn [all_shaped fold_right]; [split; auto|]. rewrite Forall_cons_iff. unfold all_shaped in IH. rewrite IH. tauto. Qed.

Section FactInd.
  Variable Q : fact -> Prop.
  Hypothesis HS : forall s, Q (FScript s).
  Hypothesis HT : forall a b c, Forall Q a -> Forall Q b -> Forall Q c -> Q (FTuple a b c).
  Fixpoint fact_ind' (f : fact) : Q f :=
    let fix go (l : list fact) : Forall Q l := match l with [] => Forall_nil _ | x :: r => Forall_cons x (fact_ind' x) (go r) end in
    match f with FScript s => HS s | FTuple a b c => HT a b c (go a) (go b) (go c) end.
End FactInd.

Definition factored (n : nat) (seqs : list script) (fs : list fact) : Prop :=
  fs <> [] /\ all_shaped fs n /\ NoDup (flat_map fwords fs) /\ forall w, In w (flat_map fwords fs) <-> In w (map wordof seqs).

(** * Singular scripts *)
Lemma sing_sing1 n x : sing n x -> sing1 n x.
Proof. intros (N & C & L). repeat split; auto. apply nf_wf; auto. Qed.
Lemma sing_word n x y : sing n x -> sing n y -> (script_eqb x y = true <-> wordof x = wordof y).
Proof. intros. apply (sing1_word n); apply sing_sing1; auto. Qed.
Lemma sing_length n x : sing n x -> List.length (wordof x) = 3 ^ n.
Proof.
  intros (N & C & L). subst n. apply means_length; [apply nf_wf; auto|]. apply wordof_means; auto. apply nf_wf; auto.
Qed.
Lemma children3_sing n s : sing (S n) s -> exists a b c, children3 s = Ok (a, b, c) /\ sing n a /\ sing n b /\ sing n c /\
  wordof s = (wordof a ++ wordof b ++ wordof c)%list /\ n < MAX_LAYER.
Proof.
  intros (N & C & L). destruct s as [l|p|a b c|cs].
  - cbn [layer] in L. subst l. exists (Null n), (Null n), (Null n). split; [reflexivity|].
    destruct N as [W _]. cbn [wf] in W. assert (sing n (Null n)).
    { split; [split; [cbn [wf]; lia|discriminate]|]. split; reflexivity. }
    split; auto. split; auto. split; auto. split; [|lia]. cbn [wordof]. rewrite repeat3. reflexivity.
  - discriminate.
  - exists a, b, c. split; [reflexivity|]. destruct N as [W _]. pose proof (nf_kids _ W) as K. cbn [kids] in K.
    rewrite !Forall_cons_iff in K. destruct K as (Ka & Kb & Kc & _). apply wf_mul_inv in W. destruct W as (Wa & Wb & Wc & _ & _ & _ & Lb & Lc & M & _).
    cbn [cardinal] in C. pose proof (cardinal_pos _ Wa). pose proof (cardinal_pos _ Wb). pose proof (cardinal_pos _ Wc).
    assert (cardinal a = 1 /\ cardinal b = 1 /\ cardinal c = 1)%N as (Ca & Cb & Cc) by nia.
    cbn [layer] in L. injection L as L. repeat split; auto; try congruence; try lia; try apply Ka; try apply Kb; try apply Kc.
  - apply nf_singular_notadd in N; auto. discriminate.
Qed.
Lemma eqb_dedup l : ForallOrdPairs (fun x y => script_eqb x y = false) (dedup script_eqb l).
Proof. apply dedup_distinct. intros x y. unfold script_eqb. apply String.eqb_sym. Qed.
Lemma eqb_refl x : script_eqb x x = true.
Proof. apply String.eqb_refl. Qed.

(** The elements of a set, in any order *)
Lemma set_words n l l' : Forall (sing n) l -> Permutation l' (dedup script_eqb l) ->
  Forall (sing n) l' /\ NoDup (map wordof l') /\ (forall w, In w (map wordof l') <-> In w (map wordof l)) /\ incl l' l.
Proof.
  intros F P. assert (I : incl l' l) by (intros x Hx; apply (dedup_in script_eqb), (Permutation_in _ P), Hx).
  assert (F' : Forall (sing n) l') by (rewrite Forall_forall in *; auto). split; auto. split; [|split; auto].
  - eapply Permutation_NoDup; [apply Permutation_map, Permutation_sym, P|].
    assert (Fd : Forall (sing n) (dedup script_eqb l)) by (eapply Permutation_Forall; eauto).
    pose proof (eqb_dedup l) as D. clear P I F F' l'. induction D as [|x d Hx D IH]; cbn [map]; [constructor|].
    apply Forall_cons_iff in Fd. destruct Fd as [Fx Fd]. constructor; auto. intros Y. apply in_map_iff in Y. destruct Y as (y & E & Hy).
    rewrite Forall_forall in Hx, Fd. specialize (Hx y Hy). assert (script_eqb x y = true) by (apply (sing_word n); auto). congruence.
  - intros w. split; intros H.
    + apply in_map_iff in H. destruct H as (x & <- & H). apply in_map. auto.
    + apply in_map_iff in H. destruct H as (x & <- & H). destruct (dedup_complete script_eqb eqb_refl l x H) as (y & Hy & E).
      assert (Iy : In y l') by (apply (Permutation_in y (Permutation_sym P)); auto). rewrite Forall_forall in F.
      apply (sing_word n) in E; auto. rewrite E. apply in_map. auto.
Qed.

Section Sets.
  Variable so : list script -> list script.
  Hypothesis SO : set_order so.

  Lemma axis_words n l : Forall (sing n) l ->
    Forall (sing n) (axis so l) /\ NoDup (map wordof (axis so l)) /\ (forall w, In w (map wordof (axis so l)) <-> In w (map wordof l)) /\ incl (axis so l) l.
  Proof. intros F. apply set_words; auto. unfold axis. eapply perm_trans; [apply isort_perm|apply SO]. Qed.

  Lemma index_in_ok n l s : Forall (sing n) l -> sing n s -> In (wordof s) (map wordof l) ->
    exists i x, index_in s l = Ok i /\ nth_error l i = Some x /\ wordof x = wordof s.
  Proof.
    induction 1 as [|x l Sx F IH]; intros Ss H; [easy|]. cbn [index_in]. destruct (script_eqb x s) eqn:E.
    - exists 0, x. repeat split. apply (sing_word n); auto.
    - cbn [map] in H. destruct H as [H|H]; [apply (sing_word n) in H; auto; congruence|]. destruct (IH Ss H) as (i & y & -> & N & W). exists (S i), y. auto.
  Qed.

  Lemma put_in {A} k (v : A) d e : In e (put k v d) -> e = (k, v) \/ In e d.
  Proof.
    induction d as [|[k' v'] d IH]; cbn [put]; [intros [H|[]]; auto|]. destruct (coord_eqb k k') eqn:E.
    - apply coord_eqb_eq in E. subst. intros [H|H]; simpl; auto.
    - intros [H|H]; simpl; auto. destruct (IH H); auto.
  Qed.
  Lemma put_keys {A} k (v : A) d : (In k (map fst d) /\ map fst (put k v d) = map fst d) \/ (~ In k (map fst d) /\ map fst (put k v d) = (map fst d ++ [k])%list).
  Proof.
    induction d as [|[k' v'] d IH]; cbn [put map fst]; [right; simpl; auto|]. destruct (coord_eqb k k') eqn:E; cbn [map fst].
    - apply coord_eqb_eq in E. subst. left. simpl. auto.
    - assert (k <> k') by (intros ->; rewrite (proj2 (coord_eqb_eq k' k') eq_refl) in E; discriminate).
      destruct IH as [[I ->]|[I ->]]; [left; simpl; auto|right]. split; auto. intros [Y|Y]; auto.
  Qed.
  Lemma places_ok l : NoDup (map fst (places l)) /\ incl (places l) l /\ (forall k, In k (map fst l) <-> In k (map fst (places l))).
  Proof.
    unfold places. assert (X : forall d, NoDup (map fst d) -> let r := fold_left (fun d e => put (fst e) (snd e) d) l d in
      NoDup (map fst r) /\ incl r (d ++ l) /\ (forall k, In k (map fst r) <-> In k (map fst d) \/ In k (map fst l))).
    { induction l as [|[k v] l IH]; intros d N; cbn [fold_left]; cbv zeta.
      - split; auto. split; [intros x Hx; rewrite app_nil_r; auto|]. simpl. tauto.
      - cbn [fst snd]. assert (N' : NoDup (map fst (put k v d))).
        { destruct (put_keys k v d) as [[_ ->]|[I ->]]; auto. apply NoDup_app_iff. split; auto. split; [repeat constructor; simpl; auto|].
          intros x Hx [<-|[]]. auto. }
        destruct (IH _ N') as (N1 & I1 & K1). split; auto. split.
        + intros e He. apply I1 in He. apply in_app_iff in He. apply in_app_iff. destruct He as [He|He]; [|simpl; auto]. apply put_in in He. destruct He as [->|He]; simpl; auto.
        + intros x. rewrite K1. cbn [map fst]. destruct (put_keys k v d) as [[I ->]|[I ->]]; [|rewrite in_app_iff]; simpl; intuition (subst; auto). }
    destruct (X [] (NoDup_nil _)) as (N & I & K). split; auto. split; auto. intros k. rewrite K. simpl. tauto.
  Qed.

  Lemma NoDup_words_filter n l (f : script -> bool) : Forall (sing n) l -> NoDup (map wordof (filter f (dedup script_eqb l))).
  Proof.
    intros F. destruct (set_words n l (dedup script_eqb l) F (Permutation_refl _)) as (_ & N & _). revert N. clear.
    induction (dedup script_eqb l) as [|x d IH]; cbn [filter map]; auto. intros N. apply NoDup_cons_iff in N. destruct N as [N1 N].
    destruct (f x); cbn [map]; auto. constructor; auto. intros H. apply N1. apply in_map_iff in H. destruct H as (y & <- & H). apply filter_In in H. apply in_map. tauto.
  Qed.

  Lemma app3_inj {A} n (a b c a' b' c' : list A) : List.length a = n -> List.length b = n -> List.length a' = n -> List.length b' = n ->
    (a ++ b ++ c = a' ++ b' ++ c')%list -> a = a' /\ b = b' /\ c = c'.
  Proof.
    intros La Lb La' Lb' E. apply app_length_inj in E; [|congruence]. destruct E as [-> E]. apply app_length_inj in E; [|congruence]. destruct E as [-> ->]. auto.
  Qed.

  (** One step: the places of the sequences *)
  Record placed (n : nat) (seqs : list script) (p0 p1 p2 : list script) (cs : list coord) : Prop := {
    pl_low : n < MAX_LAYER;
    pl0 : Forall (sing n) p0; pl1 : Forall (sing n) p1; pl2 : Forall (sing n) p2;
    pn0 : NoDup (map wordof p0); pn1 : NoDup (map wordof p1); pn2 : NoDup (map wordof p2);
    pl_len : List.length cs = List.length seqs;
    pl_at : forall k s, In (k, s) (combine cs seqs) -> c0 k < List.length p0 /\ c1 k < List.length p1 /\ c2 k < List.length p2 /\
      wordof s = (wordof (nth (c0 k) p0 (Null 0)) ++ wordof (nth (c1 k) p1 (Null 0)) ++ wordof (nth (c2 k) p2 (Null 0)))%list
  }.

  Lemma nth_error_nth' {A} (l : list A) i x d : nth_error l i = Some x -> i < List.length l /\ nth i l d = x.
  Proof. intros H. split; [apply nth_error_Some; congruence|]. now apply nth_error_nth. Qed.

  Lemma step_places n seqs : Forall (sing (S n)) seqs -> seqs <> [] -> exists parts, mapM children3 seqs = Ok parts /\
    (forall t, In t parts -> sing n (part0 t) /\ sing n (part1 t) /\ sing n (part2 t)) /\
    let axes := (axis so (map part0 parts), axis so (map part1 parts), axis so (map part2 parts)) in
    exists cs, mapM (place axes) parts = Ok cs /\ placed n seqs (axis so (map part0 parts)) (axis so (map part1 parts)) (axis so (map part2 parts)) cs.
  Proof.
    intros F NE.
    assert (X : exists parts, mapM children3 seqs = Ok parts /\ Forall2 (fun s t => sing n (part0 t) /\ sing n (part1 t) /\ sing n (part2 t) /\
      wordof s = (wordof (part0 t) ++ wordof (part1 t) ++ wordof (part2 t))%list) seqs parts).
    { clear NE. induction F as [|s l Ss F IH]; [exists []; auto|]. destruct IH as (parts & E & F2). destruct (children3_sing _ _ Ss) as (a & b & c & Ec & Sa & Sb & Sc & W & _).
      exists ((a, b, c) :: parts). cbn [mapM]. rewrite Ec, E. split; [reflexivity|]. constructor; auto. }
    destruct X as (parts & E & F2). exists parts. split; auto.
    assert (Fp : forall t, In t parts -> sing n (part0 t) /\ sing n (part1 t) /\ sing n (part2 t)).
    { clear -F2. induction F2 as [|s t l l' H F2 IH]; intros u Hu; [easy|]. destruct Hu as [<-|Hu]; [tauto|auto]. }
    split; auto.
    destruct (axis_words n (map part0 parts)) as (A1 & A2 & A3 & _); [apply Forall_map, Forall_forall; intros t Ht; apply (Fp t Ht)|].
    destruct (axis_words n (map part1 parts)) as (B1 & B2 & B3 & _); [apply Forall_map, Forall_forall; intros t Ht; apply (Fp t Ht)|].
    destruct (axis_words n (map part2 parts)) as (C1 & C2 & C3 & _); [apply Forall_map, Forall_forall; intros t Ht; apply (Fp t Ht)|].
    set (p0 := axis so (map part0 parts)) in *. set (p1 := axis so (map part1 parts)) in *. set (p2 := axis so (map part2 parts)) in *. cbv zeta.
    assert (Y : exists cs, mapM (place (p0, p1, p2)) parts = Ok cs /\ Forall2 (fun t k => c0 k < List.length p0 /\ c1 k < List.length p1 /\ c2 k < List.length p2 /\
      wordof (nth (c0 k) p0 (Null 0)) = wordof (part0 t) /\ wordof (nth (c1 k) p1 (Null 0)) = wordof (part1 t) /\ wordof (nth (c2 k) p2 (Null 0)) = wordof (part2 t)) parts cs).
    { assert (I : forall t, In t parts -> In (wordof (part0 t)) (map wordof p0) /\ In (wordof (part1 t)) (map wordof p1) /\ In (wordof (part2 t)) (map wordof p2)).
      { intros t Ht. rewrite A3, B3, C3. repeat split; apply in_map, in_map; auto. }
      clear A3 B3 C3 F2 E. clearbody p0 p1 p2. induction parts as [|t parts IH]; [exists []; auto|]. destruct IH as (cs & Ecs & F3).
      { intros u Hu. apply Fp. simpl. auto. } { intros u Hu. apply I. simpl. auto. }
      destruct (Fp t (or_introl eq_refl)) as (S0 & S1 & S2). destruct (I t (or_introl eq_refl)) as (I0 & I1 & I2).
      destruct (index_in_ok n p0 (part0 t)) as (x & ? & Ex & Nx & Wx); auto. destruct (index_in_ok n p1 (part1 t)) as (y & ? & Ey & Ny & Wy); auto.
      destruct (index_in_ok n p2 (part2 t)) as (z & ? & Ez & Nz & Wz); auto. exists ((x, y, z) :: cs).
      apply (nth_error_nth' _ _ _ (Null 0)) in Nx, Ny, Nz. split.
      - cbn [mapM]. unfold place at 1. rewrite Ex, Ey, Ez. cbn [bind]. rewrite Ecs. reflexivity.
      - constructor; auto. cbn [c0 c1 c2]. destruct Nx as [? ->], Ny as [? ->], Nz as [? ->]. auto 10. }
    destruct Y as (cs & Ecs & F3). exists cs. split; auto.
    assert (Lp : List.length parts = List.length seqs) by (symmetry; apply (F2_length _ _ _ F2)).
    split; auto.
    - destruct seqs as [|s seqs]; [easy|]. apply Forall_cons_iff in F. destruct (children3_sing _ _ (proj1 F)) as (a & b & c & ? & ? & ? & ? & ? & ?). auto.
    - rewrite <- Lp. symmetry. apply (F2_length _ _ _ F3).
    - clearbody p0 p1 p2. clear -F2 F3. revert cs F3. induction F2 as [|s t l l' H F2 IH]; intros cs F3 k u Hk; inversion F3 as [|? k0 ? cs0 H1 F4]; subst; [easy|].
      cbn [combine] in Hk. destruct Hk as [Hk|Hk]; [|exact (IH _ F4 _ _ Hk)]. injection Hk as <- <-. destruct H as (_ & _ & _ & ->). destruct H1 as (? & ? & ? & -> & -> & ->). auto.
  Qed.

  Definition at_place (p0 p1 p2 : list script) (k : coord) : word :=
    (wordof (nth (c0 k) p0 (Null 0)) ++ wordof (nth (c1 k) p1 (Null 0)) ++ wordof (nth (c2 k) p2 (Null 0)))%list.
  Definition inside (p0 p1 p2 : list script) (k : coord) : Prop := c0 k < List.length p0 /\ c1 k < List.length p1 /\ c2 k < List.length p2.

  Lemma nth_inj n p i j : Forall (sing n) p -> NoDup (map wordof p) -> i < List.length p -> j < List.length p ->
    wordof (nth i p (Null 0)) = wordof (nth j p (Null 0)) -> i = j.
  Proof.
    intros F N Hi Hj E. rewrite NoDup_nth with (d := wordof (Null 0)) in N. rewrite map_length in N. apply N; auto. now rewrite !map_nth.
  Qed.
  Lemma nth_sing n p i : Forall (sing n) p -> i < List.length p -> sing n (nth i p (Null 0)).
  Proof. intros F H. rewrite Forall_forall in F. apply F, nth_In, H. Qed.

  Section Step.
    Variables (n : nat) (seqs p0 p1 p2 : list script) (cs : list coord).
    Hypothesis F : Forall (sing (S n)) seqs.
    Hypothesis P : placed n seqs p0 p1 p2 cs.
    Let scripts := places (combine cs seqs).
    Let keys := map fst scripts.

    Lemma at_place_inj k k' : inside p0 p1 p2 k -> inside p0 p1 p2 k' -> at_place p0 p1 p2 k = at_place p0 p1 p2 k' -> k = k'.
    Proof.
      intros (H0 & H1 & H2) (H0' & H1' & H2') E. destruct P as [_ pl3 pl4 pl5 pn3 pn4 pn5 _ _]. unfold at_place in E.
      apply (app3_inj (3 ^ n)) in E; try (apply sing_length, nth_sing; auto). destruct E as (E0 & E1 & E2).
      rewrite (coord_eta k), (coord_eta k'). rewrite (nth_inj n p0 _ _ pl3 pn3 H0 H0' E0), (nth_inj n p1 _ _ pl4 pn4 H1 H1' E1), (nth_inj n p2 _ _ pl5 pn5 H2 H2' E2). reflexivity.
    Qed.
    Lemma keys_nodup : NoDup keys.
    Proof. apply places_ok. Qed.
    Lemma keys_inside k : In k keys -> inside p0 p1 p2 k /\ exists s, In s seqs /\ wordof s = at_place p0 p1 p2 k.
    Proof.
      unfold keys, scripts. rewrite <- (proj2 (proj2 (places_ok (combine cs seqs)))). intros H. apply in_map_iff in H. destruct H as ([k' s] & <- & H). cbn [fst].
      destruct P. destruct (pl_at0 _ _ H) as (? & ? & ? & E). split; [unfold inside; auto|]. exists s. split; auto. eapply in_combine_r; eauto.
    Qed.
    Lemma seqs_keys s : In s seqs -> exists k, In k keys /\ wordof s = at_place p0 p1 p2 k.
    Proof.
      intros H. destruct (In_nth_error _ _ H) as (i & Hi). assert (Li : i < List.length cs) by (rewrite (pl_len _ _ _ _ _ _ P); apply nth_error_Some; congruence).
      destruct (nth_error cs i) as [k|] eqn:Hk; [|apply nth_error_None in Hk; lia].
      assert (I : In (k, s) (combine cs seqs)).
      { clear -Hi Hk. revert cs seqs Hi Hk. induction i as [|i IH]; intros [|c cs] [|x l] Hi Hk; try discriminate; cbn [combine].
        - injection Hi as ->. injection Hk as ->. simpl. auto.
        - right. eapply IH; eauto. }
      exists k. split; [|apply (pl_at _ _ _ _ _ _ P _ _ I)]. unfold keys, scripts. rewrite <- (proj2 (proj2 (places_ok (combine cs seqs)))).
      apply in_map_iff. exists (k, s). auto.
    Qed.
    Lemma words_keys w : In w (map wordof seqs) <-> exists k, In k keys /\ w = at_place p0 p1 p2 k.
    Proof.
      split.
      - intros H. apply in_map_iff in H. destruct H as (s & <- & H). apply seqs_keys. auto.
      - intros (k & H & ->). destruct (keys_inside k H) as (_ & s & Hs & <-). apply in_map. auto.
    Qed.

    Variable facto : list coord.
    Hypothesis Ifk : incl facto keys.
    Lemma done_ok : exists done, mapM (fun f => get f scripts) facto = Ok done /\ Forall (sing (S n)) done /\
      forall w, In w (map wordof done) <-> exists f, In f facto /\ w = at_place p0 p1 p2 f.
    Proof.
      induction facto as [|f l IH]; [exists []; split; [reflexivity|split; [constructor|]]; intros w; split; [intros []|intros (f & [] & _)]|].
      destruct IH as (done & E & Fd & W); [intros x Hx; apply Ifk; simpl; auto|].
      destruct (get_key f scripts) as (s & G); [apply Ifk; simpl; auto|]. exists (s :: done). cbn [mapM]. rewrite G, E. split; [reflexivity|].
      apply get_in in G. apply (proj1 (proj2 (places_ok _))) in G. pose proof (pl_at _ _ _ _ _ _ P _ _ G) as (_ & _ & _ & Ws).
      apply in_combine_r in G. rewrite Forall_forall in F. split; [constructor; auto|]. intros w. cbn [map In]. rewrite W. split.
      - intros [<-|(g & Hg & ->)]; [exists f; split; auto|exists g; auto].
      - intros (g & [<-|Hg] & ->); [left; auto|right; exists g; auto].
    Qed.
    Lemma remaining_ok done : Forall (sing (S n)) done -> (forall w, In w (map wordof done) <-> exists f, In f facto /\ w = at_place p0 p1 p2 f) -> facto <> [] ->
      let r := isort (so (filter (fun s => negb (memb script_eqb s done)) (dedup script_eqb seqs))) in
      Forall (sing (S n)) r /\ NoDup (map wordof r) /\ List.length r < List.length seqs /\
      (forall w, In w (map wordof r) <-> In w (map wordof seqs) /\ ~ exists f, In f facto /\ w = at_place p0 p1 p2 f).
    Proof.
      intros Fd Wd Nf r. set (fl := filter (fun s => negb (memb script_eqb s done)) (dedup script_eqb seqs)) in *.
      assert (Pm : Permutation r fl) by (eapply perm_trans; [apply isort_perm|apply SO]).
      assert (Ifl : forall x, In x fl -> In x seqs) by (intros x Hx; unfold fl in Hx; rewrite filter_In in Hx; apply (dedup_in script_eqb); tauto).
      assert (Fr : Forall (sing (S n)) r). { rewrite Forall_forall in *. intros x Hx. apply F, Ifl, (Permutation_in _ Pm), Hx. }
      assert (M : forall x, In x seqs -> (memb script_eqb x done = true <-> exists f, In f facto /\ wordof x = at_place p0 p1 p2 f)).
      { intros x Hx. rewrite memb_true, <- Wd. rewrite Forall_forall in F, Fd. split.
        - intros (y & Hy & E). apply (sing_word (S n)) in E; auto. rewrite E. apply in_map. auto.
        - intros H. apply in_map_iff in H. destruct H as (y & E & Hy). exists y. split; auto. apply (sing_word (S n)); auto. }
      assert (Wr : forall w, In w (map wordof r) <-> In w (map wordof seqs) /\ ~ exists f, In f facto /\ w = at_place p0 p1 p2 f).
      { intros w. split.
        - intros H. apply in_map_iff in H. destruct H as (x & <- & H). apply (Permutation_in _ Pm) in H. pose proof (Ifl x H) as Hx. split; [apply in_map; auto|].
          rewrite <- M by auto. unfold fl in H. rewrite filter_In in H. destruct H as [_ H]. destruct (memb script_eqb x done); [discriminate|auto].
        - intros [H N]. apply in_map_iff in H. destruct H as (x & <- & H). destruct (dedup_complete script_eqb eqb_refl seqs x H) as (y & Hy & E).
          pose proof (dedup_in script_eqb _ _ Hy) as Iy. pose proof F as F'. rewrite Forall_forall in F'. apply (sing_word (S n)) in E; auto. rewrite E in *. apply in_map.
          apply (Permutation_in _ (Permutation_sym Pm)). unfold fl. apply filter_In. split; auto. destruct (memb script_eqb y done) eqn:B; auto.
          apply M in B; [|auto]. now elim N. }
      assert (Nr : NoDup (map wordof r)).
      { eapply Permutation_NoDup; [apply Permutation_map, Permutation_sym, Pm|]. eapply NoDup_words_filter; eauto. }
      split; auto. split; auto. split; auto. destruct facto as [|f l] eqn:Ef; [easy|]. destruct (keys_inside f) as (_ & s & Hs & Ws); [apply Ifk; simpl; auto|].
      rewrite <- (map_length wordof r), <- (map_length wordof seqs).
      apply Nat.lt_le_trans with (List.length (wordof s :: map wordof r)); [simpl; lia|]. apply NoDup_incl_length.
      - constructor; auto. rewrite Wr. intros [_ N]. apply N. exists f. simpl. auto.
      - intros w [<-|H]; [apply in_map; auto|]. apply Wr in H. tauto.
    Qed.

    Lemma side_ok (c : coord -> nat) (p : list script) : Forall (sing n) p -> (forall f, In f facto -> c f < List.length p) -> facto <> [] ->
      let r := side so c p facto in
      Forall (sing n) r /\ NoDup (map wordof r) /\ r <> [] /\ (forall w, In w (map wordof r) <-> exists f, In f facto /\ w = wordof (nth (c f) p (Null 0))).
    Proof.
      intros Fp Hc Nf r. set (l := map (fun f => nth (c f) p (Null 0)) facto) in *.
      assert (Fl : Forall (sing n) l) by (apply Forall_map, Forall_forall; intros f Hf; apply nth_sing; auto).
      destruct (set_words n l r Fl) as (F1 & N1 & W1 & _); [apply SO|]. split; auto. split; auto.
      assert (W : forall w, In w (map wordof r) <-> exists f, In f facto /\ w = wordof (nth (c f) p (Null 0))).
      { intros w. rewrite W1. unfold l. rewrite map_map, in_map_iff. split; intros (f & H1 & H2); exists f; auto. }
      split; auto. destruct facto as [|f fs] eqn:E; [easy|]. intros Er. rewrite Er in W. apply (proj2 (W (wordof (nth (c f) p (Null 0))))). exists f. simpl. auto.
    Qed.

    Hypothesis Bx : box facto.
    Lemma product_box l0 l1 l2 : (forall w, In w l0 <-> exists f, In f facto /\ w = wordof (nth (c0 f) p0 (Null 0))) ->
      (forall w, In w l1 <-> exists f, In f facto /\ w = wordof (nth (c1 f) p1 (Null 0))) ->
      (forall w, In w l2 <-> exists f, In f facto /\ w = wordof (nth (c2 f) p2 (Null 0))) ->
      NoDup l0 -> NoDup l1 -> NoDup l2 -> l0 <> [] -> l1 <> [] -> l2 <> [] ->
      NoDup (map cat3 (product3 l0 l1 l2)) /\ forall w, In w (map cat3 (product3 l0 l1 l2)) <-> exists f, In f facto /\ w = at_place p0 p1 p2 f.
    Proof.
      intros W0 W1 W2 N0 N1 N2 E0 E1 E2.
      assert (L : forall u, In u l0 \/ In u l1 \/ In u l2 -> List.length u = 3 ^ n).
      { intros u. rewrite W0, W1, W2. destruct P. intros [(f & H & ->)|[(f & H & ->)|(f & H & ->)]]; destruct (keys_inside f (Ifk f H)) as ((? & ? & ?) & _); apply sing_length, nth_sing; auto. }
      split.
      - apply NoDup_map_inj; [|apply NoDup_product3; auto]. intros [[u v] t] [[u' v'] t'] H H' E. apply in_product3 in H, H'. cbn [cat3] in E.
        apply (app3_inj (3 ^ n)) in E; try (apply L; tauto). destruct E as (-> & -> & ->). reflexivity.
      - intros w. rewrite in_map_iff. split.
        + intros ([[u v] t] & <- & H). apply in_product3 in H. rewrite W0, W1, W2 in H. destruct H as ((f & Hf & ->) & (g & Hg & ->) & (h & Hh & ->)).
          exists (c0 f, c1 g, c2 h). split; [apply Bx; auto|reflexivity].
        + intros (f & Hf & ->). exists (wordof (nth (c0 f) p0 (Null 0)), wordof (nth (c1 f) p1 (Null 0)), wordof (nth (c2 f) p2 (Null 0))). split; [reflexivity|].
          apply in_product3. rewrite W0, W1, W2. repeat split; exists f; auto.
    Qed.
  End Step.
End Sets.
