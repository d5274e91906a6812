(** Proofs about the loading of a dictionary. *)
From Coq Require Import List String Ascii Bool NArith Arith Lia Permutation Sorted.
From Verif Require Import Base Script ScriptParser SortProofs ScriptWf ScriptStrProofs ScriptOrderProofs ScriptSpec ScriptCtorProofs ScriptParseProofs ScriptSeqProofs ScriptMoreProofs ScriptAlgProofs ScriptEqProofs UslParserProofs Tables TablesSpec TablesProofs TablesGridProofs TablesAllProofs Dictionary DictionarySpec DictTableProofs.
Import ListNotations.

(** * Python dictionaries *)
Section Keys.
  Context {A : Type}.
  Implicit Types (d : list (string * A)) (k : string).
  Lemma set_key_in k v d e : In e (set_key k v d) -> e = (k, v) \/ In e d.
  Proof.
    induction d as [|[k' v'] d IH]; cbn [set_key]; [intros [<-|[]]; auto|]. destruct (String.eqb_spec k k') as [<-|N]; intros [<-|H]; simpl; auto. destruct (IH H); auto.
  Qed.
  Lemma set_key_fst k v d x : In x (map fst (set_key k v d)) <-> x = k \/ In x (map fst d).
  Proof.
    induction d as [|[k' v'] d IH]; cbn [set_key map fst In]; [intuition|]. destruct (String.eqb_spec k k') as [<-|N]; cbn [map fst In]; [intuition|]. rewrite IH. intuition.
  Qed.
  Lemma set_key_nodup k v d : NoDup (map fst d) -> NoDup (map fst (set_key k v d)).
  Proof.
    induction d as [|[k' v'] d IH]; cbn [set_key map fst]; intros N; [repeat constructor; intros []|]. apply NoDup_cons_iff in N as [Nk N]. destruct (String.eqb_spec k k') as [<-|D]; cbn [map fst]; constructor; auto.
    rewrite set_key_fst. intros [->|H]; auto.
  Qed.
  Lemma get_key_in k v d : get_key k d = Some v -> In (k, v) d.
  Proof. unfold get_key. destruct (find _ d) as [[k' v']|] eqn:E; [|discriminate]. intros H. injection H as <-. apply find_some in E as [H E]. cbn [fst] in E. apply String.eqb_eq in E. now subst k'. Qed.
  Lemma get_key_none k d : get_key k d = None <-> ~ In k (map fst d).
  Proof.
    unfold get_key. destruct (find _ d) as [[k' v']|] eqn:E.
    - apply find_some in E as [H E]. cbn [fst] in E. apply String.eqb_eq in E. subst k'. split; [discriminate|]. intros X. exfalso. apply X. change k with (fst (k, v')). now apply in_map.
    - split; [|reflexivity]. intros _ H. apply in_map_iff in H as ([k' v'] & Ek & H). cbn [fst] in Ek. subst k'. apply (find_none _ _ E) in H. cbn [fst] in H. rewrite String.eqb_refl in H. discriminate.
  Qed.
  Lemma get_set k v d k' : get_key k' (set_key k v d) = if String.eqb k k' then Some v else get_key k' d.
  Proof.
    unfold get_key. induction d as [|[k0 v0] d IH]; cbn [set_key].
    - cbn [find fst]. destruct (String.eqb k k'); reflexivity.
    - destruct (String.eqb_spec k k0) as [<-|N]; cbn [find fst].
      + destruct (String.eqb k k'); reflexivity.
      + destruct (String.eqb_spec k0 k') as [<-|N'].
        * destruct (String.eqb_spec k k0); [contradiction|]. reflexivity.
        * exact IH.
  Qed.
  Lemma get_del k d k' : k' <> k -> get_key k' (del_key k d) = get_key k' d.
  Proof.
    intros N. unfold get_key, del_key. induction d as [|[k0 v0] d IH]; cbn [filter find fst]; [reflexivity|].
    destruct (String.eqb_spec k0 k) as [->|N0]; cbn [negb find fst].
    - rewrite IH. destruct (String.eqb_spec k k'); [congruence|reflexivity].
    - destruct (String.eqb k0 k'); [reflexivity|exact IH].
  Qed.
  Lemma del_key_in k d e : In e (del_key k d) <-> In e d /\ fst e <> k.
  Proof. unfold del_key. rewrite filter_In. split; intros [H E]; (split; [exact H|]). - intros X. rewrite X, String.eqb_refl in E. discriminate. - destruct (String.eqb_spec (fst e) k); [contradiction|reflexivity]. Qed.
End Keys.
Lemma nodup_inj {A B} (f : A -> B) l x y : NoDup (map f l) -> In x l -> In y l -> f x = f y -> x = y.
Proof.
  induction l as [|a l IH]; intros N Hx Hy E; [destruct Hx|]. cbn [map] in N. apply NoDup_cons_iff in N as [Na N]. destruct Hx as [<-|Hx], Hy as [<-|Hy]; auto.
  - exfalso. apply Na. rewrite E. now apply in_map.
  - exfalso. apply Na. rewrite <- E. now apply in_map.
Qed.
Lemma FOP_filter {A} (R : A -> A -> Prop) p l : ForallOrdPairs R l -> ForallOrdPairs R (filter p l).
Proof. induction 1 as [|x l F H IH]; simpl; [constructor|]. destruct (p x); [|exact IH]. constructor; [|exact IH]. rewrite Forall_forall in *. intros y Hy. apply filter_In in Hy. apply F, Hy. Qed.

Lemma nodup_right {A} (l l' : list A) : NoDup (l ++ l') -> NoDup l'.
Proof. induction l as [|x l IH]; cbn [app]; [auto|]. intros N. apply NoDup_cons_iff in N as [_ N]. auto. Qed.

(** * The singular sequences of scripts with the same text *)
Lemma same_ss a b la lb : wf a -> wf b -> str a = str b -> ss a = Ok la -> ss b = Ok lb -> forall x, In x la -> exists y, In y lb /\ str y = str x.
Proof.
  intros Wa Wb E Ea Eb x Hx. pose proof (ss_sing a la x Wa Ea Hx) as Sx. pose proof Sx as (Wx & Cx & Lx).
  assert (Hw : means x (wordof x)) by (apply words_means; rewrite (words_single x Wx Cx); simpl; auto).
  pose proof (ss_word a la x _ Wa Ea Hx Hw) as Ha. destruct (same_text a b Wa Wb E) as [L M]. destruct (ss_find b lb _ Wb Eb (M _ Ha)) as (y & Hy & Yw & Sy).
  exists y. split; [exact Hy|]. apply (sing1_text (layer b)); auto; [split; [exact Wx|split; [exact Cx|congruence]]|]. destruct Sy as (Wy & Cy & _). apply wordof_means in Yw; auto.
Qed.
Lemma pow3_inj n m : 3 ^ n = 3 ^ m -> n = m.
Proof. intros E. destruct (Nat.lt_trichotomy n m) as [H|[H|H]]; [|exact H|]; apply (Nat.pow_lt_mono_r 3) in H; lia. Qed.
Lemma share_layer a b w : wf a -> wf b -> means a w -> means b w -> layer a = layer b.
Proof. intros Wa Wb Ha Hb. apply means_length in Ha; auto. apply means_length in Hb; auto. apply pow3_inj. congruence. Qed.
Lemma share_text a b la lb w : wf a -> wf b -> ss a = Ok la -> ss b = Ok lb -> means a w -> means b w -> exists x y, In x la /\ In y lb /\ str x = str y /\ means x w.
Proof.
  intros Wa Wb Ea Eb Ha Hb. destruct (ss_find a la w Wa Ea Ha) as (x & Hx & Xw & Sx). destruct (ss_find b lb w Wb Eb Hb) as (y & Hy & Yw & Sy). exists x, y. split; [exact Hx|]. split; [exact Hy|]. split; [|exact Xw].
  rewrite <- (share_layer a b w Wa Wb Ha Hb) in Sy. apply (sing1_text (layer a)); auto. destruct Sx as (Wx & Cx & _), Sy as (Wy & Cy & _). apply wordof_means in Xw; auto. apply wordof_means in Yw; auto. congruence.
Qed.

(** * The disjointness of the roots *)
Lemma cover_spec roots : Forall wf roots -> forall acc c, cover acc roots = Ok c ->
  ForallOrdPairs disjoint roots /\ Forall (fun r => forall x l, ss r = Ok l -> In x l -> memb script_eqb x acc = false) roots /\
  (forall x, In x c <-> In x acc \/ exists r l, In r roots /\ ss r = Ok l /\ In x l).
Proof.
  induction roots as [|r roots IH]; intros W acc c E; cbn [cover] in E.
  - apply Ok_inj in E. subst c. split; [constructor|]. split; [constructor|]. intros x. split; [auto|]. intros [H|(r & l & [] & _)]; exact H.
  - apply Forall_cons_iff in W as [Wr W]. destruct (ss r) as [l|] eqn:El; cbn [bind] in E; [|discriminate]. destruct (existsb _ l) eqn:Ex; [discriminate|].
    assert (No : forall x, In x l -> memb script_eqb x acc = false) by (intros x Hx; destruct (memb script_eqb x acc) eqn:M; [|reflexivity]; assert (existsb (fun x => memb script_eqb x acc) l = true) by (apply existsb_exists; eauto); congruence).
    destruct (IH W _ _ E) as (D & F & M). rewrite Forall_forall in F, W. split; [|split].
    + constructor; [|exact D]. apply Forall_forall. intros r' Hr' w Hw Hw'. destruct (ss_total r' (W r' Hr')) as (l' & El' & _).
      destruct (share_text r r' l l' w Wr (W r' Hr') El El' Hw Hw') as (x & y & Hx & Hy & Exy & _). specialize (F r' Hr' y l' El' Hy).
      assert (X : memb script_eqb y (acc ++ l) = true) by (apply memb_text; exists x; split; [apply in_or_app; auto|exact Exy]). congruence.
    + constructor; [intros x l' El' Hx; rewrite El in El'; apply Ok_inj in El'; subst l'; auto|]. apply Forall_forall. intros r' Hr' x l' El' Hx. specialize (F r' Hr' x l' El' Hx).
      destruct (memb script_eqb x acc) eqn:X; [|reflexivity]. apply memb_text in X as (y & Hy & Ey). assert (memb script_eqb x (acc ++ l) = true) by (apply memb_text; exists y; split; [apply in_or_app; auto|exact Ey]). congruence.
    + intros x. rewrite M, in_app_iff. split.
      * intros [[H|H]|(r' & l' & Hr' & El' & H)]; [auto|right; exists r, l; simpl; auto|right; exists r', l'; simpl; auto].
      * intros [H|(r' & l' & [<-|Hr'] & El' & H)]; [auto| |right; eauto]. rewrite El in El'. apply Ok_inj in El'. subst l'. auto.
Qed.
Lemma disjoint_texts roots : Forall wf roots -> ForallOrdPairs disjoint roots -> NoDup (map str roots).
Proof.
  intros W D. induction D as [|r roots F D IH]; [constructor|]. apply Forall_cons_iff in W as [Wr W]. cbn [map]. constructor; [|auto]. intros H. apply in_map_iff in H as (r' & Er & Hr).
  rewrite Forall_forall in F, W. pose proof (words_nonempty r Wr) as Ne. destruct (words r) as [|w ws] eqn:Ew; [congruence|]. assert (Hw : means r w) by (apply words_means; rewrite Ew; simpl; auto).
  apply (F r' Hr w Hw). apply (same_text r r' Wr (W r' Hr) (eq_sym Er)). exact Hw.
Qed.
Lemma disjoint_one roots r r' w : ForallOrdPairs disjoint roots -> In r roots -> In r' roots -> means r w -> means r' w -> r = r'.
Proof.
  intros D. induction D as [|a roots F D IH]; intros H H' Hw Hw'; [destruct H|]. rewrite Forall_forall in F. destruct H as [<-|H], H' as [<-|H']; auto; exfalso; [eapply (F r' H'); eauto|eapply (F r H); eauto].
Qed.

(** * The scripts outside the roots *)
Definition is_outside (covered : list script) (s : script) : bool :=
  match ss s with Ok l => negb (forallb (fun x => memb script_eqb x covered) l) | Err _ => false end.
Lemma outside_spec covered l out : outside covered l = Ok out -> out = filter (is_outside covered) l.
Proof.
  revert out. induction l as [|s l IH]; intros out E; cbn [outside] in E; [apply Ok_inj in E; now subst|]. destruct (ss s) as [x|] eqn:Es; cbn [bind] in E; [|discriminate].
  destruct (outside covered l) as [o|]; cbn [bind] in E; [|discriminate]. cbn [filter]. unfold is_outside at 1. rewrite Es. rewrite <- (IH o eq_refl). destruct (forallb _ x); apply Ok_inj in E; now subst.
Qed.
Lemma is_outside_text covered a b : wf a -> wf b -> str a = str b -> is_outside covered a = is_outside covered b.
Proof.
  intros Wa Wb E. destruct (ss_total a Wa) as (la & Ea & _). destruct (ss_total b Wb) as (lb & Eb & _). unfold is_outside. rewrite Ea, Eb. f_equal.
  assert (G : forall la lb, (forall x, In x la -> exists y, In y lb /\ str y = str x) -> forallb (fun x => memb script_eqb x covered) lb = true -> forallb (fun x => memb script_eqb x covered) la = true).
  { clear. intros la lb H F. apply forallb_forall. intros x Hx. destruct (H x Hx) as (y & Hy & Ey). rewrite forallb_forall in F. specialize (F y Hy). apply memb_text in F as (z & Hz & Ez). apply memb_text. exists z. split; [exact Hz|congruence]. }
  pose proof (G la lb (same_ss a b la lb Wa Wb E Ea Eb)). pose proof (G lb la (same_ss b a lb la Wb Wa (eq_sym E) Eb Ea)).
  destruct (forallb _ la), (forallb _ lb); auto; try (symmetry; auto).
Qed.
Lemma covered_words roots covered s w : Forall wf roots -> cover [] roots = Ok covered -> wf s -> is_outside covered s = false -> means s w -> exists r, In r roots /\ means r w.
Proof.
  intros W E Ws O Hw. destruct (cover_spec roots W _ _ E) as (_ & _ & M). destruct (ss_total s Ws) as (l & El & _). unfold is_outside in O. rewrite El in O. apply negb_false_iff in O. rewrite forallb_forall in O.
  destruct (ss_find s l w Ws El Hw) as (x & Hx & Xw & Sx). specialize (O x Hx). apply memb_text in O as (y & Hy & Ey). apply M in Hy as [[]|(r & l' & Hr & El' & Hy)]. exists r. split; [exact Hr|].
  rewrite Forall_forall in W. apply (ss_word r l' y w (W r Hr) El' Hy). pose proof (ss_sing r l' y (W r Hr) El' Hy) as (Wy & _). destruct Sx as (Wx & _). apply (same_text x y Wx Wy (eq_sym Ey)). exact Xw.
Qed.
Lemma root_not_outside roots covered r : Forall wf roots -> cover [] roots = Ok covered -> In r roots -> is_outside covered r = false.
Proof.
  intros W E Hr. destruct (cover_spec roots W _ _ E) as (_ & _ & M). rewrite Forall_forall in W. destruct (ss_total r (W r Hr)) as (l & El & _). unfold is_outside. rewrite El. apply negb_false_iff, forallb_forall. intros x Hx.
  apply memb_text. exists x. split; [|reflexivity]. apply M. right. eauto.
Qed.

(** * Ignored scripts *)
Lemma words_covered roots covered s : Forall wf roots -> cover [] roots = Ok covered -> wf s -> (forall w, means s w -> exists r, In r roots /\ means r w) -> is_outside covered s = false.
Proof.
  intros W E Ws Cov. destruct (cover_spec roots W _ _ E) as (_ & _ & M). destruct (ss_total s Ws) as (l & El & _). unfold is_outside. rewrite El. apply negb_false_iff, forallb_forall. intros x Hx. pose proof (ss_sing _ _ _ Ws El Hx) as (Wx & Cx & Lx).
  pose proof (proj2 (wordof_means x _ Wx Cx) eq_refl) as Hw. destruct (Cov _ (ss_word _ _ _ _ Ws El Hx Hw)) as (r & Hr & Rw). rewrite Forall_forall in W. destruct (ss_total r (W r Hr)) as (l' & El' & _). destruct (ss_find r l' _ (W r Hr) El' Rw) as (y & Hy & Yw & Sy).
  apply memb_text. exists y. split; [apply M; right; eauto|]. rewrite (share_layer r x _ (W r Hr) Wx Rw Hw) in Sy. apply (sing1_text (layer x)); [exact Sy|split; auto|]. destruct Sy as (Wy & Cy & _). apply wordof_means in Yw; auto.
Qed.
Lemma remove_first_in s l x : In x (remove_first s l) -> In x l.
Proof. induction l as [|y l IH]; cbn [remove_first]; [auto|]. destruct (script_eqb y s); simpl; intuition. Qed.
Lemma remove_first_FOP (R : script -> script -> Prop) s l : ForallOrdPairs R l -> ForallOrdPairs R (remove_first s l).
Proof.
  induction 1 as [|x l F H IH]; cbn [remove_first]; [constructor|]. destruct (script_eqb x s); [exact H|]. constructor; [|exact IH]. rewrite Forall_forall in *. intros y Hy. apply F. eapply remove_first_in; eauto.
Qed.
Lemma remove_first_none s l : (forall x, In x l -> str x <> str s) -> remove_first s l = l.
Proof. induction l as [|x l IH]; intros H; cbn [remove_first]; [reflexivity|]. destruct (script_eqb x s) eqn:E; [apply script_eqb_str in E; exfalso; apply (H x); simpl; auto|]. rewrite IH; auto. intros y Hy. apply H. simpl. auto. Qed.
Lemma remove_first_text s l : NoDup (map str l) -> forall x, In x (remove_first s l) -> str x <> str s.
Proof.
  induction l as [|y l IH]; intros N x Hx; cbn [remove_first] in Hx; [destruct Hx|]. cbn [map] in N. apply NoDup_cons_iff in N as [Ny N]. destruct (script_eqb y s) eqn:E.
  - apply script_eqb_str in E. intros X. apply Ny. rewrite E, <- X. now apply in_map.
  - destruct Hx as [<-|Hx]; [intros X; apply script_eqb_str in X; congruence|auto].
Qed.
Lemma remove_first_nodup s l : NoDup (map str l) -> NoDup (map str (remove_first s l)).
Proof.
  induction l as [|y l IH]; intros N; cbn [remove_first]; [constructor|]. cbn [map] in N. apply NoDup_cons_iff in N as [Ny N]. destruct (script_eqb y s); [exact N|]. cbn [map]. constructor; [|auto].
  intros H. apply Ny. apply in_map_iff in H as (z & Ez & Hz). rewrite <- Ez. apply in_map. eapply remove_first_in; eauto.
Qed.
Lemma ignore_spec l : forall st st', ignore st l = Ok st' ->
  NoDup (map str l) /\ (forall s, In s l -> In (str s) (map fst (l_scripts st))) /\
  (forall e, In e (l_scripts st') <-> In e (l_scripts st) /\ ~ In (fst e) (map str l)) /\
  (forall k, ~ In k (map str l) -> get_key k (l_inhibitions st') = get_key k (l_inhibitions st)) /\
  (forall R, ForallOrdPairs R (l_roots st) -> ForallOrdPairs R (l_roots st')) /\ incl (l_roots st') (l_roots st) /\
  (NoDup (map str (l_roots st)) -> forall r, In r (l_roots st') -> ~ In (str r) (map str l)) /\
  ((forall r s, In r (l_roots st) -> In s l -> str r <> str s) -> l_roots st' = l_roots st) /\
  (exists p, l_scripts st' = filter p (l_scripts st)).
Proof.
  induction l as [|s l IH]; intros st st' E; cbn [ignore] in E.
  - apply Ok_inj in E. subst st'. split; [constructor|]. split; [intros s []|]. split; [intros e; simpl; tauto|]. split; [auto|]. split; [auto|]. split; [apply incl_refl|]. split; [auto|]. split; [auto|].
    exists (fun _ => true). induction (l_scripts st); simpl; congruence.
  - destruct (get_key (str s) (l_scripts st)) as [v|] eqn:G; [|discriminate]. apply IH in E. cbn [l_scripts l_roots l_inhibitions] in E. destruct E as (N & K & S & I & F & Inc & T & Eq & p & Ep).
    assert (Hs : In (str s) (map fst (l_scripts st))) by (apply get_key_in in G; change (str s) with (fst (str s, v)); now apply in_map).
    assert (Kd : forall k, In k (map fst (del_key (str s) (l_scripts st))) -> In k (map fst (l_scripts st)) /\ k <> str s).
    { intros k Hk. apply in_map_iff in Hk as (e & <- & He). apply del_key_in in He as [He Ne]. split; [now apply in_map|exact Ne]. }
    cbn [map]. split; [constructor; [|exact N]|].
    { intros H. apply in_map_iff in H as (s' & Es' & Hs'). apply K in Hs'. apply Kd in Hs'. tauto. }
    split; [intros s' [<-|H]; [exact Hs|apply K in H; apply Kd in H; tauto]|].
    split; [intros e; rewrite S, del_key_in; cbn [In]; intuition congruence|].
    split; [intros k Hk; cbn [In] in Hk; rewrite I by tauto; apply get_del; intros ->; tauto|].
    split; [intros R H; apply F, remove_first_FOP, H|].
    split; [intros r Hr; eapply remove_first_in, Inc, Hr|].
    split.
    { intros Nr r Hr [X|X]; [|exact (T (remove_first_nodup s _ Nr) r Hr X)]. apply Inc in Hr. apply (remove_first_text s _ Nr r Hr). congruence. }
    split.
    { intros H. rewrite Eq; [apply remove_first_none; intros x Hx; apply H; simpl; auto|]. intros r s' Hr Hs'. apply H; [eapply remove_first_in; eauto|simpl; auto]. }
    exists (fun e => negb (String.eqb (fst e) (str s)) && p e). rewrite Ep. unfold del_key. clear. induction (l_scripts st) as [|e d IHd]; cbn [filter]; [reflexivity|].
    destruct (negb (String.eqb (fst e) (str s))); cbn [andb filter]; [destruct (p e)|]; congruence.
Qed.

(** * Rows *)
Section Load.
  Variable so : list script -> list script.
  Hypothesis SO : set_order so.

  Lemma parse_text s : wf s -> exists v, parse so (str s) = Ok v /\ wf v /\ str v = str s.
  Proof. intros W. destruct (parse_str so SO s W) as (v & E & Wv & N). exists v. split; [exact E|]. split; [exact Wv|]. rewrite <- (str_norm v Wv), <- (str_norm s W), N. reflexivity. Qed.
  Lemma printed_nf v : wf v -> parse so (str v) = Ok v -> nf v.
  Proof.
    intros W E. assert (D : nf v \/ exists x, v = Add [x]) by (destruct v as [| | |[|x [|y cs]]]; try (left; split; auto; discriminate); right; eauto).
    destruct D as [N|[x ->]]; [exact N|]. destruct (wf_add_in _ x W (or_introl eq_refl)) as (Wx & Ax & _). assert (Nx : nf x) by (apply nf_notadd; auto).
    destruct (parse_str_nf so x SO Nx) as (r & Er & Nr & _). assert (X : str (Add [x]) = str x) by (rewrite <- (str_norm (Add [x]) W), <- (str_norm x Wx); reflexivity).
    rewrite X, Er in E. apply Ok_inj in E. subst r. exact Nr.
  Qed.

  Definition entry (tidy : Prop) (e : string * script) : Prop :=
    wf (snd e) /\ (exists v, parse so (fst e) = Ok v /\ str v = str (snd e)) /\ (tidy -> nf (snd e) /\ str (snd e) = fst e).
  Definition entries (tidy : Prop) (d : list (string * script)) : Prop := NoDup (map fst d) /\ forall e, In e d -> entry tidy e.
  Lemma entries_set tidy d k v : entries tidy d -> entry tidy (k, v) -> entries tidy (set_key k v d).
  Proof. intros [N F] E. split; [now apply set_key_nodup|]. intros e He. apply set_key_in in He as [->|He]; auto. Qed.
  Lemma entry_sing (tidy : Prop) s l x : wf s -> (tidy -> nf s) -> ss s = Ok l -> In x l -> entry tidy (str x, x).
  Proof.
    intros W N E Hx. pose proof (ss_sing s l x W E Hx) as (Wx & _). split; [exact Wx|]. split; [cbn [fst snd]; destruct (parse_text x Wx) as (v & Ev & _ & Tv); eauto|].
    intros Ti. split; [|reflexivity]. destruct (ss_elements s l W E) as [F|(y & -> & _)]; [rewrite Forall_forall in F; apply F, Hx|]. destruct (N Ti) as [_ Nn]. exfalso. exact (Nn y eq_refl).
  Qed.
  Lemma entries_sings (tidy : Prop) s l : wf s -> (tidy -> nf s) -> ss s = Ok l -> forall l' d, incl l' l -> entries tidy d -> entries tidy (fold_left (fun d x => set_key (str x) x d) l' d).
  Proof.
    intros W N E l'. induction l' as [|x l' IH]; intros d I H; cbn [fold_left]; [exact H|]. apply IH; [intros y Hy; apply I; simpl; auto|]. apply entries_set; [exact H|]. apply (entry_sing tidy s l); auto. apply I. simpl. auto.
  Qed.
  Lemma sings_keys l : forall d k, In k (map fst d) -> In k (map fst (fold_left (fun d (x : script) => set_key (str x) x d) l d)).
  Proof. induction l as [|x l IH]; intros d k H; cbn [fold_left]; [exact H|]. apply IH, set_key_fst. auto. Qed.

  (** [s] is what a row of [rows] with this key and a true value is about. *)
  Definition marked (rows : list (string * string * string)) (key : string) (s : script) : Prop :=
    exists p value v, In (p, key, value) rows /\ truthy value = Ok true /\ parse so p = Ok v /\ str v = str s.
  Definition loaded (tidy : Prop) (rows : list (string * string * string)) (st : loading) : Prop :=
    entries tidy (l_scripts st) /\ (forall s, In s (l_roots st) -> wf s /\ marked rows "is_root" s /\ (tidy -> nf s)) /\ (forall s, In s (l_ignored st) -> wf s /\ marked rows "is_ignored" s).
  Lemma marked_more rows row key s : marked rows key s -> marked (rows ++ [row]) key s.
  Proof. intros (p & value & v & H & X). exists p, value, v. split; [apply in_or_app; auto|exact X]. Qed.

  Lemma read_row_spec tidy rows st row st' : loaded tidy rows st -> read_row st row = Ok st' ->
    loaded tidy (rows ++ [row]) st' /\ (forall k, In k (map fst (l_scripts st)) -> In k (map fst (l_scripts st'))) /\
    (forall k l v, get_key k (l_inhibitions st) = Some l -> In v l -> exists l', get_key k (l_inhibitions st') = Some l' /\ In v l') /\
    (forall p value v, row = (p, "inhibition"%string, value) -> In p (map fst (l_scripts st)) -> parse so p = Ok v -> exists l', get_key (str v) (l_inhibitions st') = Some l' /\ In value l').
  Proof.
    intros (En & Ro & Ig) E. destruct row as [[p key] value]. unfold read_row in E.
    assert (Mo : forall k0 s, marked rows k0 s -> marked (rows ++ [(p, key, value)]) k0 s) by (intros; now apply marked_more).
    destruct (get_key p (l_scripts st)) as [s|] eqn:G.
    2:{ apply Ok_inj in E. subst st'. split; [|split; [auto|split; [eauto|]]].
        - split; [exact En|]. split; [intros s Hs; destruct (Ro s Hs) as (? & ? & ?); auto|intros s Hs; destruct (Ig s Hs); auto].
        - intros p' value' v X Hp _. assert (p' = p) by congruence. subst p'. apply get_key_none in G. contradiction. }
    destruct En as [Nd En]. pose proof (En _ (get_key_in _ _ _ G)) as (Ws & (v & Ev & Tv) & Ts). cbn [fst snd] in *.
    destruct (ss s) as [l|] eqn:El; cbn [bind] in E; [|discriminate]. set (scripts := fold_left _ l (l_scripts st)) in E.
    assert (En' : entries tidy scripts) by (apply (entries_sings tidy s l); auto; [intros Ti; apply (Ts Ti)|apply incl_refl|split; auto]).
    assert (Ky : forall k, In k (map fst (l_scripts st)) -> In k (map fst scripts)) by (intros k; apply sings_keys). clearbody scripts.
    assert (Ro' : forall s, In s (l_roots st) -> wf s /\ marked (rows ++ [(p, key, value)]) "is_root" s /\ (tidy -> nf s)) by (intros s' Hs; destruct (Ro s' Hs) as (? & ? & ?); auto).
    assert (Ig' : forall s, In s (l_ignored st) -> wf s /\ marked (rows ++ [(p, key, value)]) "is_ignored" s) by (intros s' Hs; destruct (Ig s' Hs); auto).
    destruct (String.eqb_spec key "inhibition") as [->|N1].
    { apply Ok_inj in E. subst st'. cbn [l_scripts l_roots l_inhibitions l_ignored]. split; [split; [exact En'|split; [exact Ro'|exact Ig']]|]. split; [exact Ky|]. split.
      - intros k l0 v0 Gk Hv. rewrite get_set. destruct (String.eqb_spec (str s) k) as [<-|D]; [|eauto]. eexists. split; [reflexivity|]. rewrite Gk. apply in_or_app. auto.
      - intros p' value' v' X _ Ev'. injection X as <- <-. rewrite Ev in Ev'. apply Ok_inj in Ev'. subst v'. rewrite get_set, Tv, String.eqb_refl. eexists. split; [reflexivity|]. apply in_or_app. simpl. auto. }
    assert (Oth : forall st1, loaded tidy (rows ++ [(p, key, value)]) st1 -> l_scripts st1 = scripts -> l_inhibitions st1 = l_inhibitions st -> Ok st1 = Ok st' ->
      loaded tidy (rows ++ [(p, key, value)]) st' /\ (forall k, In k (map fst (l_scripts st)) -> In k (map fst (l_scripts st'))) /\
      (forall k l v, get_key k (l_inhibitions st) = Some l -> In v l -> exists l', get_key k (l_inhibitions st') = Some l' /\ In v l') /\
      (forall p0 value0 v, (p, key, value) = (p0, "inhibition"%string, value0) -> In p0 (map fst (l_scripts st)) -> parse so p0 = Ok v -> exists l', get_key (str v) (l_inhibitions st') = Some l' /\ In value0 l')).
    { intros st1 L1 S1 I1 X. apply Ok_inj in X. subst st1. split; [exact L1|]. rewrite S1, I1. split; [exact Ky|]. split; [eauto|]. intros p0 value0 v0 X. exfalso. apply N1. congruence. }
    destruct (String.eqb_spec key "is_root") as [->|N2].
    { destruct (truthy value) as [b|] eqn:Tr; cbn [bind] in E; [|discriminate]. refine (Oth _ _ _ _ E); [|reflexivity|reflexivity]. split; [exact En'|]. cbn [l_roots l_ignored]. split; [|exact Ig'].
      destruct b; [|exact Ro']. intros s' Hs. apply in_app_or in Hs as [Hs|[<-|[]]]; [auto|]. split; [exact Ws|]. split; [|intros Ti; apply (Ts Ti)]. exists p, value, v. split; [apply in_or_app; simpl; auto|auto]. }
    destruct (String.eqb_spec key "is_ignored") as [->|N3].
    { destruct (truthy value) as [b|] eqn:Tr; cbn [bind] in E; [|discriminate]. refine (Oth _ _ _ _ E); [|reflexivity|reflexivity]. split; [exact En'|]. cbn [l_roots l_ignored]. split; [exact Ro'|].
      destruct b; [|exact Ig']. intros s' Hs. apply in_app_or in Hs as [Hs|[<-|[]]]; [auto|]. split; [exact Ws|]. exists p, value, v. split; [apply in_or_app; simpl; auto|auto]. }
    refine (Oth _ _ _ _ E); [|reflexivity|reflexivity]. split; [exact En'|split; [exact Ro'|exact Ig']].
  Qed.
  Lemma read_rows_spec tidy todo : forall done st st', loaded tidy done st -> read_rows st todo = Ok st' ->
    loaded tidy (done ++ todo) st' /\ (forall k l v, get_key k (l_inhibitions st) = Some l -> In v l -> exists l', get_key k (l_inhibitions st') = Some l' /\ In v l') /\
    (forall p value v, In (p, "inhibition"%string, value) todo -> In p (map fst (l_scripts st)) -> parse so p = Ok v -> exists l', get_key (str v) (l_inhibitions st') = Some l' /\ In value l').
  Proof.
    induction todo as [|row todo IH]; intros done st st' L E; cbn [read_rows] in E.
    - apply Ok_inj in E. subst st'. rewrite app_nil_r. split; [exact L|]. split; [eauto|intros p value v []].
    - destruct (read_row st row) as [st1|] eqn:E1; cbn [bind] in E; [|discriminate]. destruct (read_row_spec _ _ _ _ _ L E1) as (L1 & K1 & I1 & R1). destruct (IH _ _ _ L1 E) as (L2 & I2 & R2).
      rewrite <- app_assoc in L2. split; [exact L2|]. split.
      + intros k l v G Hv. destruct (I1 k l v G Hv) as (l1 & G1 & H1). eauto.
      + intros p value v [->|H] Hp Ev; [|eauto]. destruct (R1 p value v eq_refl Hp Ev) as (l1 & G1 & H1). eauto.
  Qed.

  Lemma load_spec paradigms rows st : load so paradigms rows = Ok st ->
    loaded (tidy so paradigms) rows st /\
    (forall p value v, In (p, "inhibition"%string, value) rows -> In p paradigms -> parse so p = Ok v -> exists l', get_key (str v) (l_inhibitions st) = Some l' /\ In value l').
  Proof.
    unfold load. destruct (mapM _ paradigms) as [l|] eqn:El; cbn [bind]; [|discriminate]. intros E.
    assert (Hl : forall e, In e l -> entry (tidy so paradigms) e /\ In (fst e) paradigms).
    { intros e He. destruct (mapM_in _ _ _ _ El He) as (p & Hp & Ep). destruct (parse so p) as [s|] eqn:Es; cbn [bind] in Ep; [|discriminate]. apply Ok_inj in Ep. subst e. cbn [fst]. split; [|exact Hp].
      pose proof (constructible_wf _ (parse_constructible so SO p s Es)) as Ws. split; [exact Ws|]. split; [cbn [fst snd]; eauto|]. intros Ti. cbn [fst snd]. pose proof (Ti p s Hp Es) as X. split; [|exact X]. apply printed_nf; [exact Ws|]. now rewrite X. }
    assert (Hp : forall p, In p paradigms -> In p (map fst l)).
    { intros p Hp. destruct (combine_all _ _ _ _ El Hp) as (e & Ee & He). cbn beta in Ee. destruct (parse so p) as [s|]; cbn [bind] in Ee; [|discriminate]. apply Ok_inj in Ee. subst e. apply in_combine_r in He. change p with (fst (p, s)). now apply in_map. }
    assert (F : forall l' d, incl l' l -> entries (tidy so paradigms) d ->
      entries (tidy so paradigms) (fold_left (fun d e => set_key (fst e) (snd e) d) l' d) /\ forall k, In k (map fst d) \/ In k (map fst l') -> In k (map fst (fold_left (fun d e => set_key (fst e) (snd e) d) l' d))).
    { clear -Hl. induction l' as [|e l' IH]; intros d I H; cbn [fold_left]; [split; [exact H|intros k [X|[]]; exact X]|].
      destruct (IH (set_key (fst e) (snd e) d)) as [E1 E2]; [intros y Hy; apply I; simpl; auto| |].
      - apply entries_set; [exact H|]. destruct e. apply Hl, I. simpl. auto.
      - split; [exact E1|]. intros k [X|[X|X]]; apply E2; rewrite set_key_fst; auto. }
    destruct (F l [] (incl_refl l)) as [F1 F2]; [split; [constructor|intros e []]|].
    assert (L0 : loaded (tidy so paradigms) [] {| l_scripts := fold_left (fun d e => set_key (fst e) (snd e) d) l []; l_roots := []; l_inhibitions := []; l_ignored := [] |}) by (split; [exact F1|]; split; intros s []).
    destruct (read_rows_spec (tidy so paradigms) rows [] _ _ L0 E) as (L & _ & R).
    split; [exact L|]. intros p value v H Hpp Ev. apply (R p value v H); [|exact Ev]. cbn [l_scripts]. apply F2. auto.
  Qed.

  (** * The parts of a dictionary *)
  Definition anatomy (paradigms : list string) (rows : list (string * string * string)) (d : dictionary) (all : list script) : Prop :=
    Forall wf all /\ d_scripts d = filter (fun s => N.eqb (cardinal s) 1 || match table_of (d_forest d) s with Some _ => true | None => false end) all /\
    build_tables so (d_root_scripts d) all = Ok (d_forest d) /\ Forall wf (d_root_scripts d) /\ ForallOrdPairs disjoint (d_root_scripts d) /\
    (exists is, mapM (idx (d_scripts d)) (d_root_scripts d) = Ok is) /\
    compute_relations (d_scripts d) (d_forest d) (d_inhibitions d) = Ok (d_relations d) /\
    ((forall s t, marked rows "is_root" s -> marked rows "is_ignored" t -> str s <> str t) -> forall s w, In s all -> means s w -> exists r, In r (d_root_scripts d) /\ means r w) /\
    (tidy so paradigms -> sorted_lt all /\ Forall nf all /\ NoDup (map str all)) /\
    (forall p value v r, In (p, "inhibition"%string, value) rows -> In p paradigms -> parse so p = Ok v -> In r (d_root_scripts d) -> str r = str v -> inhibited (d_inhibitions d) r value = true).
  Lemma sorted_texts l : Forall nf l -> NoDup (map str l) -> sorted_lt (isort l).
  Proof.
    intros F N. apply isort_strict; [exact F|]. clear F. induction l as [|x l IH]; [constructor|]. cbn [map] in N. apply NoDup_cons_iff in N as [Nx N]. constructor; [|auto].
    apply Forall_forall. intros y Hy. destruct (script_eqb x y) eqn:X; [|reflexivity]. apply script_eqb_str in X. exfalso. apply Nx. rewrite X. now apply in_map.
  Qed.
  (** * Where the contents come from *)
  Definition given (paradigms : list string) (s : script) : Prop := exists p v, In p paradigms /\ parse so p = Ok v /\ (str s = str v \/ cardinal s = 1%N /\ inside s v).
  (** What is known of the state after the rows [rows] *)
  Definition origin (paradigms : list string) (rows : list (string * string * string)) (st : loading) : Prop :=
    (forall e, In e (l_scripts st) -> given paradigms (snd e) /\ (In (fst e) paradigms \/ cardinal (snd e) = 1%N)) /\ (forall p, In p paradigms -> In p (map fst (l_scripts st))) /\
    (forall k l v, get_key k (l_inhibitions st) = Some l -> In v l -> exists p w, In (p, "inhibition"%string, v) rows /\ parse so p = Ok w /\ str w = k /\ (In p paradigms \/ cardinal w = 1%N)) /\
    (forall p value v, In p paradigms -> In (p, "is_root"%string, value) rows -> truthy value = Ok true -> parse so p = Ok v -> exists r, In r (l_roots st) /\ str r = str v) /\
    (forall p value v, In p paradigms -> In (p, "is_ignored"%string, value) rows -> truthy value = Ok true -> parse so p = Ok v -> exists r, In r (l_ignored st) /\ str r = str v).
  Lemma sings_in l : forall d e, In e (fold_left (fun d (x : script) => set_key (str x) x d) l d) -> In e d \/ In (snd e) l.
  Proof. induction l as [|x l IH]; intros d e H; cbn [fold_left] in H; [auto|]. apply IH in H as [H|H]; [|simpl; auto]. apply set_key_in in H as [->|H]; simpl; auto. Qed.
  Lemma origin_row (td : Prop) paradigms rows st row st' : loaded td rows st -> origin paradigms rows st -> read_row st row = Ok st' -> origin paradigms (rows ++ [row]) st'.
  Proof.
    intros (En & _) (Gi & Ke & Inh & Ro & Ig) E. destruct row as [[p key] value]. unfold read_row in E.
    destruct (get_key p (l_scripts st)) as [s|] eqn:G.
    2:{ apply Ok_inj in E. subst st'. apply get_key_none in G. split; [exact Gi|]. split; [exact Ke|]. split; [intros k l v H Hv; destruct (Inh k l v H Hv) as (p' & w & H1 & H2); exists p', w; split; [apply in_or_app; auto|exact H2]|].
        split; intros p' value' v Hp H Tr Ev; apply in_app_or in H as [H|[H|[]]]; eauto; exfalso; apply G; injection H as -> _; auto. }
    destruct En as [Nd En]. pose proof (En _ (get_key_in _ _ _ G)) as (Ws & (v & Ev & Tv) & _). cbn [fst snd] in *.
    destruct (ss s) as [l|] eqn:El; cbn [bind] in E; [|discriminate]. set (scripts := fold_left _ l (l_scripts st)) in E.
    pose proof (proj2 (Gi _ (get_key_in _ _ _ G))) as Gp. cbn [fst snd] in Gp.
    assert (Gi' : forall e, In e scripts -> given paradigms (snd e) /\ (In (fst e) paradigms \/ cardinal (snd e) = 1%N)).
    { intros e He. apply sings_in in He as [He|He]; [auto|]. destruct (Gi _ (get_key_in _ _ _ G)) as [(p0 & v0 & Hp0 & Ev0 & O) _]. cbn [snd] in O. destruct (ss_sing _ _ _ Ws El He) as (We & Ce & Le). split; [|auto]. exists p0, v0. split; [exact Hp0|]. split; [exact Ev0|]. right. split; [exact Ce|].
      assert (Is : inside (snd e) s) by (split; [exact Le|intros w Hw; eapply ss_word; eauto]). apply (inside_trans _ s); [exact Is|]. destruct O as [O|[_ O]]; [|exact O]. apply same_text; [exact Ws|exact (constructible_wf _ (parse_constructible so SO _ _ Ev0))|exact O]. }
    assert (Ke' : forall p, In p paradigms -> In p (map fst scripts)) by (intros q Hq; apply sings_keys, Ke, Hq). clearbody scripts.
    assert (Inh' : forall k l v, get_key k (l_inhibitions st) = Some l -> In v l -> exists p0 w, In (p0, "inhibition"%string, v) (rows ++ [(p, key, value)]) /\ parse so p0 = Ok w /\ str w = k /\ (In p0 paradigms \/ cardinal w = 1%N)) by (intros k l0 v0 H Hv; destruct (Inh k l0 v0 H Hv) as (p' & w & H1 & H2); exists p', w; split; [apply in_or_app; auto|exact H2]).
    assert (Old : forall key' (old : list script) more, (key' = key -> truthy value = Ok true -> In s more) -> (forall p value v, In p paradigms -> In (p, key', value) rows -> truthy value = Ok true -> parse so p = Ok v -> exists r, In r old /\ str r = str v) ->
      forall p0 value0 v0, In p0 paradigms -> In (p0, key', value0) (rows ++ [(p, key, value)]) -> truthy value0 = Ok true -> parse so p0 = Ok v0 -> exists r, In r (old ++ more)%list /\ str r = str v0).
    { intros key' old more Hk Ho p0 value0 v0 Hp H Tr Ev0. apply in_app_or in H as [H|[H|[]]].
      - destruct (Ho p0 value0 v0 Hp H Tr Ev0) as (r & Hr & Er). exists r. split; [apply in_or_app; auto|exact Er].
      - injection H as <- -> <-. exists s. split; [apply in_or_app; right; auto|congruence]. }
    destruct (String.eqb_spec key "inhibition") as [->|N1].
    { apply Ok_inj in E. subst st'. split; [exact Gi'|]. split; [exact Ke'|]. cbn [l_inhibitions l_roots l_ignored]. split.
      - intros k l0 v0 Gk Hv. rewrite get_set in Gk. destruct (String.eqb_spec (str s) k) as [<-|D]; [|eauto]. assert (l0 = (match get_key (str s) (l_inhibitions st) with Some l => l | None => [] end ++ [value])%list) as -> by congruence. apply in_app_or in Hv as [Hv|[<-|[]]].
        + destruct (get_key (str s) (l_inhibitions st)) as [l1|] eqn:G1; [eauto|destruct Hv].
        + exists p, v. split; [apply in_or_app; simpl; auto|]. split; [auto|]. split; [auto|]. destruct Gp as [Gp|Gp]; [auto|]. right. pose proof (constructible_wf _ (parse_constructible so SO _ _ Ev)) as Wv. destruct (eq_attributes v s Wv Ws Tv) as [(_ & _ & A & _) _]. congruence.
      - split; intros p0 value0 v0 Hp H Tr Ev0; apply in_app_or in H as [H|[H|[]]]; eauto; discriminate. }
    destruct (String.eqb_spec key "is_root") as [->|N2].
    { destruct (truthy value) as [b|] eqn:Tr; cbn [bind] in E; [|discriminate]. apply Ok_inj in E. subst st'. split; [exact Gi'|]. split; [exact Ke'|]. cbn [l_inhibitions l_roots l_ignored]. split; [exact Inh'|]. split.
      - intros p0 value0 v0 Hp H T0 Ev0. replace (if b then (l_roots st ++ [s])%list else l_roots st) with (l_roots st ++ (if b then [s] else []))%list by (destruct b; [reflexivity|apply app_nil_r]). apply (Old "is_root"%string (l_roots st) (if b then [s] else [])) with p0 value0; auto. intros _ X. apply Ok_inj in X. subst b. simpl. auto.
      - intros p0 value0 v0 Hp H T0 Ev0; apply in_app_or in H as [H|[H|[]]]; eauto; discriminate. }
    destruct (String.eqb_spec key "is_ignored") as [->|N3].
    { destruct (truthy value) as [b|] eqn:Tr; cbn [bind] in E; [|discriminate]. apply Ok_inj in E. subst st'. split; [exact Gi'|]. split; [exact Ke'|]. cbn [l_inhibitions l_roots l_ignored]. split; [exact Inh'|]. split.
      - intros p0 value0 v0 Hp H T0 Ev0; apply in_app_or in H as [H|[H|[]]]; eauto; discriminate.
      - intros p0 value0 v0 Hp H T0 Ev0. replace (if b then (l_ignored st ++ [s])%list else l_ignored st) with (l_ignored st ++ (if b then [s] else []))%list by (destruct b; [reflexivity|apply app_nil_r]). apply (Old "is_ignored"%string (l_ignored st) (if b then [s] else [])) with p0 value0; auto. intros _ X. apply Ok_inj in X. subst b. simpl. auto. }
    apply Ok_inj in E. subst st'. split; [exact Gi'|]. split; [exact Ke'|]. cbn [l_inhibitions l_roots l_ignored]. split; [exact Inh'|]. split; intros p0 value0 v0 Hp H T0 Ev0; apply in_app_or in H as [H|[H|[]]]; eauto; congruence.
  Qed.
  Lemma origin_rows (td : Prop) paradigms todo : forall done st st', loaded td done st -> origin paradigms done st -> read_rows st todo = Ok st' -> origin paradigms (done ++ todo) st'.
  Proof.
    induction todo as [|row todo IH]; intros done st st' L O E; cbn [read_rows] in E; [apply Ok_inj in E; subst; now rewrite app_nil_r|].
    destruct (read_row st row) as [st1|] eqn:E1; cbn [bind] in E; [|discriminate]. destruct (read_row_spec _ _ _ _ _ L E1) as (L1 & _). pose proof (origin_row _ _ _ _ _ _ L O E1) as O1. specialize (IH _ _ _ L1 O1 E). now rewrite <- app_assoc in IH.
  Qed.
  Lemma load_origin paradigms rows st : load so paradigms rows = Ok st -> origin paradigms rows st.
  Proof.
    intros E. unfold load in E. destruct (mapM _ paradigms) as [l|] eqn:El; cbn [bind] in E; [|discriminate].
    assert (Hl : forall e, In e l -> entry False e /\ In (fst e) paradigms /\ parse so (fst e) = Ok (snd e)).
    { intros e He. destruct (mapM_in _ _ _ _ El He) as (p & Hp & Ep). destruct (parse so p) as [s|] eqn:Es; cbn [bind] in Ep; [|discriminate]. apply Ok_inj in Ep. subst e. cbn [fst snd].
      pose proof (constructible_wf _ (parse_constructible so SO p s Es)) as Ws. split; [|auto]. split; [exact Ws|]. split; [cbn [fst snd]; eauto|intros []]. }
    assert (Hp : forall p, In p paradigms -> In p (map fst l)).
    { intros p Hp. destruct (combine_all _ _ _ _ El Hp) as (e & Ee & He). cbn beta in Ee. destruct (parse so p) as [s|]; cbn [bind] in Ee; [|discriminate]. apply Ok_inj in Ee. subst e. apply in_combine_r in He. change p with (fst (p, s)). now apply in_map. }
    assert (F : forall l' d, incl l' l -> entries False d ->
      entries False (fold_left (fun d e => set_key (fst e) (snd e) d) l' d) /\ (forall k, In k (map fst d) \/ In k (map fst l') -> In k (map fst (fold_left (fun d e => set_key (fst e) (snd e) d) l' d))) /\
      forall e, In e (fold_left (fun d e => set_key (fst e) (snd e) d) l' d) -> In e d \/ In e l').
    { clear -Hl. induction l' as [|e l' IH]; intros d I H; cbn [fold_left]; [split; [exact H|split; [intros k [X|[]]; exact X|auto]]|].
      destruct (IH (set_key (fst e) (snd e) d)) as (E1 & E2 & E3); [intros y Hy; apply I; simpl; auto| |].
      - apply entries_set; [exact H|]. destruct e. apply Hl, I. simpl. auto.
      - split; [exact E1|]. split; [intros k [X|[X|X]]; apply E2; rewrite set_key_fst; auto|]. intros e' He. apply E3 in He as [He|He]; [|simpl; auto]. apply set_key_in in He as [->|He]; [destruct e; simpl; auto|auto]. }
    destruct (F l [] (incl_refl l)) as (F1 & F2 & F3); [split; [constructor|intros e []]|].
    refine (origin_rows False paradigms rows [] _ _ _ _ E).
    - split; [exact F1|]. split; intros s [].
    - split; [|split; [|split; [|split]]]; cbn [l_scripts l_inhibitions l_roots l_ignored].
      + intros e He. apply F3 in He as [[]|He]. destruct (Hl e He) as (_ & H1 & H2). split; [|auto]. exists (fst e), (snd e). auto.
      + intros p H. apply F2. auto.
      + intros k l0 v0 X. discriminate.
      + intros p value v _ [].
      + intros p value v _ [].
  Qed.
  Lemma ignore_keeps l : forall st st', ignore st l = Ok st' -> (forall r, In r (l_roots st) -> ~ In (str r) (map str l) -> In r (l_roots st')) /\
    (forall k v, get_key k (l_inhibitions st') = Some v -> get_key k (l_inhibitions st) = Some v).
  Proof.
    induction l as [|s l IH]; intros st st' E; cbn [ignore] in E; [apply Ok_inj in E; subst; auto|]. destruct (get_key (str s) (l_scripts st)); [|discriminate]. destruct (IH _ _ E) as [R I]. cbn [l_roots l_inhibitions] in *. split.
    - intros r Hr N. cbn [map In] in N. apply R; [|tauto]. assert (Ns : str s <> str r) by tauto. clear - Hr Ns. induction (l_roots st) as [|x q IHq]; [destruct Hr|]. cbn [remove_first]. destruct (script_eqb x s) eqn:X.
      + destruct Hr as [->|Hr]; [|exact Hr]. apply script_eqb_str in X. congruence.
      + destruct Hr as [->|Hr]; simpl; auto.
    - intros k v G. apply I in G. destruct (string_dec k (str s)) as [->|N]; [|now rewrite get_del in G]. exfalso. apply get_key_in, del_key_in in G as [_ G]. apply G. reflexivity.
  Qed.
  Definition contents (paradigms : list string) (rows : list (string * string * string)) (d : dictionary) (all : list script) : Prop :=
    (forall r, In r (d_root_scripts d) -> marked rows "is_root" r /\ (tidy so paradigms -> nf r)) /\
    (forall r v, In r (d_root_scripts d) -> inhibited (d_inhibitions d) r v = true -> exists p w, In (p, "inhibition"%string, v) rows /\ parse so p = Ok w /\ str w = str r /\ (In p paradigms \/ cardinal w = 1%N)) /\
    (forall p s value, In p paradigms -> In (p, "is_root"%string, value) rows -> truthy value = Ok true -> parse so p = Ok s -> (forall t, marked rows "is_ignored" t -> str t <> str s) -> exists r, In r (d_root_scripts d) /\ str r = str s) /\
    (forall s, In s all -> given paradigms s) /\
    (forall p s value, tidy so paradigms -> In p paradigms -> In (p, "is_ignored"%string, value) rows -> truthy value = Ok true -> parse so p = Ok s -> forall x, In x all -> str x <> str s) /\
    (forall p s, In p paradigms -> parse so p = Ok s -> (forall t, marked rows "is_ignored" t -> str t <> str s) -> (forall w, means s w -> exists r, In r (d_root_scripts d) /\ means r w) -> exists x, In x all /\ str x = str s).
  (** What is known before the tables: the roots, the inhibitions and the scripts. *)
  Definition front (paradigms : list string) (rows : list (string * string * string)) : res (list script * list (string * list string) * list script) :=
    do st <- load so paradigms rows;
    do covered <- cover [] (l_roots st);
    do out <- outside covered (map snd (l_scripts st));
    do st <- ignore st (l_ignored st ++ out)%list;
    Ok (l_roots st, l_inhibitions st, isort (map snd (l_scripts st))).
  Lemma make_front paradigms rows d : make_dictionary so paradigms rows = Ok d -> exists all, front paradigms rows = Ok (d_root_scripts d, d_inhibitions d, all) /\ anatomy paradigms rows d all /\ contents paradigms rows d all.
  Proof.
    unfold make_dictionary, front. destruct (load so paradigms rows) as [st|] eqn:El; cbn [bind]; [|discriminate]. destruct (cover [] (l_roots st)) as [covered|] eqn:Ec; cbn [bind]; [|discriminate].
    destruct (outside covered _) as [out|] eqn:Eo; cbn [bind]; [|discriminate]. destruct (ignore st _) as [st'|] eqn:Ei; cbn [bind]; [|discriminate].
    destruct (build_tables so (l_roots st') _) as [forest|] eqn:Eb; cbn [bind]; [|discriminate]. set (all := isort (map snd (l_scripts st'))) in *. set (scripts := filter _ all).
    destruct (mapM (idx scripts) (l_roots st')) as [is|] eqn:Ex; cbn [bind]; [|discriminate]. destruct (compute_relations scripts forest (l_inhibitions st')) as [rel|] eqn:Er; cbn [bind]; [|discriminate].
    intros E. apply Ok_inj in E. subst d. exists all. split; [reflexivity|]. unfold anatomy, contents. cbn [d_scripts d_forest d_root_scripts d_inhibitions d_relations].
    destruct (load_spec _ _ _ El) as [(En & Ro & Ig) Inh]. destruct En as [Nd En]. destruct (ignore_spec _ _ _ Ei) as (Ni & Ki & Si & Ii & Fi & Inc & Ti & Eqi & p & Ep).
    assert (Wr : Forall wf (l_roots st)) by (apply Forall_forall; intros s Hs; exact (proj1 (Ro s Hs))).
    destruct (cover_spec _ Wr _ _ Ec) as (D & _ & _).
    assert (Ha : forall s, In s all <-> exists k, In (k, s) (l_scripts st')).
    { intros s. unfold all. split.
      - intros H. apply (Permutation_in _ (isort_perm _)) in H. apply in_map_iff in H as ([k s'] & <- & H). eauto.
      - intros (k & H). apply (Permutation_in _ (Permutation_sym (isort_perm _))). change s with (snd (k, s)). now apply in_map. }
    assert (Wall : Forall wf all) by (apply Forall_forall; intros s Hs; apply Ha in Hs as (k & Hk); apply Si in Hk as [Hk _]; exact (proj1 (En _ Hk))).
    split.
    { split; [exact Wall|]. split; [reflexivity|]. split; [exact Eb|]. split; [apply Forall_forall; intros s Hs; exact (proj1 (Ro s (Inc s Hs)))|]. split; [apply Fi, D|]. split; [eauto|]. split; [exact Er|].
    split; [|split].
    - intros Hm s w Hs Hw. apply Ha in Hs as (k & Hk). apply Si in Hk as [Hk Nk]. pose proof (En _ Hk) as (Ws & (v & Ev & Tv) & _). cbn [fst snd] in *.
      assert (Rr : l_roots st' = l_roots st).
      { apply Eqi. intros r s' Hr Hs'. apply in_app_or in Hs' as [Hs'|Hs'].
        - apply Hm; [exact (proj1 (proj2 (Ro r Hr)))|exact (proj2 (Ig s' Hs'))].
        - intros X. rewrite (outside_spec _ _ _ Eo) in Hs'. apply filter_In in Hs' as [Hs' O]. apply in_map_iff in Hs' as ([k' s''] & <- & Hk'). cbn [snd] in *.
          pose proof (root_not_outside _ _ r Wr Ec Hr) as R. rewrite (is_outside_text covered r s'') in R; [congruence|exact (proj1 (Ro r Hr))|exact (proj1 (En _ Hk'))|exact X]. }
      rewrite Rr. apply (covered_words _ covered s w Wr Ec Ws); [|exact Hw]. destruct (is_outside covered s) eqn:O; [|reflexivity]. exfalso.
      pose proof (outside_spec _ _ _ Eo) as Out. assert (Ho : In s out) by (rewrite Out; apply filter_In; split; [change s with (snd (k, s)); now apply in_map|exact O]).
      pose proof (Ki s (in_or_app _ _ _ (or_intror Ho))) as Hks. apply in_map_iff in Hks as ([k' s'] & Ek' & Hk'). cbn [fst] in Ek'. subst k'.
      pose proof (En _ Hk') as (Ws' & (v' & Ev' & Tv') & _). cbn [fst snd] in *. destruct (parse_text s Ws) as (v0 & Ev0 & _ & Tv0). rewrite Ev0 in Ev'. apply Ok_inj in Ev'. subst v'.
      rewrite map_app in Ni. apply nodup_right in Ni. rewrite Out in Ni.
      assert (X : (k, s) = (str s, s')).
      { assert (N2 : NoDup (map (fun e => str (snd e)) (filter (fun e => is_outside covered (snd e)) (l_scripts st)))).
        { revert Ni. clear. intros N. assert (X : map str (filter (is_outside covered) (map snd (l_scripts st))) = map (fun e => str (snd e)) (filter (fun e => is_outside covered (snd e)) (l_scripts st))); [|rewrite <- X; exact N].
          clear. induction (l_scripts st) as [|[k s] l IH]; cbn [map filter snd]; [reflexivity|]. destruct (is_outside covered s); cbn [map snd]; congruence. }
        apply (nodup_inj _ _ _ _ N2); [apply filter_In; auto|apply filter_In; split; [exact Hk'|]|cbn [snd]; congruence]. cbn [snd]. rewrite <- O. apply is_outside_text; auto. congruence. }
      injection X as -> _. apply Nk. rewrite map_app. apply in_or_app. right. now apply in_map.
    - intros Td. assert (Fn : Forall nf (map snd (l_scripts st'))).
      { apply Forall_forall. intros s Hs. apply in_map_iff in Hs as (e & <- & He). apply Si in He as [He _]. exact (proj1 (proj2 (proj2 (En e He)) Td)). }
      assert (Nn : NoDup (map str (map snd (l_scripts st')))).
      { rewrite map_map. assert (X : map (fun e => str (snd e)) (l_scripts st') = map fst (l_scripts st')).
        { apply map_ext_in. intros e He. apply Si in He as [He _]. exact (proj2 (proj2 (proj2 (En e He)) Td)). }
        rewrite X, Ep. apply NoDup_filter_map, Nd. }
      split; [apply sorted_texts; auto|]. split; [apply (Permutation_Forall (Permutation_sym (isort_perm _))), Fn|]. eapply Permutation_NoDup; [apply Permutation_map, Permutation_sym, isort_perm|exact Nn].
    - intros p0 value v r H Hp Ev Hr Tr. destruct (Inh p0 value v H Hp Ev) as (l' & G & Hv). unfold inhibited. rewrite Tr, Ii, G.
      + apply existsb_exists. exists value. split; [exact Hv|apply String.eqb_refl].
      + rewrite <- Tr. apply Ti; [apply disjoint_texts; auto|exact Hr]. }
    destruct (load_origin _ _ _ El) as (Gi & Ke & Oinh & Oro & Oig). destruct (ignore_keeps _ _ _ Ei) as [Kr Kinh].
    pose proof (outside_spec _ _ _ Eo) as Out.
    assert (NotOut : forall r s', In r (l_roots st) -> In s' out -> str r <> str s').
    { intros r s' Hr Hs' X. rewrite Out in Hs'. apply filter_In in Hs' as [Hs' O]. apply in_map_iff in Hs' as ([k' s''] & <- & Hk'). cbn [snd] in *.
      pose proof (root_not_outside _ _ r Wr Ec Hr) as R. rewrite (is_outside_text covered r s'') in R; [congruence|exact (proj1 (Ro r Hr))|exact (proj1 (En _ Hk'))|exact X]. }
    split; [intros r Hr; exact (proj2 (Ro r (Inc r Hr)))|]. split; [|split; [|split; [|split]]].
    - intros r v Hr H. unfold inhibited in H. destruct (get_key (str r) (l_inhibitions st')) as [l|] eqn:G; [|discriminate]. apply existsb_exists in H as (v' & Hv & E). apply String.eqb_eq in E. subst v'. exact (Oinh _ _ _ (Kinh _ _ G) Hv).
    - intros p0 s value Hp H Tr Ev Ni'. destruct (Oro p0 value s Hp H Tr Ev) as (r & Hr & Txt). exists r. split; [|exact Txt]. apply Kr; [exact Hr|]. rewrite map_app, in_app_iff. intros [X|X]; apply in_map_iff in X as (t & Et & Ht).
      + apply (Ni' t); [exact (proj2 (Ig t Ht))|congruence].
      + exact (NotOut r t Hr Ht (eq_sym Et)).
    - intros s Hs. apply Ha in Hs as (k & Hk). apply Si in Hk as [Hk _]. exact (proj1 (Gi _ Hk)).
    - intros p0 s value Td Hp H Tr Ev x Hx X. apply Ha in Hx as (k & Hk). apply Si in Hk as [Hk Nk]. destruct (Oig p0 value s Hp H Tr Ev) as (t & Ht & Et). apply Nk. rewrite map_app, in_app_iff. left. apply in_map_iff. exists t. split; [|exact Ht]. cbn [fst]. rewrite Et, <- X. exact (proj2 (proj2 (proj2 (En _ Hk)) Td)).
    - intros p0 s Hp Ev Ni' Cov. pose proof (constructible_wf _ (parse_constructible so SO p0 s Ev)) as Ws. pose proof (Ke p0 Hp) as Hk. apply in_map_iff in Hk as ([k x] & E & Hk). cbn [fst] in E. subst k. pose proof (En _ Hk) as (Wx & (v & Ev' & Tv) & _). cbn [fst snd] in *. rewrite Ev in Ev'. apply Ok_inj in Ev'. subst v. exists x. split; [|auto]. apply Ha. exists p0. apply Si. split; [exact Hk|]. cbn [fst].
      assert (Par : forall t, wf t -> p0 = str t -> str t = str s). { intros t Wt X. destruct (parse_text t Wt) as (v & Ev' & _ & Tv'). rewrite <- X, Ev in Ev'. apply Ok_inj in Ev'. now subst v. }
      rewrite map_app, in_app_iff. intros [X|X]; apply in_map_iff in X as (t & Et & Ht).
      + destruct (Ig t Ht) as [Wt Mt]. apply (Ni' t Mt). apply Par; auto.
      + rewrite Out in Ht. apply filter_In in Ht as [Ht O]. apply in_map_iff in Ht as ([k' s''] & <- & Hk'). cbn [snd] in *. pose proof (En _ Hk') as (Wt & _). cbn [snd] in Wt. pose proof (Par _ Wt (eq_sym Et)) as X. rewrite (is_outside_text covered s'' s Wt Ws X) in O.
        rewrite (words_covered _ covered s Wr Ec Ws) in O; [discriminate|]. intros w Hw. destruct (Cov w Hw) as (r & Hr & Rw). eauto.
  Qed.
  Lemma make_both paradigms rows d : make_dictionary so paradigms rows = Ok d -> exists all, anatomy paradigms rows d all /\ contents paradigms rows d all.
  Proof. intros M. destruct (make_front _ _ _ M) as (all & _ & A). eauto. Qed.
  Lemma make_spec paradigms rows d : make_dictionary so paradigms rows = Ok d -> exists all, anatomy paradigms rows d all.
  Proof. intros M. destruct (make_both _ _ _ M) as (all & A & _). eauto. Qed.
End Load.
