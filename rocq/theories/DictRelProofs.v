(** Proofs about the relations of a dictionary. *)
From Coq Require Import List String Ascii Bool NArith Arith Lia Permutation Sorted.
From Verif Require Import Base Script ScriptParser SortProofs ScriptWf ScriptStrProofs ScriptOrderProofs ScriptSpec ScriptCtorProofs ScriptParseProofs ScriptSeqProofs ScriptMoreProofs ScriptAlgProofs ScriptEqProofs UslParserProofs Tables TablesSpec TablesProofs TablesGridProofs TablesAllProofs Dictionary DictionarySpec DictTableProofs DictLoadProofs.
Import ListNotations.

(** * The index *)
Lemma combine_seq {A} (l : list A) : forall k i x, In (i, x) (combine (seq k (List.length l)) l) <-> k <= i /\ nth_error l (i - k) = Some x.
Proof.
  induction l as [|y l IH]; intros k i x; cbn [List.length seq combine In]; [split; [intros []|intros [_ H]; destruct (i - k); discriminate]|]. rewrite IH. split.
  - intros [H|[L H]]; [injection H as <- <-; split; [lia|now rewrite Nat.sub_diag]|]. split; [lia|]. replace (i - k) with (S (i - S k)) by lia. exact H.
  - intros [L H]. destruct (Nat.eq_dec i k) as [->|N]; [left; rewrite Nat.sub_diag in H; cbn in H; congruence|]. right. split; [lia|]. replace (i - k) with (S (i - S k)) in H by lia. exact H.
Qed.
Lemma index_some s l i : index_of s l = Ok i -> exists x, nth_error l i = Some x /\ str x = str s.
Proof.
  unfold index_of. destruct (find _ _) as [[j x]|] eqn:E; [|discriminate]. intros H. apply Ok_inj in H. subst j. apply find_some in E as [H E]. apply in_rev in H. apply combine_seq in H as [_ H]. rewrite Nat.sub_0_r in H. exists x. split; [exact H|]. now apply script_eqb_str.
Qed.
Lemma index_total s l : (exists x, In x l /\ str x = str s) -> exists i, index_of s l = Ok i.
Proof.
  intros (x & Hx & Ex). unfold index_of. destruct (find _ _) as [[j y]|] eqn:E; [eauto|]. exfalso. apply In_nth_error in Hx as [n Hn]. assert (H : In (n, x) (rev (combine (seq 0 (List.length l)) l))) by (rewrite <- in_rev; apply combine_seq; rewrite Nat.sub_0_r; split; [lia|exact Hn]).
  apply (find_none _ _ E) in H. cbn [snd] in H. apply script_eqb_str in Ex. congruence.
Qed.
Lemma nth_nodup l i j x y : NoDup (map str l) -> nth_error l i = Some x -> nth_error l j = Some y -> str x = str y -> i = j.
Proof.
  intros N Hi Hj E. rewrite NoDup_nth_error in N. apply N; [rewrite map_length; apply nth_error_Some; congruence|]. rewrite !nth_error_map, Hi, Hj. cbn. congruence.
Qed.
Lemma index_iff s l i : NoDup (map str l) -> (index_of s l = Ok i <-> exists x, nth_error l i = Some x /\ str x = str s).
Proof.
  intros N. split; [apply index_some|]. intros (x & Hx & Ex). destruct (index_total s l) as [j Ej]; [exists x; split; [eapply nth_error_In; eauto|exact Ex]|]. destruct (index_some _ _ _ Ej) as (y & Hy & Ey). rewrite Ej. f_equal. eapply nth_nodup; eauto. congruence.
Qed.
Lemma index_err s l e : index_of s l = Err e -> forall x, In x l -> str x <> str s.
Proof. intros E x Hx Ex. destruct (index_total s l) as [i Ei]; [eauto|congruence]. Qed.
Lemma index_eq s t l i : index_of s l = Ok i -> index_of t l = Ok i -> str s = str t.
Proof. intros Es Et. destruct (index_some _ _ _ Es) as (x & Hx & Ex). destruct (index_some _ _ _ Et) as (y & Hy & Ey). congruence. Qed.
Lemma index_text s t l : str s = str t -> index_of s l = index_of t l.
Proof. intros E. unfold index_of, script_eqb. now rewrite E. Qed.

(** * Objects *)
Lemma row_in scripts m i j : In j (row_of scripts m i) <-> j < List.length scripts /\ In (i, j) m.
Proof.
  unfold row_of. rewrite filter_In, in_seq, existsb_exists. split.
  - intros [L ([a b] & H & E)]. cbn [fst snd] in E. apply andb_true_iff in E as [Ea Eb]. apply Nat.eqb_eq in Ea, Eb. subst. split; [lia|exact H].
  - intros [L H]. split; [lia|]. exists (i, j). split; [exact H|]. cbn [fst snd]. now rewrite !Nat.eqb_refl.
Qed.
(** The places of a relation are the places of scripts, or on the diagonal. *)
Definition placed (sc : list script) (m : matrix) : Prop := forall i j, In (i, j) m -> i = j \/ (exists s, idx sc s = Ok i) /\ exists o, idx sc o = Ok j.
Section Objects.
  Variable d : dictionary.
  Lemma related_spec rel m s o : placed (d_scripts d) m -> get_key rel (d_relations d) = Some m -> (related d rel s o <-> exists i j, idx (d_scripts d) s = Ok i /\ idx (d_scripts d) o = Ok j /\ In (i, j) m).
  Proof.
    intros N G. unfold related, object. rewrite G. split.
    - intros (l & E & x & Hx & Ex). destruct (idx (d_scripts d) s) as [i|] eqn:Ei; cbn [bind] in E; [|discriminate]. apply Ok_inj in E. subst l. apply in_flat_map in Hx as (j & Hj & Hx). apply row_in in Hj as [L Hj].
      destruct (nth_error (d_scripts d) j) as [y|] eqn:Ey; [|destruct Hx]. destruct Hx as [<-|[]]. exists i, j. split; [reflexivity|]. split; [|exact Hj]. unfold idx in *.
      destruct (N i j Hj) as [<-|[_ [o' Eo]]]; [destruct (index_some _ _ _ Ei) as (z & Hz & Ez); rewrite <- Ei; apply index_text; congruence|destruct (index_some _ _ _ Eo) as (z & Hz & Ez); rewrite <- Eo; apply index_text; congruence].
    - intros (i & j & -> & Ej & H). cbn [bind]. eexists. split; [reflexivity|]. destruct (index_some _ _ _ Ej) as (x & Hx & Ex). exists x. split; [|exact Ex]. apply in_flat_map. exists j. split; [|rewrite Hx; simpl; auto]. apply row_in. split; [apply nth_error_Some; congruence|exact H].
  Qed.
End Objects.
Lemma transposed_in m i j : In (i, j) (transposed m) <-> In (j, i) m.
Proof. unfold transposed. rewrite in_map_iff. split; [intros ([a b] & E & H); cbn [fst snd] in E; now injection E as -> ->|intros H; exists (j, i); auto]. Qed.

(** * The list of the relations *)
Definition rels (sc : list script) (fo : list (script * list table)) (inh : list (string * list string)) (rel : list (string * matrix))
  (contains fs fa fm opposed associated crossed twin : matrix) (ranks : list (nat * (nat * nat))) : Prop :=
  compute_contains sc fo = Ok contains /\ compute_father sc 0 = Ok fs /\ compute_father sc 1 = Ok fa /\ compute_father sc 2 = Ok fm /\
  siblings fo inh "opposed" (siblings_in sc opposed_sibling) = Ok opposed /\ siblings fo inh "associated" (siblings_in sc associated_sibling) = Ok associated /\
  siblings fo inh "crossed" (siblings_in sc crossed_sibling) = Ok crossed /\ siblings fo inh "twin" (twins_in sc) = Ok twin /\
  compute_table_rank sc fo (transposed contains) = Ok ranks /\
  rel = [("contains", contains); ("contained", transposed contains);
          ("father_substance", fs); ("child_substance", transposed fs);
          ("father_attribute", fa); ("child_attribute", transposed fa);
          ("father_mode", fm); ("child_mode", transposed fm);
          ("opposed", opposed); ("associated", associated); ("crossed", crossed); ("twin", twin);
          ("table_0", of_rank 0 ranks); ("table_1", of_rank 1 ranks); ("table_2", of_rank 2 ranks);
          ("table_3", of_rank 3 ranks); ("table_4", of_rank 4 ranks); ("table_5", of_rank 5 ranks);
          ("identity", map (fun i => (i, i)) (seq 0 (List.length sc)))]%string.
Lemma compute_relations_spec sc fo inh rel : compute_relations sc fo inh = Ok rel -> exists contains fs fa fm opposed associated crossed twin ranks, rels sc fo inh rel contains fs fa fm opposed associated crossed twin ranks.
Proof.
  unfold compute_relations. intros E. repeat match type of E with (do x <- ?m; _) = _ => let H := fresh "E" in destruct m as [?|] eqn:H; cbn [bind] in E; [|discriminate] end. apply Ok_inj in E. subst rel.
  repeat eexists; eassumption.
Qed.

(** * Contains *)
Lemma mapM_concat_in {A B} (f : A -> res (list B)) l l' e : mapM f l = Ok l' -> (In e (List.concat l') <-> exists x y, In x l /\ f x = Ok y /\ In e y).
Proof.
  intros E. rewrite in_concat. split.
  - intros (y & Hy & He). destruct (mapM_in _ _ _ _ E Hy) as (x & Hx & Ex). eauto.
  - intros (x & y & Hx & Ex & He). destruct (combine_all _ _ _ _ E Hx) as (y' & Ey & Hy). rewrite Ex in Ey. apply Ok_inj in Ey. subst y'. exists y. split; [eapply in_combine_r; eauto|exact He].
Qed.
Lemma filter_combine {A} (f : A -> res bool) l keep x : mapM f l = Ok keep -> (In x (map fst (filter snd (combine l keep))) <-> In x l /\ f x = Ok true).
Proof.
  intros E. rewrite in_map_iff. split.
  - intros ([y b] & <- & H). apply filter_In in H as [H Hb]. cbn [snd fst] in *. subst b. split; [eapply in_combine_l; eauto|eapply mapM_combine; eauto].
  - intros [H Ex]. destruct (combine_all _ _ _ _ E H) as (b & Eb & Hb). rewrite Ex in Eb. apply Ok_inj in Eb. subst b. exists (x, true). split; [reflexivity|]. apply filter_In. auto.
Qed.
Lemma idxs_in sc l is i : idxs sc l = Ok is -> (In i is <-> exists x, In x l /\ idx sc x = Ok i).
Proof.
  unfold idxs. intros E. split; [intros H; destruct (mapM_in _ _ _ _ E H) as (x & ? & ?); eauto|]. intros (x & Hx & Ex). destruct (combine_all _ _ _ _ E Hx) as (j & Ej & Hj). rewrite Ex in Ej. apply Ok_inj in Ej. subst j. eapply in_combine_r; eauto.
Qed.
Lemma contains_in_spec sc ts m i j : contains_in sc ts = Ok m ->
  (In (i, j) m <-> exists p k, (exists t, In t ts /\ tscript t = p) /\ paradigm p = true /\ idx sc p = Ok i /\ idx sc k = Ok j /\
     ((exists l, ss p = Ok l /\ In k l) \/ (exists t, In t ts /\ tscript t = k) /\ paradigm k = true /\ script_in k p = Ok true)).
Proof.
  unfold contains_in. set (ps := map tscript _). intros E. destruct (mapM _ ps) as [l|] eqn:El; cbn [bind] in E; [|discriminate]. apply Ok_inj in E. subst m.
  assert (Hps : forall p, In p ps <-> (exists t, In t ts /\ tscript t = p) /\ paradigm p = true).
  { intros p. unfold ps. rewrite in_map_iff. split; [intros (t & <- & H); apply filter_In in H as [H P]; split; eauto|intros [(t & H & <-) P]; exists t; split; [reflexivity|apply filter_In; auto]]. }
  clearbody ps.
  assert (Body : forall p y, In p ps -> (do i <- idx sc p; do x <- ss p; do a <- idxs sc x; do keep <- mapM (fun k => script_in k p) ps; do b <- idxs sc (map fst (filter snd (combine ps keep))); Ok (pairs i (a ++ b))%list) = Ok y ->
    (In (i, j) y <-> idx sc p = Ok i /\ exists k, idx sc k = Ok j /\ ((exists l, ss p = Ok l /\ In k l) \/ (exists t, In t ts /\ tscript t = k) /\ paradigm k = true /\ script_in k p = Ok true))).
  { intros p y Hp E. destruct (idx sc p) as [i'|] eqn:Ei; cbn [bind] in E; [|discriminate]. destruct (ss p) as [x|] eqn:Ex; cbn [bind] in E; [|discriminate]. destruct (idxs sc x) as [a|] eqn:Ea; cbn [bind] in E; [|discriminate].
    destruct (mapM (fun k => script_in k p) ps) as [keep|] eqn:Ek; cbn [bind] in E; [|discriminate]. destruct (idxs sc (map fst _)) as [b|] eqn:Eb; cbn [bind] in E; [|discriminate]. apply Ok_inj in E. subst y.
    unfold pairs. rewrite in_map_iff. split.
    - intros (j' & X & H). injection X as -> ->. split; [reflexivity|]. apply in_app_or in H as [H|H].
      + apply (idxs_in _ _ _ _ Ea) in H as (k & Hk & Ek'). exists k. split; [exact Ek'|]. left. eauto.
      + apply (idxs_in _ _ _ _ Eb) in H as (k & Hk & Ek'). apply (filter_combine _ _ _ _ Ek) in Hk as [Hk Kp]. apply Hps in Hk as [Hk Pk]. exists k. split; [exact Ek'|]. right. auto.
    - intros (X & k & Ej & H). apply Ok_inj in X. subst i'. exists j. split; [reflexivity|]. apply in_or_app. destruct H as [(l0 & El0 & Hk)|(Hk & Pk & Kp)].
      + left. apply Ok_inj in El0. subst l0. apply (idxs_in _ _ _ _ Ea). eauto.
      + right. apply (idxs_in _ _ _ _ Eb). exists k. split; [|exact Ej]. apply (filter_combine _ _ _ _ Ek). split; [apply Hps; auto|exact Kp]. }
  rewrite (mapM_concat_in _ _ _ (i, j) El). split.
  - intros (p & y & Hp & E & H). apply (Body p y Hp E) in H as (Ei & k & Ej & H). apply Hps in Hp as [Hp P]. exists p, k. auto.
  - intros (p & k & Hp & P & Ei & Ej & H). assert (Hp' : In p ps) by (apply Hps; auto). destruct (combine_all _ _ _ _ El Hp') as (y & Ey & _). exists p, y. split; [exact Hp'|]. split; [exact Ey|]. apply (Body p y Hp' Ey). eauto.
Qed.
Lemma compute_contains_spec sc fo m i j : compute_contains sc fo = Ok m ->
  (In (i, j) m <-> (i = j /\ i < List.length sc) \/ exists e m', In e fo /\ contains_in sc (snd e) = Ok m' /\ In (i, j) m').
Proof.
  unfold compute_contains. intros E. destruct (mapM _ fo) as [l|] eqn:El; cbn [bind] in E; [|discriminate]. apply Ok_inj in E. subst m. rewrite in_app_iff, (mapM_concat_in _ _ _ (i, j) El), in_map_iff. split.
  - intros [(k & X & H)|H]; [left; injection X as <- <-; apply in_seq in H; lia|right; exact H].
  - intros [[-> L]|H]; [left; exists j; split; [reflexivity|apply in_seq; lia]|right; exact H].
Qed.

(** * Fathers *)
Section Fathers.
  Variable sc : list script.
  Definition known_p (s : script) : Prop := exists x, In x sc /\ str x = str s.
  Lemma known_iff s : known sc s = true <-> known_p s.
  Proof. apply memb_text. Qed.
  Lemma known_not s : known sc s = false <-> ~ known_p s.
  Proof. rewrite <- known_iff. destruct (known sc s); split; congruence. Qed.
  Definition one_step (x : script) : res (list nat) :=
    match x with
    | Null _ => Ok []
    | Mul a b c => if known sc x then do i <- idx sc x; Ok [i]
                   else do p <- recurse_script sc a; do q <- recurse_script sc b; do r <- recurse_script sc c; Ok (p ++ q ++ r)%list
    | _ => if known sc x then do i <- idx sc x; Ok [i] else Ok []
    end.
  Lemma recurse_add cs : recurse_script sc (Add cs) = do l <- mapM one_step cs; Ok (List.concat l).
  Proof.
    cbn [recurse_script]. induction cs as [|x cs IH]; [reflexivity|]. cbn [mapM]. destruct x as [n|p|a b c|ds]; cbn [one_step].
    - rewrite IH. cbn [bind]. destruct (mapM one_step cs); reflexivity.
    - destruct (known sc (Prim p)); [destruct (idx sc (Prim p)); cbn [bind]; [|reflexivity]|cbn [bind]]; rewrite IH; destruct (mapM one_step cs); reflexivity.
    - match goal with |- bind ?m _ = _ => destruct m as [v|]; cbn [bind]; [|reflexivity] end. rewrite IH. destruct (mapM one_step cs); reflexivity.
    - destruct (known sc (Add ds)); [destruct (idx sc (Add ds)); cbn [bind]; [|reflexivity]|cbn [bind]]; rewrite IH; destruct (mapM one_step cs); reflexivity.
  Qed.
  Lemma recurse_one s : is_add s = false -> recurse_script sc s = one_step s.
  Proof. destruct s; try discriminate; reflexivity. Qed.

  Inductive meets : script -> script -> Prop :=
  | meets_here s t : In t (terms_of s) -> known_p t -> meets s t
  | meets_below s a b c x f : In (Mul a b c) (terms_of s) -> ~ known_p (Mul a b c) -> In x [a; b; c] -> meets x f -> meets s f.
  Lemma terms_in s t : In t (terms_of s) <-> In t (terms s) /\ forall n, t <> Null n.
  Proof.
    unfold terms_of, terms. rewrite filter_In. split; intros [H E]; (split; [exact H|]).
    - intros n ->. discriminate.
    - destruct t; auto. exfalso. eapply E. reflexivity.
  Qed.

  Lemma recurse_spec s : forall l i, recurse_script sc s = Ok l -> (In i l <-> exists f, meets s f /\ idx sc f = Ok i).
  Proof.
    (* what one term gives *)
    assert (One : forall t, (forall a b c, t = Mul a b c -> forall x l i, In x [a; b; c] -> recurse_script sc x = Ok l -> (In i l <-> exists f, meets x f /\ idx sc f = Ok i)) ->
      forall l i, one_step t = Ok l -> (In i l <-> exists f, (forall n, t <> Null n) /\ (known_p t /\ f = t \/ exists a b c x, t = Mul a b c /\ ~ known_p t /\ In x [a; b; c] /\ meets x f) /\ idx sc f = Ok i)).
    { intros t IH l i E. destruct t as [n|p|a b c|ds]; cbn [one_step] in E.
      - apply Ok_inj in E. subst l. split; [intros []|]. intros (f & N & _). exfalso. apply (N n). reflexivity.
      - destruct (known sc (Prim p)) eqn:K.
        + apply known_iff in K. destruct (idx sc (Prim p)) as [j|] eqn:Ej; cbn [bind] in E; [|discriminate]. apply Ok_inj in E. subst l. split.
          * intros [<-|[]]. exists (Prim p). split; [discriminate|auto].
          * intros (f & _ & [[_ ->]|(a & b & c & x & X & _)] & Ef); [left; congruence|discriminate].
        + apply known_not in K. apply Ok_inj in E. subst l. split; [intros []|]. intros (f & _ & [[X _]|(a & b & c & x & X & _)] & _); [contradiction|discriminate].
      - destruct (known sc (Mul a b c)) eqn:K.
        + apply known_iff in K. destruct (idx sc (Mul a b c)) as [j|] eqn:Ej; cbn [bind] in E; [|discriminate]. apply Ok_inj in E. subst l. split.
          * intros [<-|[]]. exists (Mul a b c). split; [discriminate|auto].
          * intros (f & _ & [[_ ->]|(a' & b' & c' & x & X & Kn & _)] & Ef); [left; congruence|contradiction].
        + apply known_not in K. destruct (recurse_script sc a) as [la|] eqn:Ea; cbn [bind] in E; [|discriminate]. destruct (recurse_script sc b) as [lb|] eqn:Eb; cbn [bind] in E; [|discriminate]. destruct (recurse_script sc c) as [lc|] eqn:Ec; cbn [bind] in E; [|discriminate]. apply Ok_inj in E. subst l.
          pose proof (IH a b c eq_refl a la i (or_introl eq_refl) Ea) as Ha. pose proof (IH a b c eq_refl b lb i (or_intror (or_introl eq_refl)) Eb) as Hb. pose proof (IH a b c eq_refl c lc i (or_intror (or_intror (or_introl eq_refl))) Ec) as Hc.
          rewrite !in_app_iff, Ha, Hb, Hc. split.
          * intros [(f & M & Ef)|[(f & M & Ef)|(f & M & Ef)]]; exists f; (split; [discriminate|]); (split; [right|exact Ef]); [exists a, b, c, a|exists a, b, c, b|exists a, b, c, c]; simpl; auto 12.
          * intros (f & _ & [[X _]|(a' & b' & c' & x & X & _ & Hx & M)] & Ef); [contradiction|]. injection X as <- <- <-. destruct Hx as [<-|[<-|[<-|[]]]]; eauto.
      - destruct (known sc (Add ds)) eqn:K.
        + apply known_iff in K. destruct (idx sc (Add ds)) as [j|] eqn:Ej; cbn [bind] in E; [|discriminate]. apply Ok_inj in E. subst l. split.
          * intros [<-|[]]. exists (Add ds). split; [discriminate|auto].
          * intros (f & _ & [[_ ->]|(a & b & c & x & X & _)] & Ef); [left; congruence|discriminate].
        + apply known_not in K. apply Ok_inj in E. subst l. split; [intros []|]. intros (f & _ & [[X _]|(a & b & c & x & X & _)] & _); [contradiction|discriminate]. }
    assert (Up : forall s t f, In t (terms s) -> (forall n, t <> Null n) -> (known_p t /\ f = t \/ exists a b c x, t = Mul a b c /\ ~ known_p t /\ In x [a; b; c] /\ meets x f) -> meets s f).
    { intros s0 t f Ht N [[K ->]|(a & b & c & x & -> & K & Hx & M)]; [apply meets_here; [apply terms_in; auto|exact K]|]. eapply meets_below; [apply terms_in; split; [exact Ht|exact N]|exact K|exact Hx|exact M]. }
    assert (Down : forall s f, meets s f -> exists t, In t (terms s) /\ (forall n, t <> Null n) /\ (known_p t /\ f = t \/ exists a b c x, t = Mul a b c /\ ~ known_p t /\ In x [a; b; c] /\ meets x f)).
    { intros s0 f M. inversion M as [? ? Ht K|? a b c x ? Ht K Hx M']; subst; apply terms_in in Ht as [Ht N]; [exists f; auto|]. exists (Mul a b c). split; [exact Ht|]. split; [exact N|]. right. exists a, b, c, x. auto. }
    induction s as [n|p|a b c IHa IHb IHc|cs IH] using script_ind'; intros l i E.
    4:{ rewrite recurse_add in E. destruct (mapM one_step cs) as [ls|] eqn:El; cbn [bind] in E; [|discriminate]. apply Ok_inj in E. subst l. rewrite (mapM_concat_in _ _ _ i El). rewrite Forall_forall in IH.
        assert (O : forall t y, In t cs -> one_step t = Ok y -> (In i y <-> exists f, (forall n, t <> Null n) /\ (known_p t /\ f = t \/ exists a b c x, t = Mul a b c /\ ~ known_p t /\ In x [a; b; c] /\ meets x f) /\ idx sc f = Ok i)).
        { intros t y Ht Ey. destruct t as [n|p|a b c|ds].
          - apply One; [discriminate|exact Ey].
          - apply One; [discriminate|exact Ey].
          - destruct (known sc (Mul a b c)) eqn:K.
            + cbn [one_step] in Ey. rewrite K in Ey. apply known_iff in K. destruct (idx sc (Mul a b c)) as [j|] eqn:Ej; cbn [bind] in Ey; [|discriminate]. apply Ok_inj in Ey. subst y. split.
              * intros [<-|[]]. exists (Mul a b c). split; [discriminate|auto].
              * intros (f & _ & [[_ ->]|(a' & b' & c' & x & X & Kn & _)] & Ef); [left; congruence|contradiction].
            + apply known_not in K. pose proof (IH _ Ht y i) as H. rewrite recurse_one in H by reflexivity. specialize (H Ey). rewrite H. split.
              * intros (f & M & Ef). exists f. apply Down in M as (t & [<-|[]] & N & X). auto.
              * intros (f & N & X & Ef). exists f. split; [|exact Ef]. eapply Up; [left; reflexivity|exact N|exact X].
          - apply One; [discriminate|exact Ey]. }
        split.
        - intros (t & y & Ht & Ey & Hi). apply (O t y Ht Ey) in Hi as (f & N & X & Ef). exists f. split; [|exact Ef]. eapply Up; [exact Ht|exact N|exact X].
        - intros (f & M & Ef). apply Down in M as (t & Ht & N & X). cbn [terms] in Ht. destruct (combine_all _ _ _ _ El Ht) as (y & Ey & _). exists t, y. split; [exact Ht|]. split; [exact Ey|]. apply (O t y Ht Ey). eauto. }
    all: rewrite recurse_one in E by reflexivity.
    - rewrite (One (Null n) ltac:(discriminate) l i E). split.
      + intros (f & N & _). exfalso. apply (N n). reflexivity.
      + intros (f & M & _). apply Down in M as (t & [<-|[]] & N & _). exfalso. apply (N n). reflexivity.
    - rewrite (One (Prim p) ltac:(discriminate) l i E). split.
      + intros (f & N & X & Ef). exists f. split; [|exact Ef]. eapply Up; [left; reflexivity|exact N|exact X].
      + intros (f & M & Ef). apply Down in M as (t & [<-|[]] & N & X). eauto.
    - assert (H : forall a0 b0 c0, Mul a b c = Mul a0 b0 c0 -> forall x l i, In x [a0; b0; c0] -> recurse_script sc x = Ok l -> (In i l <-> exists f, meets x f /\ idx sc f = Ok i)).
      { intros a0 b0 c0 X x l0 i0 Hx Ex. injection X as <- <- <-. destruct Hx as [<-|[<-|[<-|[]]]]; auto. }
      rewrite (One (Mul a b c) H l i E). split.
      + intros (f & N & X & Ef). exists f. split; [|exact Ef]. eapply Up; [left; reflexivity|exact N|exact X].
      + intros (f & M & Ef). apply Down in M as (t & [<-|[]] & N & X). eauto.
  Qed.
  Lemma father_spec n m i j : compute_father sc n = Ok m -> (In (i, j) m <-> exists s a b c f, In s sc /\ idx sc s = Ok i /\ In (Mul a b c) (terms s) /\ meets (nth n [a; b; c] (Null 0)) f /\ idx sc f = Ok j).
  Proof.
    unfold compute_father. intros E. destruct (mapM (fathers sc n) sc) as [l|] eqn:El; cbn [bind] in E; [|discriminate]. apply Ok_inj in E. subst m. rewrite (mapM_concat_in _ _ _ (i, j) El).
    assert (B : forall s y, fathers sc n s = Ok y -> (In (i, j) y <-> idx sc s = Ok i /\ exists a b c f, In (Mul a b c) (terms s) /\ meets (nth n [a; b; c] (Null 0)) f /\ idx sc f = Ok j)).
    { intros s y Ey. unfold fathers in Ey. destruct (idx sc s) as [i'|] eqn:Ei; cbn [bind] in Ey; [|discriminate]. destruct (mapM _ (terms s)) as [ls|] eqn:Es; cbn [bind] in Ey; [|discriminate]. apply Ok_inj in Ey. subst y. unfold pairs. rewrite in_map_iff. split.
      - intros (j' & X & H). injection X as -> ->. split; [reflexivity|]. apply (mapM_concat_in _ _ _ j Es) in H as (x & y & Hx & Ex & Hy). destruct x as [| |a b c|]; try (apply Ok_inj in Ex; subst y; destruct Hy). exists a, b, c. apply (recurse_spec _ y j Ex) in Hy as (f & M & Ef). eauto.
      - intros (X & a & b & c & f & Ht & M & Ef). apply Ok_inj in X. subst i'. exists j. split; [reflexivity|]. apply (mapM_concat_in _ _ _ j Es). destruct (combine_all _ _ _ _ Es Ht) as (y & Ey & _). exists (Mul a b c), y. split; [exact Ht|]. split; [exact Ey|]. apply (recurse_spec _ y j Ey). eauto. }
    split.
    - intros (s & y & Hs & Ey & H). apply (B s y Ey) in H as (Ei & a & b & c & f & H). exists s, a, b, c, f. tauto.
    - intros (s & a & b & c & f & Hs & Ei & H). destruct (combine_all _ _ _ _ El Hs) as (y & Ey & _). exists s, y. split; [exact Hs|]. split; [exact Ey|]. apply (B s y Ey). split; [exact Ei|]. exists a, b, c, f. exact H.
  Qed.
End Fathers.
