(** Lemmas on lookups and listings. *)
From Coq Require Import List String Ascii Bool NArith Arith Lia Permutation Sorted.
From Verif Require Import Base Script ScriptStrProofs ScriptEqProofs SortProofs Dictionary Cache TransactionsProofs Database DatabaseSpec DatabaseRefine DatabaseProofs DatabasePath DatabasePathProofs Pull Paradigms Usl Sfun UslParser Listing ListingProofs Query QuerySpec.
Import ListNotations.
Local Open Scope string_scope.

Section Group.
  Context {K V : Type} (eqb : K -> K -> bool) (E : forall a b, eqb a b = true <-> a = b).
  Lemma eqb_dec a b : eqb a b = true /\ a = b \/ eqb a b = false /\ a <> b.
  Proof.
    destruct (eqb a b) eqn:X; [left; split; [reflexivity|now apply E]|right; split; [reflexivity|]].
    intros ->. rewrite (proj2 (E b b) eq_refl) in X. discriminate.
  Qed.
  Lemma append_keys (d : list (K * list V)) k v : (In k (map fst d) -> map fst (dict_append eqb d k v) = map fst d) /\ (~ In k (map fst d) -> map fst (dict_append eqb d k v) = (map fst d ++ [k])%list).
  Proof.
    induction d as [|[k' vs] d [IH1 IH2]]; [split; [intros []|reflexivity]|]. cbn [dict_append map fst]. destruct (eqb_dec k k') as [[-> ->]|[-> N]].
    - split; [reflexivity|intros X; destruct X; now left].
    - cbn [map fst]. split; [intros [X|X]; [congruence|now rewrite IH1]|intros X; rewrite IH2; [reflexivity|intros Y; apply X; now right]].
  Qed.
  Lemma append_in (d : list (K * list V)) k v q vs : NoDup (map fst d) -> In (q, vs) (dict_append eqb d k v) <->
    (q <> k /\ In (q, vs) d) \/ (q = k /\ ((exists ws, In (k, ws) d /\ vs = (ws ++ [v])%list) \/ (~ In k (map fst d) /\ vs = [v]))).
  Proof.
    induction d as [|[k' ws] d IH]; intros N; cbn [dict_append map fst In].
    - split; [intros [[= <- <-]|[]]; right; split; auto; right; split; auto|intros [[_ []]|[-> [(? & [] & _)|[_ ->]]]]; now left].
    - cbn [map fst] in N. apply NoDup_cons_iff in N. destruct N as [N1 N]. specialize (IH N). destruct (eqb_dec k k') as [[-> ->]|[-> D]]; cbn [In].
      + split.
        * intros [[= <- <-]|H]; [right; split; auto; left; exists ws; auto|]. left. split; auto. intros ->. apply N1. now apply (in_map fst) in H.
        * intros [[D [[= -> ->]|H]]|[-> [(xs & [[= <-]|H] & ->)|[H _]]]]; [congruence|auto|auto|destruct N1; now apply (in_map fst) in H|destruct H; now left].
      + rewrite IH. split.
        * intros [[= <- <-]|[H|H]]; [left; split; auto|left; tauto|]. right. destruct H as [-> [(xs & H & ->)|[H ->]]]; split; auto; [left; exists xs; auto|right; split; auto; intros [X|X]; [congruence|auto]].
        * intros [[X [H|H]]|[-> [(xs & [H|H] & ->)|[H ->]]]]; auto; [congruence|right; right; split; auto; left; exists xs; auto|right; right; split; auto; right; split; auto].
  Qed.
  Lemma append_nodup (d : list (K * list V)) k v : NoDup (map fst d) -> NoDup (map fst (dict_append eqb d k v)).
  Proof.
    intros N. destruct (append_keys d k v) as [A B]. assert (D : In k (map fst d) \/ ~ In k (map fst d)).
    { clear -E. induction (map fst d) as [|x l IH]; [right; intros []|]. destruct (eqb_dec x k) as [[_ ->]|[_ X]]; [left; now left|]. destruct IH as [IH|IH]; [left; now right|right; intros [Y|Y]; auto]. }
    destruct D as [D|D]; [now rewrite A|]. rewrite B by auto. apply (Permutation_NoDup (Permutation_cons_append _ _)). now constructor.
  Qed.
  Lemma key_dec (l : list K) k : In k l \/ ~ In k l.
  Proof. induction l as [|x l IH]; [right; intros []|]. destruct (eqb_dec x k) as [[_ ->]|[_ X]]; [left; now left|]. destruct IH as [IH|IH]; [left; now right|right; intros [Y|Y]; auto]. Qed.
  Definition of_key (l : list (K * V)) (k : K) : list V := map snd (filter (fun e => eqb (fst e) k) l).
  Lemma of_key_app l m k : of_key (l ++ m)%list k = (of_key l k ++ of_key m k)%list.
  Proof. unfold of_key. now rewrite filter_app, map_app. Qed.
  Lemma of_key_none l k : of_key l k = [] <-> ~ In k (map fst l).
  Proof.
    unfold of_key. induction l as [|[q v] l IH]; [cbn; tauto|]. cbn [filter map fst In]. destruct (eqb_dec q k) as [[-> ->]|[-> D]]; cbn [map]; [split; [discriminate|tauto]|]. rewrite IH. tauto.
  Qed.
  Lemma group_app (l : list (K * V)) e : group_by eqb (l ++ [e])%list = dict_append eqb (group_by eqb l) (fst e) (snd e).
  Proof. unfold group_by. now rewrite fold_left_app. Qed.
  Lemma group_spec (l : list (K * V)) : NoDup (map fst (group_by eqb l)) /\ forall k vs, In (k, vs) (group_by eqb l) <-> vs = of_key l k /\ vs <> [].
  Proof.
    rewrite <- (rev_involutive l). induction (rev l) as [|[k v] m IH].
    - split; [constructor|]. cbn. intros k vs. split; [intros []|intros [-> X]; now destruct X].
    - cbn [rev]. rewrite group_app. set (l' := rev m) in *. destruct IH as [N IH]. cbn [fst snd]. split; [now apply append_nodup|]. intros q vs. rewrite append_in by auto. rewrite of_key_app. unfold of_key at 2. cbn [filter fst].
      assert (Kn : In k (map fst (group_by eqb l')) <-> In k (map fst l')).
      { destruct (key_dec (map fst l') k) as [X|X].
        - split; auto. intros _. assert (Y : of_key l' k <> []) by (intros Z; apply of_key_none in Z; auto). change k with (fst (k, of_key l' k)). apply in_map. apply IH. auto.
        - split; [|tauto]. intros Y. apply in_map_iff in Y. destruct Y as ([q' ws] & E' & Y). cbn in E'. subst q'. apply IH in Y. destruct Y as [-> Y]. apply of_key_none in X. congruence. }
      destruct (eqb_dec k q) as [[X <-]|[X D]]; rewrite X; cbn [map snd].
      + split.
        * intros [[D _]|[_ [(ws & H & ->)|[H ->]]]]; [congruence| |].
          -- apply IH in H. destruct H as [-> H]. split; auto. now destruct (of_key l' k).
          -- rewrite Kn in H. apply of_key_none in H. rewrite H. split; [reflexivity|discriminate].
        * intros [-> _]. right. split; auto. destruct (key_dec (map fst l') k) as [Y|Y].
          -- left. exists (of_key l' k). split; auto. apply IH. split; auto. intros Z. apply of_key_none in Z. auto.
          -- right. rewrite Kn. split; auto. apply of_key_none in Y. now rewrite Y.
      + rewrite app_nil_r. split; [intros [[_ H]|[H _]]; [now apply IH|congruence]|intros H; left; split; [congruence|now apply IH]].
  Qed.
  Lemma group_keys (l : list (K * V)) k : In k (map fst (group_by eqb l)) <-> In k (map fst l).
  Proof.
    destruct (group_spec l) as [_ G]. split.
    - intros H. apply in_map_iff in H. destruct H as ([q vs] & <- & H). apply G in H. destruct H as [-> H]. cbn. destruct (key_dec (map fst l) q) as [Y|Y]; auto. apply of_key_none in Y. congruence.
    - intros H. change k with (fst (k, of_key l k)). apply in_map, G. split; auto. intros X. apply of_key_none in X. auto.
  Qed.
  Lemma group_sorted (before : K -> K -> Prop) (l : list (K * V)) : (forall a b, ~ before b a -> a <> b -> before a b) -> StronglySorted (fun a b => ~ before b a) (map fst l) -> StronglySorted before (map fst (group_by eqb l)).
  Proof.
    intros T. rewrite <- (rev_involutive l). induction (rev l) as [|[k v] m IH]; intros S; [constructor|]. cbn [rev] in *. rewrite group_app. set (l' := rev m) in *. rewrite map_app in S. cbn [map fst snd] in *.
    assert (S' : StronglySorted (fun a b => ~ before b a) (map fst l') /\ forall q, In q (map fst l') -> ~ before k q).
    { clear -S. induction (map fst l') as [|x xs IH]; [split; [constructor|intros q []]|]. cbn [app] in S. apply StronglySorted_inv in S. destruct S as [S F]. destruct (IH S) as [S1 S2]. rewrite Forall_forall in F. split.
      - constructor; auto. apply Forall_forall. intros y Hy. apply F, in_app_iff. auto.
      - intros q [<-|Hq]; [apply F, in_app_iff; right; now left|auto]. }
    destruct S' as [S1 S2]. specialize (IH S1). destruct (append_keys (group_by eqb l') k v) as [A B]. destruct (key_dec (map fst (group_by eqb l')) k) as [D|D]; [now rewrite A|]. rewrite B by auto.
    assert (F : Forall (fun q => before q k) (map fst (group_by eqb l'))).
    { apply Forall_forall. intros q Hq. apply T; [apply S2; now apply group_keys|intros ->; auto]. }
    clear -IH F. induction IH as [|x xs S IH X]; [repeat constructor|]. cbn [app]. apply Forall_cons_iff in F. destruct F as [F1 F]. constructor; [now apply IH|]. apply Forall_app. split; auto.
  Qed.
End Group.

Lemma dkey_eqb_spec a b : dkey_eqb a b = true <-> a = b.
Proof. destruct a as [[i l] d], b as [[j m] e]. unfold dkey_eqb. rewrite !andb_true_iff, !String.eqb_eq. split; [intros [[-> ->] ->]; auto|intros [= -> -> ->]; auto]. Qed.
Lemma skey_eqb_spec a b : skey_eqb a b = true <-> a = b.
Proof. destruct a as [i l], b as [j m]. unfold skey_eqb. cbn. rewrite !andb_true_iff, !String.eqb_eq. split; [intros [-> ->]; auto|intros [= -> ->]; auto]. Qed.
Lemma string_lt_dec a b : string_lt a b = false -> a <> b -> string_lt b a = true.
Proof. intros H N. destruct (string_lt b a) eqn:X; auto. destruct N. now apply string_lt_total. Qed.
Lemma dkey_total a b : ~ dkey_before b a -> a <> b -> dkey_before a b.
Proof.
  destruct a as [[i l] d], b as [[j m] e]. unfold dkey_before. intros H N. destruct (string_lt i j) eqn:X; auto. right. assert (E : i = j) by (destruct (string_lt j i) eqn:Y; [tauto|now apply string_lt_total]). split; auto. subst j.
  destruct (string_lt l m) eqn:X1; auto. right. assert (E : l = m) by (destruct (string_lt m l) eqn:Y; [tauto|now apply string_lt_total]). split; auto. subst m.
  destruct (string_lt d e) eqn:X2; auto. destruct N. f_equal. destruct (string_lt e d) eqn:Y; [tauto|now apply string_lt_total].
Qed.
Lemma skey_total a b : ~ skey_before b a -> a <> b -> skey_before a b.
Proof.
  destruct a as [i l], b as [j m]. unfold skey_before. cbn [fst snd]. intros H N. destruct (string_lt i j) eqn:X; auto. right. assert (E : i = j) by (destruct (string_lt j i) eqn:Y; [tauto|now apply string_lt_total]). split; auto. subst j.
  destruct (string_lt l m) eqn:X1; auto. destruct N. f_equal. destruct (string_lt m l) eqn:Y; [tauto|now apply string_lt_total].
Qed.
Lemma row4_sorted rows : StronglySorted (fun x y => row4_lt y x = false) (sort row4_lt rows).
Proof.
  apply (sort_sorted row4_lt (fun _ => True)).
  - intros [[[i k] c] v] [[[i' k'] c'] v'] [[[i2 k2] c2] v2] _ _ _. rewrite !row4_lex. apply lex_trans. apply lex_trans. apply string_lt_trans.
  - apply row4_irr.
  - intros [[[i k] c] v] [[[i' k'] c'] v'] [[[i2 k2] c2] v2] _ _ _. rewrite !row4_lex. apply lex_neg. apply lex_neg. intros A B. eapply string_le_trans; eauto.
  - apply Forall_forall. auto.
Qed.
Lemma row3_lex x y : row_lt x y = let '(i, k, _) := x in let '(j, l, _) := y in lex i j (string_lt k l).
Proof. destruct x as [[i k] v], y as [[j l] v']. reflexivity. Qed.
Lemma row3_sorted rows : StronglySorted (fun x y => row_lt y x = false) (sort row_lt rows).
Proof.
  apply (sort_sorted row_lt (fun _ => True)).
  - intros [[i k] v] [[i' k'] v'] [[i2 k2] v2] _ _ _. rewrite !row3_lex. apply lex_trans. apply string_lt_trans.
  - intros [[i k] v]. unfold row_lt. rewrite !string_lt_irrefl, andb_false_r. reflexivity.
  - intros [[i k] v] [[i' k'] v'] [[i2 k2] v2] _ _ _. rewrite !row3_lex. apply lex_neg. intros A B. eapply string_le_trans; eauto.
  - apply Forall_forall. auto.
Qed.
Lemma sorted_filter_map {A B} (R : A -> A -> Prop) (Q : B -> B -> Prop) (P : A -> bool) (f : A -> B) l : (forall x y, R x y -> Q (f x) (f y)) -> StronglySorted R l -> StronglySorted Q (map f (filter P l)).
Proof.
  intros H S. induction S as [|x l S IH F]; [constructor|]. cbn [filter]. destruct (P x); [|exact IH]. cbn [map]. constructor; auto. apply Forall_forall. intros y Hy. apply in_map_iff in Hy. destruct Hy as (z & <- & Hz). apply filter_In in Hz. rewrite Forall_forall in F. apply H, F, Hz.
Qed.
Lemma at_level_part o x : at_level o x = true <-> has_part o x.
Proof. unfold has_part. destruct o as [y|]; cbn; [rewrite String.eqb_eq|]; split; auto; intros; [right; congruence|destruct H; [discriminate|congruence]]. Qed.

(** The filtered, sorted rows of a key are the rows of the key. *)
Definition dcell (r : string * string * string * string) : dkey * option string := let '(i, l, d, v) := r in ((i, l, d), pandas_cell v).
Definition scell (r : string * string * string) : skey * string := let '(i, k, v) := r in ((i, k), v).
Lemma values_sorted rows i l d : values_of (sort row4_lt rows) i l d = values_of rows i l d.
Proof.
  unfold values_of. f_equal. apply filter_sort.
  intros [[[i1 l1] d1] v1] [[[i2 l2] d2] v2]. rewrite !andb_true_iff, !String.eqb_eq. intros [[-> ->] ->] [[-> ->] ->]. exact (row4_irr (i, l, d, v1)).
Qed.
Lemma svalues_sorted rows i k : svalues_of (sort row_lt rows) i k = svalues_of rows i k.
Proof.
  unfold svalues_of. f_equal. apply filter_sort.
  intros [[i1 k1] v1] [[i2 k2] v2]. rewrite !andb_true_iff, !String.eqb_eq. intros [-> ->] [-> ->]. unfold row_lt. rewrite !string_lt_irrefl, andb_false_r. reflexivity.
Qed.
Lemma filter_filter_map {A B} (P : A -> bool) (Q : B -> bool) (f : A -> B) l : filter Q (map f (filter P l)) = map f (filter (fun x => (P x && Q (f x))%bool) l).
Proof. induction l as [|x l IH]; [reflexivity|]. cbn [filter]. destruct (P x); cbn [map filter andb]; [destruct (Q (f x)); cbn [map]; congruence|exact IH]. Qed.
Definition dsel (i l d : option string) (r : string * string * string * string) : bool := let '(i', l', d', _) := r in (at_level i i' && at_level l l' && at_level d d')%bool.
Definition ssel (i k : option string) (r : string * string * string) : bool := let '(i', k', _) := r in (at_level i i' && at_level k k')%bool.
Lemma of_dkey rows i l d k : of_key dkey_eqb (map dcell (filter (dsel i l d) rows)) k = if dsel i l d (k, "") then row_values rows k else [].
Proof.
  unfold of_key. destruct k as [[i' l'] d']. unfold dkey in *. unfold row_values, values_of. rewrite filter_filter_map, !map_map.
  induction rows as [|[[[i1 l1] d1] v1] rows IH]; [destruct (dsel _ _ _ _); reflexivity|]. cbn [filter].
  change (fst (dcell (i1, l1, d1, v1))) with (i1, l1, d1). unfold dkey_eqb at 1.
  destruct (String.eqb i1 i' && String.eqb l1 l' && String.eqb d1 d')%bool eqn:Y.
  - rewrite andb_true_r. apply andb_true_iff in Y. destruct Y as [Y Y3]. apply andb_true_iff in Y. destruct Y as [Y1 Y2]. apply String.eqb_eq in Y1, Y2, Y3. subst.
    change (dsel i l d (i', l', d', v1)) with (dsel i l d (i', l', d', "")) in *. destruct (dsel i l d (i', l', d', "")) eqn:X; [|exact IH]. cbn [map]. rewrite IH. reflexivity.
  - rewrite andb_false_r. exact IH.
Qed.
Lemma of_skey rows i k q : of_key skey_eqb (map scell (filter (ssel i k) rows)) q = if ssel i k (q, "") then srow_values rows q else [].
Proof.
  unfold of_key. destruct q as [i' k']. unfold skey in *. unfold srow_values, svalues_of. cbn [fst snd]. rewrite filter_filter_map, !map_map.
  induction rows as [|[[i1 k1] v1] rows IH]; [destruct (ssel _ _ _); reflexivity|]. cbn [filter].
  change (fst (scell (i1, k1, v1))) with (i1, k1). unfold skey_eqb at 1. cbn [fst snd].
  destruct (String.eqb i1 i' && String.eqb k1 k')%bool eqn:Y.
  - rewrite andb_true_r. apply andb_true_iff in Y. destruct Y as [Y1 Y2]. apply String.eqb_eq in Y1, Y2. subst.
    change (ssel i k (i', k', v1)) with (ssel i k (i', k', "")) in *. destruct (ssel i k (i', k', "")) eqn:X; [|exact IH]. cbn [map]. rewrite IH. reflexivity.
  - rewrite andb_false_r. exact IH.
Qed.
Lemma dsel_asked i l d k v : dsel i l d (k, v) = true <-> asked i l d k.
Proof. destruct k as [[i' l'] d']. unfold dsel, asked. rewrite !andb_true_iff, !at_level_part. tauto. Qed.
Lemma ssel_asked i k q v : ssel i k (q, v) = true <-> sasked i k q.
Proof. destruct q as [i' k']. unfold ssel, sasked. rewrite !andb_true_iff, !at_level_part. tauto. Qed.
Definition dans (rows : list (string * string * string * string)) i l d := group_by dkey_eqb (map dcell (filter (dsel i l d) (sort row4_lt rows))).
Definition sans (rows : list (string * string * string)) i k := group_by skey_eqb (map scell (filter (ssel i k) (sort row_lt rows))).
Lemma row_values_sorted rows k : row_values (sort row4_lt rows) k = row_values rows k.
Proof. destruct k as [[i l] d]. unfold row_values. now rewrite values_sorted. Qed.
Lemma dans_spec rows i l d : StronglySorted dkey_before (map fst (dans rows i l d)) /\ NoDup (map fst (dans rows i l d)) /\
  forall k vs, In (k, vs) (dans rows i l d) <-> asked i l d k /\ vs = row_values rows k /\ vs <> [].
Proof.
  unfold dans. destruct (group_spec dkey_eqb dkey_eqb_spec (map dcell (filter (dsel i l d) (sort row4_lt rows)))) as [N G]. split; [|split; [exact N|]].
  - apply (group_sorted dkey_eqb dkey_eqb_spec); [apply dkey_total|]. rewrite map_map.
    apply (sorted_filter_map (fun x y => row4_lt y x = false)); [|apply row4_sorted].
    intros [[[i1 l1] d1] v1] [[[i2 l2] d2] v2]. rewrite row4_lex. cbn [dcell fst dkey_before]. intros H C. assert (T : lex i2 i1 (lex l2 l1 (string_lt d2 d1)) = true) by (apply lex_true; destruct C as [C|[-> [C|[-> C]]]]; [now left|right; split; auto; apply lex_true; now left|right; split; auto; apply lex_true; right; auto]). congruence.
  - intros k vs. rewrite G, of_dkey, row_values_sorted. pose proof (dsel_asked i l d k "") as A. unfold dkey in *. destruct (dsel i l d (k, "")); [tauto|]. split; [intros [-> X]; now destruct X|intros [X _]; apply A in X; discriminate].
Qed.
Lemma sans_spec rows i k : StronglySorted skey_before (map fst (sans rows i k)) /\ NoDup (map fst (sans rows i k)) /\
  forall q vs, In (q, vs) (sans rows i k) <-> sasked i k q /\ vs = srow_values rows q /\ vs <> [].
Proof.
  unfold sans. destruct (group_spec skey_eqb skey_eqb_spec (map scell (filter (ssel i k) (sort row_lt rows)))) as [N G]. split; [|split; [exact N|]].
  - apply (group_sorted skey_eqb skey_eqb_spec); [apply skey_total|]. rewrite map_map.
    apply (sorted_filter_map (fun x y => row_lt y x = false)); [|apply row3_sorted].
    intros [[i1 k1] v1] [[i2 k2] v2]. unfold skey_before. cbn [scell fst snd]. rewrite row3_lex. intros H C. assert (T : lex i2 i1 (string_lt k2 k1) = true) by (apply lex_true; destruct C as [C|[-> C]]; auto). congruence.
  - intros q vs. rewrite G, of_skey. assert (srow_values (sort row_lt rows) q = srow_values rows q) as -> by (unfold srow_values; now rewrite svalues_sorted). pose proof (ssel_asked i k q "") as A. unfold skey in *. destruct (ssel i k (q, "")); [tauto|]. split; [intros [-> X]; now destruct X|intros [X _]; apply A in X; discriminate].
Qed.

(** What get_descriptor builds *)
Definition set_langs (its : list (dkey * list (option string))) (c : list (string * list (option string))) :=
  fold_left (fun c e => dict_set c (snd (fst (fst e))) (snd e)) its c.
Lemma descriptor_fold ieml its : forall (f : string -> list (string * list (option string))) C,
  (forall e, In e its -> fst (fst (fst e)) = ieml /\ In (snd (fst e)) C) ->
  fold_left (fun acc e => descriptor_item acc ieml e) its (Ok (map (fun d => (d, f d)) C)) =
  Ok (map (fun d => (d, set_langs (filter (fun e => String.eqb (snd (fst e)) d) its) (f d))) C).
Proof.
  induction its as [|[[[i l] d] vs] its IH]; intros f C H; [reflexivity|]. cbn [fold_left]. destruct (H _ (or_introl eq_refl)) as [Ei Hd]. cbn [fst snd] in Ei, Hd. subst i.
  unfold descriptor_item at 2. cbn [bind]. rewrite String.eqb_refl. cbn [negb]. rewrite map_map. cbn [fst]. rewrite map_id. rewrite (proj2 (inb_In d C) Hd). rewrite map_map. cbn [fst snd].
  rewrite (map_ext _ (fun d' => (d', if String.eqb d d' then dict_set (f d') l vs else f d'))) by (intros d'; now destruct (String.eqb d d')).
  rewrite (IH (fun d' => if String.eqb d d' then dict_set (f d') l vs else f d')) by (intros e He; apply H; now right).
  f_equal. apply map_ext. intros d'. cbn [filter fst snd]. destruct (String.eqb d d'); reflexivity.
Qed.
Lemma descriptor_err ieml its e : fold_left (fun acc e => descriptor_item acc ieml e) its (Err e) = Err e.
Proof. induction its as [|[[[i l] d] vs] its IH]; [reflexivity|]. cbn. exact IH. Qed.
Lemma descriptor_fold_err ieml its : forall (f : string -> list (string * list (option string))) C,
  (forall e, In e its -> fst (fst (fst e)) = ieml) -> (exists e, In e its /\ ~ In (snd (fst e)) C) ->
  fold_left (fun acc e => descriptor_item acc ieml e) its (Ok (map (fun d => (d, f d)) C)) = Err KeyError.
Proof.
  induction its as [|[[[i l] d] vs] its IH]; intros f C H X; [destruct X as (e & [] & _)|]. cbn [fold_left]. pose proof (H _ (or_introl eq_refl)) as Ei. cbn [fst snd] in Ei. subst i.
  unfold descriptor_item at 2. cbn [bind]. rewrite String.eqb_refl. cbn [negb]. rewrite map_map. cbn [fst]. rewrite map_id. destruct (inb d C) eqn:Ed; [|apply descriptor_err]. rewrite map_map. cbn [fst snd].
  rewrite (map_ext _ (fun d' => (d', if String.eqb d d' then dict_set (f d') l vs else f d'))) by (intros d'; now destruct (String.eqb d d')).
  apply (IH (fun d' => if String.eqb d d' then dict_set (f d') l vs else f d')); [intros e He; apply H; now right|]. destruct X as (e & [<-|He] & N); [|now exists e]. cbn in N. apply inb_In in Ed. contradiction.
Qed.
Lemma find_map_set {V} (c : list (string * V)) l v q : q <> l ->
  find (fun e => String.eqb q (fst e)) (map (fun e => if String.eqb l (fst e) then (l, v) else e) c) = find (fun e => String.eqb q (fst e)) c.
Proof.
  intros N. induction c as [|[k w] c IH]; [reflexivity|]. cbn [map find fst]. destruct (String.eqb l k) eqn:E; cbn [find fst].
  - apply String.eqb_eq in E. subst k. rewrite (proj2 (String.eqb_neq q l) N). exact IH.
  - destruct (String.eqb q k); [reflexivity|exact IH].
Qed.
Lemma find_map_this {V} (c : list (string * V)) l v : existsb (fun e => String.eqb l (fst e)) c = true ->
  find (fun e => String.eqb l (fst e)) (map (fun e => if String.eqb l (fst e) then (l, v) else e) c) = Some (l, v).
Proof.
  induction c as [|[k w] c IH]; [discriminate|]. cbn [existsb map find fst]. destruct (String.eqb l k) eqn:E; cbn [find fst orb]; [now rewrite String.eqb_refl|]. rewrite E. exact IH.
Qed.
Lemma find_app {A} (P : A -> bool) a b : find P (a ++ b)%list = match find P a with Some x => Some x | None => find P b end.
Proof. induction a as [|x a IH]; [reflexivity|]. cbn. destruct (P x); [reflexivity|exact IH]. Qed.
Lemma dict_get_set {V} (c : list (string * V)) l v q : dict_get (dict_set c l v) q = if String.eqb q l then Some v else dict_get c q.
Proof.
  unfold dict_get, dict_set. destruct (existsb (fun e => String.eqb l (fst e)) c) eqn:E; destruct (String.eqb q l) eqn:Q.
  - apply String.eqb_eq in Q. subst q. now rewrite find_map_this.
  - rewrite find_map_set; [reflexivity|now apply String.eqb_neq].
  - apply String.eqb_eq in Q. subst q. rewrite find_app. cbn [find fst]. rewrite String.eqb_refl.
    destruct (find (fun e => String.eqb l (fst e)) c) eqn:F; [|reflexivity]. apply find_some in F. assert (X : existsb (fun e => String.eqb l (fst e)) c = true) by (apply existsb_exists; now exists p). congruence.
  - rewrite find_app. cbn [find fst]. rewrite Q. destruct (find (fun e => String.eqb q (fst e)) c); reflexivity.
Qed.
Lemma dict_set_keys {V} (c : list (string * V)) l v : In l (map fst c) -> map fst (dict_set c l v) = map fst c.
Proof.
  intros H. unfold dict_set. assert (existsb (fun e => String.eqb l (fst e)) c = true) as ->. { apply existsb_exists. apply in_map_iff in H. destruct H as (e & <- & H). exists e. split; auto. apply String.eqb_refl. }
  rewrite map_map. apply map_ext. intros [k w]. cbn. destruct (String.eqb_spec l k) as [->|]; reflexivity.
Qed.
Lemma set_langs_get its c l : NoDup (map (fun e => snd (fst (fst e))) its) ->
  (forall vs, dict_get (set_langs its c) l = Some vs <-> (exists e, In e its /\ snd (fst (fst e)) = l /\ snd e = vs) \/ (~ In l (map (fun e : dkey * list (option string) => snd (fst (fst e))) its) /\ dict_get c l = Some vs)).
Proof.
  revert c. induction its as [|[[[i l1] d] ws] its IH]; intros c N vs.
  - cbn. split; [intros H; right; split; auto|intros [(e & [] & _)|[_ H]]; auto].
  - cbn [map fst snd] in N. apply NoDup_cons_iff in N. destruct N as [N1 N]. cbn [set_langs fold_left fst snd]. fold (set_langs its (dict_set c l1 ws)). rewrite (IH _ N vs), dict_get_set. cbn [map fst snd In].
    destruct (String.eqb_spec l l1) as [->|D].
    + split.
      * intros [(e & He & E1 & E2)|[_ [= ->]]]; [destruct N1; rewrite <- E1; now apply (in_map (fun e => snd (fst (fst e))))|]. left. exists (i, l1, d, vs). split; [now left|auto].
      * intros [(e & [<-|He] & E1 & E2)|[X _]]; [cbn in E2; subst ws; right; auto|destruct N1; rewrite <- E1; now apply (in_map (fun e => snd (fst (fst e))))|tauto].
    + split.
      * intros [(e & He & E1 & E2)|[X Y]]; [left; exists e; auto|right; split; auto; intros [Z|Z]; congruence || auto].
      * intros [(e & [<-|He] & E1 & E2)|[X Y]]; [cbn in E1; congruence|left; exists e; auto|right; split; auto].
Qed.
Lemma set_langs_keys its : forall c, (forall e, In e its -> In (snd (fst (fst e))) (map fst c)) -> map fst (set_langs its c) = map fst c.
Proof.
  induction its as [|e its IH]; intros c H; [reflexivity|]. cbn [set_langs fold_left]. fold (set_langs its (dict_set c (snd (fst (fst e))) (snd e))). assert (E : map fst (dict_set c (snd (fst (fst e))) (snd e)) = map fst c) by (apply dict_set_keys, H; now left).
  rewrite IH, E; [reflexivity|]. intros e' He. rewrite E. apply H. now right.
Qed.
Lemma dict_eq {V} (c : list (string * V)) : forall c', NoDup (map fst c) -> map fst c = map fst c' -> (forall k, In k (map fst c) -> dict_get c k = dict_get c' k) -> c = c'.
Proof.
  induction c as [|[k v] c IH]; intros [|[k' v'] c'] N E H; try discriminate; [reflexivity|]. cbn in E. injection E as <- E. cbn [map fst] in N. apply NoDup_cons_iff in N. destruct N as [N1 N].
  pose proof (H k (or_introl eq_refl)) as H1. unfold dict_get in H1. cbn in H1. rewrite String.eqb_refl in H1. cbn in H1. injection H1 as <-. f_equal. apply IH; auto. intros q Hq. specialize (H q (or_intror Hq)). unfold dict_get in *. cbn [find fst] in H. destruct (String.eqb q k) eqn:Q; [apply String.eqb_eq in Q; subst q; contradiction|exact H].
Qed.
