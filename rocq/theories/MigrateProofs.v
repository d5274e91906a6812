(** Proofs about Migrate.v: the folder after the scripts, as a list of records. *)
From Coq Require Import List String Ascii Bool NArith Arith Lia Permutation.
From Verif Require Import Base Script ScriptStrProofs Dictionary Database DatabaseSpec DatabaseProofs DatabaseRefine Properties3 Pull Paradigms Listing ListingProofs
  CacheProofs TransactionsProofs Query QuerySpec QueryProofs ContentProofs Migrate MigrateSpec.
Import ListNotations.
Local Open Scope string_scope.

(** * A value kept is kept as it is *)
Lemma rstrip_rstrip sp s : rstrip sp (rstrip sp s) = rstrip sp s.
Proof.
  induction s as [|c s IH]; [reflexivity|]. cbn [rstrip]. destruct (rstrip sp s) as [|y r] eqn:E.
  - destruct (sp c) eqn:C; [reflexivity|]. cbn [rstrip]. now rewrite C.
  - cbn [rstrip] in *. rewrite IH. reflexivity.
Qed.
Definition starts (sp : ascii -> bool) (s : string) : Prop := match s with EmptyString => True | String c _ => sp c = false end.
Lemma lstrip_starts sp s : starts sp (lstrip sp s).
Proof. induction s as [|c s IH]; [exact I|]. cbn [lstrip]. destruct (sp c) eqn:C; [exact IH|exact C]. Qed.
Lemma starts_lstrip sp s : starts sp s -> lstrip sp s = s.
Proof. destruct s as [|c s]; [reflexivity|]. cbn. now intros ->. Qed.
Lemma starts_rstrip sp s : starts sp s -> starts sp (rstrip sp s).
Proof.
  destruct s as [|c s]; [auto|]. cbn [rstrip starts]. intros C. destruct (rstrip sp s); [rewrite C; exact C|exact C].
Qed.
Lemma rstrip_one_line s : rstrip py_space s = s -> rstrip py_space (one_line s) = one_line s.
Proof.
  induction s as [|c s IH]; intros H; [reflexivity|]. cbn [rstrip] in H. cbn [one_line].
  destruct (rstrip py_space s) as [|y r] eqn:E.
  - destruct (py_space c) eqn:C; [discriminate H|]. clear IH. injection H as H1. subst s.
    destruct (Ascii.eqb c "010") eqn:X.
    + apply Ascii.eqb_eq in X. rewrite X in C. vm_compute in C. discriminate C.
    + cbn. now rewrite C.
  - injection H as H. specialize (IH H). subst s. assert (N : one_line (String y r) <> "") by (intros X; apply (proj1 (one_line_empty _)) in X; discriminate X).
    remember (one_line (String y r)) as z. destruct z as [|a z]; [congruence|]. destruct (Ascii.eqb c "010"); cbn [rstrip] in IH |- *; rewrite IH; reflexivity.
Qed.
Lemma starts_one_line s : starts py_space s -> starts py_space (one_line s).
Proof. destruct s as [|c s]; [auto|]. cbn [one_line starts]. intros C. destruct (Ascii.eqb c "010"); [reflexivity|exact C]. Qed.
Lemma kept_kept v : kept (kept v) = kept v.
Proof.
  unfold kept, normalize_value, strip. set (w := rstrip py_space (lstrip py_space v)).
  assert (S : starts py_space w) by apply starts_rstrip, lstrip_starts.
  assert (R : rstrip py_space w = w) by apply rstrip_rstrip.
  rewrite (starts_lstrip _ (one_line w)) by now apply starts_one_line. rewrite rstrip_one_line by exact R.
  apply one_line_id. apply one_line_no_nl.
Qed.
Lemma svalue_svalue k v w : svalue k v = Some w -> svalue k w = Some w /\ w <> "".
Proof.
  unfold svalue, structure_value. destruct (String.eqb k "inhibition").
  - destruct (mem v INHIBITABLE_RELATIONS) eqn:E; [|discriminate]. intros [= <-]. rewrite E. split; [reflexivity|]. intros ->. discriminate.
  - destruct (mem k ["is_root"; "is_ignored"]); [|discriminate]. destruct (json_bool v) as [[]|]; intros [= <-]; split; reflexivity || discriminate.
Qed.

Definition kept_d (r : drecord) : Prop := kept (snd r) = snd r /\ snd r <> "".
Definition kept_s (r : srecord) : Prop := svalue (snd (fst r)) (snd r) = Some (snd r) /\ snd r <> "".
Lemma records_kept parse ops : forall st, Forall kept_d (fst st) -> Forall kept_s (snd st) ->
  let st' := spec_run parse LANGUAGES DESCRIPTORS_CLASS svalue kept same_or_quoted st ops in Forall kept_d (fst st') /\ Forall kept_s (snd st').
Proof.
  induction ops as [|o ops IH]; intros [D T] HD HT; [auto|]. cbn [spec_run fold_left]. apply IH; clear IH; cbn [fst snd] in *; destruct o as [i l d v|i l d v|i k v|i k v]; cbn [spec_step].
  all: destruct (parse i) as [n|]; cbn [fst snd]; auto.
  - destruct (_ && _)%bool eqn:E; [|exact HD]. cbn [fst]. apply Forall_app. split; [exact HD|]. repeat constructor; cbn [snd]; [apply kept_kept|]. intros X. rewrite X in E. cbn in E. now rewrite andb_false_r in E.
  - rewrite Forall_forall in *. intros r H. apply filter_In in H. apply HD. tauto.
  - destruct (svalue k v); cbn [fst]; auto.
  - destruct (_ && _)%bool; exact HT.
  - destruct (svalue k v) as [w|] eqn:E; cbn [snd]; auto. apply Forall_app. split; [exact HT|]. repeat constructor; cbn [fst snd]; apply (svalue_svalue _ _ _ E).
  - rewrite Forall_forall in *. intros r H. apply filter_In in H. apply HT. tauto.
Qed.

(** * Loops *)
Lemma each_app {A} (f : fsys -> A -> res fsys) l m : forall fs, each f fs (l ++ m)%list = do fs' <- each f fs l; each f fs' m.
Proof. induction l as [|x l IH]; intros fs; [reflexivity|]. cbn [app each]. destruct (f fs x); cbn [bind]; auto. Qed.
Lemma each_nested {K V} (f : K -> fsys -> V -> res fsys) (l : list (K * list V)) : forall fs,
  each (fun fs e => each (f (fst e)) fs (snd e)) fs l = each (fun fs e => f (fst e) fs (snd e)) fs (flat_map (fun e => map (pair (fst e)) (snd e)) l).
Proof.
  induction l as [|[k vs] l IH]; intros fs; [reflexivity|]. cbn [flat_map each fst snd]. rewrite each_app.
  assert (E : each (fun fs e => f (fst e) fs (snd e)) fs (map (pair k) vs) = each (f k) fs vs).
  { clear. revert fs. induction vs as [|v vs IH]; intros fs; [reflexivity|]. cbn [map each fst snd]. destruct (f k fs v); cbn [bind]; auto. }
  rewrite E. destruct (each (f k) fs vs); cbn [bind]; auto.
Qed.

Lemma each_ok {A} (f : fsys -> A -> res fsys) l : forall fs fs', each f fs l = Ok fs' -> forall x, In x l -> exists a b, f a x = Ok b.
Proof.
  induction l as [|y l IH]; intros fs fs' E x H; [destruct H|]. cbn [each] in E. destruct (f fs y) as [g|] eqn:F; [|discriminate]. cbn [bind] in E.
  destruct H as [<-|H]; [eauto|exact (IH _ _ E x H)].
Qed.

Section Flat.
  Context {K V : Type} (eqb : K -> K -> bool) (E : forall a b, eqb a b = true <-> a = b).
  Definition flat (l : list (K * V)) : list (K * V) := flat_map (fun e => map (pair (fst e)) (snd e)) (group_by eqb l).
  Lemma flat_nodup (g : list (K * list V)) k : NoDup (map fst g) ->
    of_key eqb (flat_map (fun e => map (pair (fst e)) (snd e)) g) k = match find (fun e => eqb (fst e) k) g with Some e => snd e | None => [] end.
  Proof.
    induction g as [|[q vs] g IH]; intros N; [reflexivity|]. cbn [map fst] in N. apply NoDup_cons_iff in N as [N1 N2]. cbn [flat_map find fst snd]. rewrite of_key_app, (IH N2).
    destruct (eqb q k) eqn:Q.
    - apply E in Q. subst q. assert (F : find (fun e => eqb (fst e) k) g = None).
      { destruct (find _ g) as [e|] eqn:F; [|reflexivity]. apply find_some in F as [F X]. apply E in X. destruct N1. rewrite <- X. now apply in_map. }
      rewrite F, app_nil_r. unfold of_key. rewrite filter_all; [rewrite map_map; apply map_id|]. intros e H. apply in_map_iff in H as (v & <- & _). apply E. reflexivity.
    - unfold of_key. rewrite filter_none; [reflexivity|]. intros e H. apply in_map_iff in H as (v & <- & _). exact Q.
  Qed.
  Lemma flat_key l k : of_key eqb (flat l) k = of_key eqb l k.
  Proof.
    destruct (group_spec eqb E l) as [N G]. unfold flat. rewrite flat_nodup by exact N.
    destruct (find _ _) as [[q vs]|] eqn:F.
    - apply find_some in F as [F X]. cbn [fst] in X. apply E in X. subst q. apply G in F. cbn. tauto.
    - destruct (of_key eqb l k) as [|v vs] eqn:O; [reflexivity|]. exfalso. assert (I : In (k, of_key eqb l k) (group_by eqb l)) by (apply G; rewrite O; split; [reflexivity|discriminate]).
      apply (find_none _ _ F) in I. cbn in I. assert (eqb k k = true) by now apply E. congruence.
  Qed.
  Lemma flat_in l e : In e (flat l) <-> In e l.
  Proof.
    assert (M : forall m, In e m <-> In (snd e) (of_key eqb m (fst e))).
    { intros m. unfold of_key. rewrite in_map_iff. split; [intros H; exists e; split; [reflexivity|]; apply filter_In; split; [exact H|now apply E]|].
      intros (x & Hx & H). apply filter_In in H as [H X]. apply E in X. destruct x, e. cbn in *. congruence. }
    rewrite (M (flat l)), (M l), flat_key. reflexivity.
  Qed.
End Flat.
Lemma dkey_eq a b : dkey_eqb a b = true <-> a = b.
Proof. destruct a as [[i l] d], b as [[j m] e]. unfold dkey_eqb. rewrite !andb_true_iff, !String.eqb_eq. split; [intros ((-> & ->) & ->); reflexivity|now intros [= -> -> ->]]. Qed.
Lemma skey_eq a b : skey_eqb a b = true <-> a = b.
Proof. destruct a as [i k], b as [j l]. unfold skey_eqb. cbn [fst snd]. rewrite !andb_true_iff, !String.eqb_eq. split; [intros (-> & ->); reflexivity|now intros [= -> ->]]. Qed.

(** * The folder as records *)
Lemma values_app D E i l d : values_of (D ++ E)%list i l d = (values_of D i l d ++ values_of E i l d)%list.
Proof. unfold values_of. now rewrite filter_app, map_app. Qed.
Lemma svalues_app D E i k : svalues_of (D ++ E)%list i k = (svalues_of D i k ++ svalues_of E i k)%list.
Proof. unfold svalues_of. now rewrite filter_app, map_app. Qed.
Lemma values_none D i l d : (forall r, In r D -> dieml r <> i) -> values_of D i l d = [].
Proof. intros H. unfold values_of. rewrite filter_none; [reflexivity|]. intros [[[j l'] d'] v] X. apply H in X. unfold dieml in X. cbn in X. destruct (String.eqb_spec j i); [congruence|reflexivity]. Qed.
Lemma svalues_none D i k : (forall r, In r D -> sieml r <> i) -> svalues_of D i k = [].
Proof. intros H. unfold svalues_of. rewrite filter_none; [reflexivity|]. intros [[j l'] v] X. apply H in X. unfold sieml in X. cbn in X. destruct (String.eqb_spec j i); [congruence|reflexivity]. Qed.
(** The records that are not of the expression [n]. *)
Definition without_d (n : string) (D : list drecord) : list drecord := filter (fun r => negb (String.eqb n (dieml r))) D.
Definition without_s (n : string) (T : list srecord) : list srecord := filter (fun r => negb (String.eqb n (sieml r))) T.
Lemma values_without n D i l d : values_of (without_d n D) i l d = if String.eqb n i then [] else values_of D i l d.
Proof.
  unfold values_of, without_d. rewrite filter_filter. destruct (String.eqb_spec n i) as [->|N].
  - rewrite filter_none; [reflexivity|]. intros [[[j l'] d'] v] _. unfold dieml. cbn [fst]. rewrite (String.eqb_sym j i). destruct (String.eqb i j); [reflexivity|]. apply andb_false_r.
  - f_equal. apply filter_ext_in_. intros [[[j l'] d'] v] _. unfold dieml. cbn [fst]. destruct (String.eqb_spec j i) as [->|]; [|apply andb_false_r]. destruct (String.eqb_spec n i); [contradiction|]. reflexivity.
Qed.
Lemma svalues_without n T i k : svalues_of (without_s n T) i k = if String.eqb n i then [] else svalues_of T i k.
Proof.
  unfold svalues_of, without_s. rewrite filter_filter. destruct (String.eqb_spec n i) as [->|N].
  - rewrite filter_none; [reflexivity|]. intros [[j l'] v] _. unfold sieml. cbn [fst]. rewrite (String.eqb_sym j i). destruct (String.eqb i j); [reflexivity|]. apply andb_false_r.
  - f_equal. apply filter_ext_in_. intros [[j l'] v] _. unfold sieml. cbn [fst]. destruct (String.eqb_spec j i) as [->|]; [|apply andb_false_r]. destruct (String.eqb_spec n i); [contradiction|]. reflexivity.
Qed.

Section Records.
  Variable parse : string -> res string.
  Variable texts : list string.
  Variable path : bool -> string -> string.
  Variable is_desc : string -> bool.
  Notation V := (verbatim parse texts).
  Hypothesis ok : folder_ok V path is_desc.
  Hypothesis idem : forall s n, parse s = Ok n -> In n texts -> parse n = Ok n.
  Hypothesis Tx : forall s, In s texts -> plain s /\ strip byte_space s = s /\ exists n, parse s = Ok n /\ In n texts.
  Notation Inv := (Inv V path).

  Lemma V_text s : In s texts -> V s = Ok s.
  Proof.
    intros H. unfold verbatim. assert (mem s texts = true) as -> by now apply inb_In. destruct (Tx s H) as (_ & _ & n & -> & _). reflexivity.
  Qed.
  Lemma V_ok s n : V s = Ok n -> n = s /\ In s texts.
  Proof.
    unfold verbatim. destruct (mem s texts) eqn:E; [|discriminate]. apply inb_In in E. destruct (parse s); [|discriminate]. cbn. intros [= <-]. auto.
  Qed.
  Lemma text_nonempty s : In s texts -> String.eqb s "" = false.
  Proof. intros H. apply String.eqb_neq. intros ->. exact (parse_empty _ _ _ ok _ (V_text _ H)). Qed.

  (** Adding to the normal form of a text. *)
  Lemma add_inv fs D T t n l d v : Inv fs (D, T) -> t <> "" -> parse t = Ok n -> In n texts -> In l LANGUAGES -> In d DESCRIPTORS_CLASS ->
    kept v = v -> v <> "" -> ~ occurs "013" v ->
    exists fs', add_descriptor parse path fs t l d v = Ok fs' /\ Inv fs' (D ++ [(n, l, d, v)], T)%list.
  Proof.
    intros HI Nt Pt It Hl Hd Kv Nv Cv. pose proof (idem _ _ Pt It) as Pn. pose proof (V_text _ It) as Vn.
    pose proof (step_add V path is_desc ok fs (D, T) n l d v HI) as S. unfold exec_step, exec in S. cbn [spec_step] in S. rewrite Vn in S.
    unfold add_descriptor in *. rewrite (nk_add V path is_desc ok _ _ _ _ Vn) in S.
    assert (E : normalize_key parse true t (Some l) (Some d) false false = if (inb l LANGUAGES && inb d DESCRIPTORS_CLASS)%bool then Ok (n, Some l, Some d) else Err ValueError).
    { unfold normalize_key. apply String.eqb_neq in Nt. rewrite Nt, Pt. apply inb_In in Hl, Hd. rewrite Hl, Hd. cbn [negb andb bind orb].
      assert (truthy (Some l) = true) as -> by (apply inb_In in Hl; destruct Hl as [<-|[<-|[]]]; reflexivity).
      assert (truthy (Some d) = true) as -> by (apply inb_In in Hd; destruct Hd as [<-|[<-|[<-|[<-|[]]]]]; reflexivity). reflexivity. }
    rewrite E. change (mem l LANGUAGES) with (inb l LANGUAGES) in S. change (mem d DESCRIPTORS_CLASS) with (inb d DESCRIPTORS_CLASS) in S.
    apply inb_In in Hl, Hd. rewrite Hl, Hd in S |- *. cbn [andb bind fst] in S |- *.
    destruct (String.eqb_spec (normalize_value v) "") as [X|X]; [apply kept_empty in X; congruence|].
    unfold path_of in *. rewrite Vn in S. rewrite Pn. cbn [bind] in S |- *. eexists. split; [reflexivity|].
    rewrite Kv in S. destruct (String.eqb_spec v ""); [contradiction|]. cbn [negb] in S. apply S. split; [|exact Cv].
    intros m Hm. apply V_ok in Hm as [-> _]. apply (Tx n It).
  Qed.
  Lemma adds_inv fs D T t n k v : Inv fs (D, T) -> t <> "" -> parse t = Ok n -> In n texts -> svalue k v = Some v -> v <> "" ->
    exists fs', add_structure parse path fs t k (Some v) = Ok fs' /\ Inv fs' (D, T ++ [(n, k, v)])%list.
  Proof.
    intros HI Nt Pt It Sv Nv. pose proof (idem _ _ Pt It) as Pn. pose proof (V_text _ It) as Vn.
    assert (Nk : k <> "") by (intros ->; discriminate).
    pose proof (step_adds V path is_desc ok fs (D, T) n k v HI) as S. unfold exec_step, exec in S. cbn [spec_step] in S. rewrite Vn, Sv in S.
    unfold add_structure in *. rewrite (nk_svalue V path is_desc ok _ _ _ _ _ Vn Nv Nk), Sv in S.
    assert (E : normalize_key parse true t (Some k) (Some v) false true = Ok (n, Some k, Some v)).
    { pose proof (nk_svalue V path is_desc ok n n k v false Vn Nv Nk) as X. rewrite Sv in X. unfold normalize_key in X |- *. apply String.eqb_neq in Nt. rewrite Nt, Pt. rewrite (text_nonempty _ It), Vn in X. exact X. }
    rewrite E. cbn [bind] in S |- *. unfold path_of in *. rewrite Vn in S. rewrite Pn. cbn [bind] in S |- *. eexists. split; [reflexivity|].
    apply S. split; [|exact Nv]. intros m Hm. apply V_ok in Hm as [-> _]. apply (Tx n It).
  Qed.

  (** Removing what is stored under the normal form of a text, whatever [normalize]. *)
  Lemma remove_inv b fs D T t n : Inv fs (D, T) -> t <> "" -> parse t = Ok n -> In n texts ->
    exists fs', remove_descriptors parse path b fs t = Ok fs' /\ Inv fs' (without_d n D, T).
  Proof.
    intros HI Nt Pt It. pose proof (idem _ _ Pt It) as Pn. pose proof (V_text _ It) as Vn.
    assert (O : op_ok V (RemoveDescriptor n None None None)).
    { split; [|intros []; reflexivity]. intros m Hm. apply V_ok in Hm as [-> _]. apply (Tx n It). }
    pose proof (step_remove V path is_desc ok fs (D, T) n None None None HI O) as S.
    assert (Ef : spec_step V LANGUAGES DESCRIPTORS_CLASS svalue kept same_or_quoted (D, T) (RemoveDescriptor n None None None) = (without_d n D, T)).
    { cbn [spec_step]. rewrite Vn. f_equal. apply filter_ext_in_. intros [[[i' l'] d'] v'] _. unfold dieml. cbn. now rewrite !andb_true_r. }
    rewrite Ef in S. unfold exec_step, exec, remove_descriptor in S. rewrite (nk_remove V path is_desc ok _ _ _ _ Vn) in S. cbn [okopt andb bind fst] in S.
    unfold path_of in S. rewrite Vn in S. cbn [bind] in S.
    unfold remove_descriptors. assert (E : normalize_key parse true t None None true false = Ok (n, None, None)).
    { unfold normalize_key. apply String.eqb_neq in Nt. rewrite Nt, Pt. reflexivity. }
    rewrite E. cbn [bind fst]. unfold path_of_text. rewrite Pn. cbn [bind]. replace (if b then n else n) with n by now destruct b.
    destruct (fs_get fs (path true n)); eexists; (split; [reflexivity|exact S]).
  Qed.
  Lemma removes_inv b fs D T t n : Inv fs (D, T) -> t <> "" -> parse t = Ok n -> In n texts ->
    exists fs', remove_structures parse path b fs t = Ok fs' /\ Inv fs' (D, without_s n T).
  Proof.
    intros HI Nt Pt It. pose proof (idem _ _ Pt It) as Pn. pose proof (V_text _ It) as Vn.
    assert (O : op_ok V (RemoveStructure n None None)).
    { split; [|intros []; reflexivity]. intros m Hm. apply V_ok in Hm as [-> _]. apply (Tx n It). }
    pose proof (step_removes V path is_desc ok fs (D, T) n None None HI O) as S.
    assert (Ef : spec_step V LANGUAGES DESCRIPTORS_CLASS svalue kept same_or_quoted (D, T) (RemoveStructure n None None) = (D, without_s n T)).
    { cbn [spec_step]. rewrite Vn. f_equal. apply filter_ext_in_. intros [[i' k'] v'] _. unfold sieml. cbn. now rewrite !andb_true_r. }
    rewrite Ef in S. unfold exec_step, exec, remove_structure in S.
    assert (E' : normalize_key V true n None None true true = Ok (n, None, None)) by (unfold normalize_key; rewrite (text_nonempty _ It), Vn; reflexivity).
    rewrite E' in S. cbn [bind] in S. unfold path_of in S. rewrite Vn in S. cbn [bind] in S.
    unfold remove_structures. assert (E : normalize_key parse true t None None true true = Ok (n, None, None)).
    { unfold normalize_key. apply String.eqb_neq in Nt. rewrite Nt, Pt. reflexivity. }
    rewrite E. cbn [bind fst]. unfold path_of_text. rewrite Pn. cbn [bind]. replace (if b then n else n) with n by now destruct b.
    destruct (fs_get fs (path false n)); eexists; (split; [reflexivity|exact S]).
  Qed.
  Lemma remove_entry_inv b fs D T t n : Inv fs (D, T) -> t <> "" -> parse t = Ok n -> In n texts ->
    exists fs', remove_entry parse path b fs t = Ok fs' /\ Inv fs' (without_d n D, without_s n T).
  Proof.
    intros HI Nt Pt It. destruct (removes_inv b fs D T t n HI Nt Pt It) as (fs1 & E1 & H1). destruct (remove_inv b fs1 _ _ t n H1 Nt Pt It) as (fs2 & E2 & H2).
    exists fs2. unfold remove_entry. rewrite E1. cbn [bind]. auto.
  Qed.

  (** Copying the values read from [rows] to the normal form of [new]. *)
  Lemma adds_all t n (l : list (string * string * string)) : t <> "" -> parse t = Ok n -> In n texts ->
    (forall e, In e l -> svalue (snd (fst e)) (snd e) = Some (snd e) /\ snd e <> "") ->
    forall fs D T, Inv fs (D, T) -> exists fs', each (fun fs e => add_structure parse path fs t (snd (fst e)) (Some (snd e))) fs l = Ok fs' /\
      Inv fs' (D, T ++ map (fun e => (n, snd (fst e), snd e)) l)%list.
  Proof.
    intros Nt Pt It. induction l as [|e l IH]; intros G fs D T HI; cbn [each map].
    - exists fs. rewrite app_nil_r. auto.
    - destruct (G e (or_introl eq_refl)) as [G1 G2]. destruct (adds_inv fs D T t n _ _ HI Nt Pt It G1 G2) as (fs1 & E1 & H1). rewrite E1. cbn [bind].
      destruct (IH (fun x H => G x (or_intror H)) fs1 _ _ H1) as (fs2 & E2 & H2). exists fs2. rewrite <- app_assoc in H2. auto.
  Qed.
  Lemma add_all t n (l : list (dkey * option string)) : t <> "" -> parse t = Ok n -> In n texts ->
    (forall e, In e l -> In (snd (fst (fst e))) LANGUAGES /\ In (snd (fst e)) DESCRIPTORS_CLASS /\ exists v, snd e = Some v /\ kept v = v /\ v <> "" /\ ~ occurs "013" v) ->
    forall fs D T, Inv fs (D, T) -> exists fs', each (fun fs e => copy_value parse path t (fst e) fs (snd e)) fs l = Ok fs' /\
      Inv fs' (D ++ map (fun e => (n, snd (fst (fst e)), snd (fst e), match snd e with Some v => v | None => "" end)) l, T)%list.
  Proof.
    intros Nt Pt It. induction l as [|e l IH]; intros G fs D T HI; cbn [each map].
    - exists fs. rewrite app_nil_r. auto.
    - destruct (G e (or_introl eq_refl)) as (G1 & G2 & v & Ev & G3 & G4 & G5). destruct e as [[[i lg] ds] o]. cbn [fst snd] in *. subst o. cbn [copy_value fst snd].
      destruct (add_inv fs D T t n _ _ v HI Nt Pt It G1 G2 G3 G4 G5) as (fs1 & E1 & H1). rewrite E1. cbn [bind].
      destruct (IH (fun x H => G x (or_intror H)) fs1 _ _ H1) as (fs2 & E2 & H2). exists fs2. rewrite <- app_assoc in H2. auto.
  Qed.

  (** The folder before, and the rows read from it. *)
  Variables (fs0 : fsys) (D0 : list drecord) (T0 : list srecord).
  Hypothesis I0 : Inv fs0 (D0, T0).
  Hypothesis K0 : Forall kept_d D0.
  Hypothesis S0 : Forall kept_s T0.
  Hypothesis NA0 : readable_values D0.
  Variables (rows : list drecord) (srows : list srecord).
  Hypothesis R0 : forall i (P : drecord -> bool), filter (fun r => (String.eqb (dieml r) i && P r)%bool) rows = filter (fun r => (String.eqb (dieml r) i && P r)%bool) D0.
  Hypothesis Q0 : forall i (P : srecord -> bool), filter (fun r => (String.eqb (sieml r) i && P r)%bool) srows = filter (fun r => (String.eqb (sieml r) i && P r)%bool) T0.

  Lemma rows_in r : In r rows <-> In r D0.
  Proof.
    assert (F : forall m, In r m <-> In r (filter (fun x => (String.eqb (dieml x) (dieml r) && true)%bool) m)) by (intros m; rewrite filter_In, String.eqb_refl; cbn; tauto).
    rewrite (F rows), (F D0), (R0 (dieml r) (fun _ => true)). reflexivity.
  Qed.
  Lemma srows_in r : In r srows <-> In r T0.
  Proof.
    assert (F : forall m, In r m <-> In r (filter (fun x => (String.eqb (sieml x) (sieml r) && true)%bool) m)) by (intros m; rewrite filter_In, String.eqb_refl; cbn; tauto).
    rewrite (F srows), (F T0), (Q0 (sieml r) (fun _ => true)). reflexivity.
  Qed.

  Lemma copy_structure_inv old t n fs D T : t <> "" -> parse t = Ok n -> In n texts -> Inv fs (D, T) ->
    exists fs' B, copy_structure parse path srows old t fs = Ok fs' /\ Inv fs' (D, T ++ B)%list /\
      (forall r, In r B -> sieml r = n) /\ forall k, svalues_of B n k = svalues_of T0 old k.
  Proof.
    intros Nt Pt It HI. unfold copy_structure, structure_values_partial.
    assert (E : normalize_key parse false old None None true true = Ok (old, None, None)) by (unfold normalize_key; destruct (String.eqb old ""); reflexivity).
    rewrite E. cbn [bind]. set (l := map _ _). rewrite (each_nested (fun (e : skey) fs v => add_structure parse path fs t (snd e) (Some v))). fold (flat skey_eqb l).
    assert (In_l : forall e, In e l -> In (fst (fst e), snd (fst e), snd e) T0 /\ fst (fst e) = old).
    { intros e H. apply in_map_iff in H as ([[i k] v] & <- & H). apply filter_In in H as [H X]. apply in_sort, srows_in in H. cbn. cbn in X. rewrite andb_true_r in X. apply String.eqb_eq in X. auto. }
    destruct (adds_all t n (flat skey_eqb l) Nt Pt It) with (fs := fs) (D := D) (T := T) as (fs' & E1 & H1); [|exact HI|].
    { intros e H. apply (proj1 (flat_in skey_eqb skey_eq _ _)) in H. apply In_l in H as [H _]. rewrite Forall_forall in S0. exact (S0 _ H). }
    exists fs', (map (fun e => (n, snd (fst e), snd e)) (flat skey_eqb l)). split; [exact E1|]. split; [exact H1|]. split.
    - intros r H. apply in_map_iff in H as (e & <- & _). reflexivity.
    - intros k. transitivity (of_key skey_eqb (flat skey_eqb l) (old, k)).
      + unfold svalues_of, of_key. rewrite filter_map, map_map. cbn [snd]. f_equal. apply filter_ext_in_. intros [[i k'] v] H. apply (proj1 (flat_in skey_eqb skey_eq _ _)) in H. apply In_l in H as [_ H].
        unfold skey_eqb. cbn [fst snd] in *. rewrite H, !String.eqb_refl. reflexivity.
      + rewrite (flat_key skey_eqb skey_eq). unfold l, of_key, svalues_of. rewrite filter_map, map_map, filter_filter.
        transitivity (map snd (filter (fun r : srecord => (String.eqb (sieml r) old && String.eqb (snd (fst r)) k)%bool) (sort row_lt srows))).
        * rewrite (map_ext _ snd) by (intros [[i k'] v]; reflexivity). f_equal. apply filter_ext_in_. intros [[i k'] v] _. unfold skey_eqb, sieml. cbn. rewrite andb_true_r. destruct (String.eqb i old); reflexivity.
        * rewrite filter_sort.
          -- rewrite (Q0 old (fun r => String.eqb (snd (fst r)) k)). f_equal. apply filter_ext_in_. intros [[i k'] v] _. unfold sieml. cbn. reflexivity.
          -- intros [[i k1] v] [[j k2] w] H1' H2'. unfold sieml in *. cbn in *. apply andb_true_iff in H1', H2'. rewrite !String.eqb_eq in H1', H2'. destruct H1' as [-> ->], H2' as [-> ->]. rewrite !string_lt_irrefl, String.eqb_refl. reflexivity.
  Qed.

  Lemma copy_descriptors_inv old t n fs D T : t <> "" -> parse t = Ok n -> In n texts -> Inv fs (D, T) ->
    exists fs' A, copy_descriptors parse path rows old t fs = Ok fs' /\ Inv fs' (D ++ A, T)%list /\
      (forall r, In r A -> dieml r = n) /\ forall l d, values_of A n l d = values_of D0 old l d.
  Proof.
    intros Nt Pt It HI. unfold copy_descriptors, get_values_partial.
    assert (E : normalize_key parse false old None None true false = Ok (old, None, None)) by (unfold normalize_key; destruct (String.eqb old ""); reflexivity).
    rewrite E. cbn [bind]. set (m := map _ _). rewrite (each_nested (copy_value parse path t)). fold (flat dkey_eqb m).
    assert (In_m : forall i l d o, In (i, l, d, o) m -> i = old /\ exists v, o = Some v /\ In (i, l, d, v) D0).
    { intros i l d o H. apply in_map_iff in H as ([[[i' l'] d'] v] & [= -> -> -> <-] & H). apply filter_In in H as [H X]. apply in_sort, rows_in in H. cbn in X. rewrite !andb_true_r in X. apply String.eqb_eq in X. split; [exact X|].
      exists v. split; [|exact H]. unfold pandas_cell. rewrite inb_false; [reflexivity|]. exact (NA0 _ _ _ _ H). }
    destruct (add_all t n (flat dkey_eqb m) Nt Pt It) with (fs := fs) (D := D) (T := T) as (fs' & E1 & H1); [|exact HI|].
    { intros [[[i l] d] o] H. apply (proj1 (flat_in dkey_eqb dkey_eq _ _)) in H. apply In_m in H as (_ & v & -> & H). cbn [fst snd].
      destruct I0 as (_ & _ & _ & GD & _). destruct (GD _ H) as (_ & _ & G1 & G2 & _ & G3). rewrite Forall_forall in K0. destruct (K0 _ H) as [G4 G5]. cbn [snd] in *. split; [exact G1|]. split; [exact G2|]. exists v. auto. }
    eexists fs', _. split; [exact E1|]. split; [exact H1|]. split.
    - intros r H. apply in_map_iff in H as (e & <- & _). reflexivity.
    - intros l d. transitivity (map (fun o => match o with Some v => v | None => "" end) (of_key dkey_eqb (flat dkey_eqb m) (old, l, d))).
      + unfold values_of, of_key. rewrite filter_map, !map_map. cbn [snd]. f_equal. apply filter_ext_in_. intros [[[i l'] d'] o] H. apply (proj1 (flat_in dkey_eqb dkey_eq _ _)) in H. apply In_m in H as [-> _].
        unfold dkey_eqb. cbn [fst snd]. rewrite !String.eqb_refl. reflexivity.
      + rewrite (flat_key dkey_eqb dkey_eq). unfold of_key.
        transitivity (map snd (filter (fun r : drecord => (String.eqb (dieml r) old && (String.eqb (snd (fst (fst r))) l && String.eqb (snd (fst r)) d))%bool) (sort row4_lt rows))).
        * rewrite map_map. unfold m. rewrite filter_map, map_map, filter_filter. 
          assert (X : forall L, (forall i l d v, In (i, l, d, v) L -> ~ In v NA_VALUES) -> map (fun x : drecord => match snd (let '(i, l0, d0, v) := x in (i, l0, d0, pandas_cell v)) with Some v => v | None => "" end) L = map snd L).
          { intros L HL. apply map_ext_in. intros [[[i l'] d'] v] H. cbn [snd]. unfold pandas_cell. rewrite inb_false; [reflexivity|]. exact (HL _ _ _ _ H). }
          etransitivity; [apply X|].
          -- intros i l' d' v H. apply filter_In in H as [H _]. apply in_sort, rows_in in H. exact (NA0 _ _ _ _ H).
          -- f_equal. apply filter_ext_in_. intros [[[i l'] d'] v] _. unfold dkey_eqb, dieml. cbn. rewrite !andb_true_r. destruct (String.eqb i old); reflexivity.
        * rewrite filter_sort.
          -- rewrite (R0 old (fun r => (String.eqb (snd (fst (fst r))) l && String.eqb (snd (fst r)) d)%bool)). unfold values_of. f_equal. apply filter_ext_in_. intros [[[i l'] d'] v] _. unfold dieml. cbn. now rewrite andb_assoc.
          -- intros [[[i l1] d1] v] [[[j l2] d2] w] H1' H2'. unfold dieml in *. cbn in *. rewrite !andb_true_iff, !String.eqb_eq in H1', H2'. destruct H1' as (-> & -> & ->), H2' as (-> & -> & ->). rewrite !string_lt_irrefl, !String.eqb_refl. reflexivity.
  Qed.

  Lemma copy_entry_inv m n fs D T : snd m <> "" -> parse (snd m) = Ok n -> In n texts -> Inv fs (D, T) ->
    exists fs' A B, copy_entry parse path srows rows fs m = Ok fs' /\ Inv fs' (D ++ A, T ++ B)%list /\
      (forall i l d, values_of A i l d = if String.eqb n i then values_of D0 (fst m) l d else []) /\
      (forall i k, svalues_of B i k = if String.eqb n i then svalues_of T0 (fst m) k else []).
  Proof.
    intros Nt Pt It HI. destruct (copy_structure_inv (fst m) _ n fs D T Nt Pt It HI) as (fs1 & B & E1 & H1 & B1 & B2).
    destruct (copy_descriptors_inv (fst m) _ n fs1 _ _ Nt Pt It H1) as (fs2 & A & E2 & H2 & A1 & A2).
    exists fs2, A, B. unfold copy_entry. rewrite E1. cbn [bind]. split; [exact E2|]. split; [exact H2|]. split.
    - intros i l d. destruct (String.eqb_spec n i) as [<-|N]; [apply A2|]. apply values_none. intros r H. apply A1 in H. congruence.
    - intros i k. destruct (String.eqb_spec n i) as [<-|N]; [apply B2|]. apply svalues_none. intros r H. apply B1 in H. congruence.
  Qed.

  (** All the copies. *)
  Definition arriving (i : string) (m : string * string) : bool := is_form parse i (snd m).
  Lemma copies ms : (forall m, In m ms -> snd m <> "" /\ exists n, parse (snd m) = Ok n /\ In n texts) ->
    forall fs D T, Inv fs (D, T) -> exists fs' A B, each (copy_entry parse path srows rows) fs ms = Ok fs' /\ Inv fs' (D ++ A, T ++ B)%list /\
      (forall i l d, values_of A i l d = flat_map (fun m => values_of D0 (fst m) l d) (filter (arriving i) ms)) /\
      (forall i k, svalues_of B i k = flat_map (fun m => svalues_of T0 (fst m) k) (filter (arriving i) ms)).
  Proof.
    induction ms as [|m ms IH]; intros G fs D T HI.
    - exists fs, [], []. cbn [each]. rewrite !app_nil_r. auto.
    - destruct (G m (or_introl eq_refl)) as (Nm & n & Pn & In_).
      destruct (copy_entry_inv m n fs D T Nm Pn In_ HI) as (fs1 & A1 & B1 & E1 & H1 & VA & VB).
      destruct (IH (fun x H => G x (or_intror H)) fs1 _ _ H1) as (fs2 & A2 & B2 & E2 & H2 & WA & WB).
      exists fs2, (A1 ++ A2)%list, (B1 ++ B2)%list. cbn [each]. rewrite E1. cbn [bind]. split; [exact E2|]. rewrite !app_assoc. split; [exact H2|]. split.
      + intros i l d. rewrite values_app, VA, WA. cbn [filter]. unfold arriving at 2, is_form. rewrite Pn. destruct (String.eqb n i); reflexivity.
      + intros i k. rewrite svalues_app, VB, WB. cbn [filter]. unfold arriving at 2, is_form. rewrite Pn. destruct (String.eqb n i); reflexivity.
  Qed.
  (** All the removals. *)
  Lemma removals olds : (forall t, In t olds -> t <> "" /\ exists n, parse t = Ok n /\ In n texts) ->
    forall fs D T, Inv fs (D, T) -> exists fs' D' T', each (remove_entry parse path false) fs olds = Ok fs' /\ Inv fs' (D', T') /\
      (forall i l d, values_of D' i l d = if existsb (is_form parse i) olds then [] else values_of D i l d) /\
      (forall i k, svalues_of T' i k = if existsb (is_form parse i) olds then [] else svalues_of T i k).
  Proof.
    induction olds as [|t olds IH]; intros G fs D T HI.
    - exists fs, D, T. cbn [each existsb]. auto.
    - destruct (G t (or_introl eq_refl)) as (Nt & n & Pn & In_).
      destruct (remove_entry_inv false fs D T t n HI Nt Pn In_) as (fs1 & E1 & H1).
      destruct (IH (fun x H => G x (or_intror H)) fs1 _ _ H1) as (fs2 & D2 & T2 & E2 & H2 & WA & WB).
      exists fs2, D2, T2. cbn [each existsb]. rewrite E1. cbn [bind]. split; [exact E2|]. split; [exact H2|]. split.
      + intros i l d. rewrite WA, values_without. unfold is_form at 2. rewrite Pn. destruct (String.eqb n i); destruct (existsb _ olds); reflexivity.
      + intros i k. rewrite WB, svalues_without. unfold is_form at 2. rewrite Pn. destruct (String.eqb n i); destruct (existsb _ olds); reflexivity.
  Qed.
  (** The moves of factorize_db.py, one after the other. *)
  Lemma moves ms : (forall m, In m ms -> fst m <> "" /\ exists n, parse (fst m) = Ok n /\ In n texts) ->
    (forall m, In m ms -> snd m <> "" /\ exists n, parse (snd m) = Ok n /\ In n texts) ->
    (forall i m m', In m ms -> In m' ms -> arriving i m = true -> is_form parse i (fst m') = false) ->
    forall fs D T, Inv fs (D, T) -> exists fs' D' T', each (move_entry parse path srows rows) fs ms = Ok fs' /\ Inv fs' (D', T') /\
      (forall i l d, values_of D' i l d = if existsb (is_form parse i) (map fst ms) then [] else (values_of D i l d ++ flat_map (fun m => values_of D0 (fst m) l d) (filter (arriving i) ms))%list) /\
      (forall i k, svalues_of T' i k = if existsb (is_form parse i) (map fst ms) then [] else (svalues_of T i k ++ flat_map (fun m => svalues_of T0 (fst m) k) (filter (arriving i) ms))%list).
  Proof.
    induction ms as [|m ms IH]; intros G G' C fs D T HI.
    - exists fs, D, T. cbn [each existsb map filter flat_map]. split; [reflexivity|]. split; [exact HI|]. split; intros; now rewrite app_nil_r.
    - destruct (G m (or_introl eq_refl)) as (No & o & Po & Io). destruct (G' m (or_introl eq_refl)) as (Nm & n & Pn & In_).
      destruct (remove_entry_inv true fs D T (fst m) o HI No Po Io) as (fs1 & E1 & H1).
      destruct (copy_entry_inv m n fs1 _ _ Nm Pn In_ H1) as (fs2 & A & B & E2 & H2 & VA & VB).
      destruct (IH (fun x H => G x (or_intror H)) (fun x H => G' x (or_intror H)) (fun i x y H H' => C i x y (or_intror H) (or_intror H')) fs2 _ _ H2) as (fs3 & D3 & T3 & E3 & H3 & WA & WB).
      exists fs3, D3, T3. cbn [each]. unfold move_entry at 1. rewrite E1. cbn [bind]. rewrite E2. cbn [bind]. split; [exact E3|]. split; [exact H3|].
      assert (F1 : forall i, is_form parse i (fst m) = String.eqb o i) by (intros i; unfold is_form; now rewrite Po).
      assert (F2 : forall i, arriving i m = String.eqb n i) by (intros i; unfold arriving, is_form; now rewrite Pn).
      assert (Q : forall i, String.eqb o i = true -> String.eqb n i = false /\ filter (arriving i) ms = []).
      { intros i X. assert (F : is_form parse i (fst m) = true) by (unfold is_form; now rewrite Po). split.
        - destruct (String.eqb n i) eqn:Y; [|reflexivity]. assert (arriving i m = true) as Z by (unfold arriving, is_form; now rewrite Pn). rewrite (C i m m) in F by (auto; now left). discriminate.
        - apply filter_none. intros x Hx. destruct (arriving i x) eqn:Y; [|reflexivity]. rewrite (C i x m) in F; [discriminate|now right|now left|exact Y]. }
      split.
      + intros i l d. rewrite WA, values_app, values_without, VA. cbn [map existsb filter]. rewrite (F1 i), (F2 i).
        destruct (String.eqb o i) eqn:X.
        * destruct (Q i X) as [-> ->]. destruct (existsb _ _); reflexivity.
        * destruct (existsb _ _); [reflexivity|]. cbn [orb]. destruct (String.eqb n i); cbn [flat_map]; rewrite <- ?app_assoc; rewrite ?app_nil_r; reflexivity.
      + intros i k. rewrite WB, svalues_app, svalues_without, VB. cbn [map existsb filter]. rewrite (F1 i), (F2 i).
        destruct (String.eqb o i) eqn:X.
        * destruct (Q i X) as [-> ->]. destruct (existsb _ _); reflexivity.
        * destruct (existsb _ _); [reflexivity|]. cbn [orb]. destruct (String.eqb n i); cbn [flat_map]; rewrite <- ?app_assoc; rewrite ?app_nil_r; reflexivity.
  Qed.
End Records.

(** * The plan *)
Lemma plan_spec new_text all : NoDup all -> (forall s, In s all -> new_text s = Err CannotParse \/ exists n, new_text s = Ok n) ->
  forall acc, (forall s, In s all -> ~ In s (map fst acc)) -> exists ms, to_migrate new_text all acc = Ok (acc ++ ms)%list /\
    NoDup (map fst ms) /\ forall s n, In (s, n) ms <-> In s all /\ new_text s = Ok n /\ n <> s.
Proof.
  induction all as [|s all IH]; intros N H acc Ha; cbn [to_migrate].
  - exists []. rewrite app_nil_r. split; [reflexivity|]. split; [constructor|]. cbn. tauto.
  - apply NoDup_cons_iff in N as [N1 N2]. assert (Ha' : forall x, In x all -> ~ In x (map fst acc)) by (intros x X; apply Ha; now right).
    assert (H' : forall x, In x all -> new_text x = Err CannotParse \/ exists n, new_text x = Ok n) by (intros x X; apply H; now right).
    destruct (H s (or_introl eq_refl)) as [E|[n E]]; rewrite E.
    + destruct (IH N2 H' acc Ha') as (ms & E1 & Nd & M). exists ms. split; [exact E1|]. split; [exact Nd|]. intros x n. rewrite M. cbn [In]. split; [tauto|]. intros ([<-|X] & Y & Z); [congruence|auto].
    + assert (inb s (map fst acc) = false) as -> by (apply inb_false, Ha; now left). rewrite orb_false_r. destruct (String.eqb_spec n s) as [X|X].
      * destruct (IH N2 H' acc Ha') as (ms & E1 & Nd & M). exists ms. split; [exact E1|]. split; [exact Nd|]. intros x m. rewrite M. cbn [In]. split; [tauto|]. intros ([<-|X'] & Y & Z); [congruence|auto].
      * destruct (IH N2 H' (acc ++ [(s, n)])%list) as (ms & E1 & Nd & M).
        { intros x Hx. rewrite map_app, in_app_iff. cbn. intros [Y|[Y|[]]]; [exact (Ha' _ Hx Y)|congruence]. }
        exists ((s, n) :: ms). split; [rewrite E1, <- app_assoc; reflexivity|]. split.
        -- cbn [map fst]. constructor; [|exact Nd]. intros Y. apply in_map_iff in Y as ([a b] & Ea & Y). cbn in Ea. subst a. apply M in Y as [Y _]. contradiction.
        -- intros x m. cbn [In]. rewrite M. split.
           ++ intros [[= <- <-]|Y]; [auto|tauto].
           ++ intros ([<-|Y] & Z & W); [left; congruence|right; auto].
Qed.
