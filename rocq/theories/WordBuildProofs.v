(** Proofs about the words built from morphemes at the places of their lexemes, in any order. *)
From Coq Require Import List String Ascii Bool Arith Lia Permutation Sorted.
From Verif Require Import Base Script ScriptParser SortProofs ScriptWf ScriptStrProofs ScriptOrderProofs ScriptSpec ScriptCtorProofs ScriptParseProofs ScriptAlgProofs ScriptMoreProofs OrderTheory Commons Usl UslProofs UslSpec UslSsProofs
  Sfun SfunProofs SfunListProofs SfunWordProofs SfunSpec UslParser UslParserProofs UslRoundProofs Path PathLexProofs PathSpec PathProofs PathAlgProofs PathTextProofs PathDerefProofs PathBuildProofs Instance UslTable UslTableProofs UslTableSsProofs UslTableOrderProofs LexBuildProofs.
Import ListNotations.
Local Open Scope string_scope.

(** ** Paths under heads *)
Section Tagged.
  Variable I : Type.
  Variable idec : forall i j : I, {i = j} + {i <> j}.
  Variable hd : I -> path.
  Variable ok : I -> path -> Prop.
  Hypothesis inj : forall i j p q, ok i p -> ok j q -> path_str (set_child (hd i) (Some p)) = path_str (set_child (hd j) (Some q)) -> i = j /\ path_str p = path_str q.
  Hypothesis cong : forall i p q, path_str p = path_str q -> path_str (set_child (hd i) (Some p)) = path_str (set_child (hd i) (Some q)).
  Definition up {V} (e : I * (path * V)) : path * V := (set_child (hd (fst e)) (Some (fst (snd e))), snd (snd e)).
  Definition here {V} (i : I) (e : I * V) : bool := if idec (fst e) i then true else false.
  Definition sub {V} (i : I) (L : list (I * V)) : list V := map snd (filter (here i) L).
  Definition okl {V} (L : list (I * (path * V))) : Prop := Forall (fun e => ok (fst e) (fst (snd e))) L.
  Lemma sub_app {V} i (a b : list (I * V)) : sub i (a ++ b) = (sub i a ++ sub i b)%list.
  Proof. unfold sub. now rewrite filter_app, map_app. Qed.
  Lemma here_same {V} i (v : V) : here i (i, v) = true. Proof. unfold here. cbn. destruct (idec i i); congruence. Qed.
  Lemma here_other {V} i j (v : V) : j <> i -> here i (j, v) = false. Proof. unfold here. cbn. destruct (idec j i); congruence. Qed.
  Lemma sub_same {V} i (v : V) l : sub i ((i, v) :: l) = v :: sub i l. Proof. unfold sub. cbn [filter]. now rewrite here_same. Qed.
  Lemma sub_other {V} i j (v : V) l : j <> i -> sub i ((j, v) :: l) = sub i l. Proof. intros H. unfold sub. cbn [filter]. now rewrite here_other. Qed.
  Lemma sub_none {V} i (l : list (I * V)) : ~ In i (map fst l) -> sub i l = [].
  Proof. induction l as [|[j v] l IH]; intros H; [reflexivity|]. rewrite sub_other by (intros ->; apply H; now left). apply IH. intros X. apply H. now right. Qed.
  Lemma sub_in {V} i (l : list (I * V)) v : In v (sub i l) <-> In (i, v) l.
  Proof.
    unfold sub. rewrite in_map_iff. split.
    - intros ([j w] & <- & H). apply filter_In in H. destruct H as [H E]. unfold here in E. cbn in E. destruct (idec j i); [subst; exact H|discriminate].
    - intros H. exists (i, v). split; [reflexivity|]. apply filter_In. split; [exact H|apply here_same].
  Qed.
  Lemma sub_some {V} i (l : list (I * V)) : In i (map fst l) -> sub i l <> [].
  Proof. intros H E. apply in_map_iff in H. destruct H as ([j v] & <- & H). cbn [fst] in E. apply sub_in in H. rewrite E in H. destruct H. Qed.
  Lemma sub_tag {V} i j (l : list V) : sub i (map (pair j) l) = if idec j i then l else [].
  Proof.
    destruct (idec j i) as [->|N].
    - induction l as [|v l IH]; [reflexivity|]. cbn [map]. now rewrite sub_same, IH.
    - apply sub_none. rewrite map_map. intros H. apply in_map_iff in H. destruct H as (v & E & _). now cbn in E.
  Qed.
  (** *** The dictionary of sets *)
  Fixpoint tadd (i : I) (p : path) (v : script) (l : list (I * (path * list script))) : list (I * (path * list script)) :=
    match l with
    | [] => [(i, (p, [v]))]
    | (j, (q, vs)) :: l => if (here i (j, v) && path_eqb q p)%bool then (j, (q, if in_scripts v vs then vs else (vs ++ [v])%list)) :: l else (j, (q, vs)) :: tadd i p v l
    end.
  Lemma tadd_up i p v l : ok i p -> okl l -> add_value (set_child (hd i) (Some p)) v (map up l) = map up (tadd i p v l) /\ okl (tadd i p v l) /\ (forall k, In k (map fst (tadd i p v l)) <-> k = i \/ In k (map fst l)).
  Proof.
    intros O. induction 1 as [|[j [q vs]] l Oq F (E & F' & M)].
    - split; [reflexivity|]. split; [repeat constructor; exact O|]. intros k. cbn. intuition congruence.
    - cbn [map tadd add_value up fst snd] in *. assert (X : path_eqb (set_child (hd j) (Some q)) (set_child (hd i) (Some p)) = (here i (j, v) && path_eqb q p)%bool).
      { unfold path_eqb. apply eq_true_iff_eq. rewrite andb_true_iff, !String.eqb_eq. unfold here. cbn. split.
        - intros H. apply inj in H; auto. destruct H as [-> H]. destruct (idec i i); [auto|congruence].
        - destruct (idec j i) as [->|]; [|intros [H _]; discriminate]. intros [_ H]. now apply cong. }
      rewrite X. destruct (here i (j, v) && path_eqb q p)%bool eqn:Eb.
      + split; [reflexivity|]. split; [constructor; auto|]. intros k. apply andb_true_iff in Eb. destruct Eb as [Eb _]. unfold here in Eb. cbn in Eb. destruct (idec j i) as [->|]; [|discriminate]. cbn. intuition congruence.
      + split; [cbn [map up fst snd]; now rewrite E|]. split; [constructor; auto|]. intros k. cbn [map fst In]. rewrite M. tauto.
  Qed.
  Lemma tadd_sub i p v l k : sub k (tadd i p v l) = if idec i k then add_value p v (sub k l) else sub k l.
  Proof.
    induction l as [|[j [q vs]] l IH]; cbn [tadd].
    - destruct (idec i k) as [->|N]; [now rewrite sub_same|now rewrite sub_other].
    - unfold here. cbn [fst]. destruct (idec j i) as [->|N]; cbn [andb].
      + destruct (path_eqb q p) eqn:E; destruct (idec i k) as [->|N'].
        * rewrite !sub_same. cbn [add_value]. now rewrite E.
        * now rewrite !sub_other.
        * rewrite !sub_same, IH. cbn [add_value]. now rewrite E.
        * now rewrite !sub_other.
      + destruct (idec i k) as [->|N']; [now rewrite !sub_other|]. destruct (idec j k) as [->|N2]; [now rewrite !sub_same, IH|now rewrite !sub_other].
  Qed.
  Lemma pv_tag L : okl L -> exists T, path_to_value (map up L) = map up T /\ okl T /\ (forall i, In i (map fst T) <-> In i (map fst L)) /\ forall i, sub i T = path_to_value (sub i L).
  Proof.
    intros O. enough (X : forall acc, okl acc -> exists T, pv_from (map up L) (map up acc) = map up T /\ okl T /\ (forall i, In i (map fst T) <-> In i (map fst L) \/ In i (map fst acc)) /\ forall i, sub i T = pv_from (sub i L) (sub i acc)).
    { destruct (X []) as (T & E & F & M & S); [constructor|]. exists T. split; [exact E|]. split; [exact F|]. split; [|exact S]. intros i. rewrite M. cbn. tauto. }
    induction O as [|[i [p v]] L Op O IH]; intros acc Oa.
    - exists acc. split; [reflexivity|]. split; [exact Oa|]. split; [intros i; cbn; tauto|reflexivity].
    - cbn [fst snd] in Op. destruct (tadd_up i p v acc Op Oa) as (E & F & M). destruct (IH (tadd i p v acc) F) as (T & E' & F' & M' & S'). exists T. cbn [map]. unfold pv_from in *. cbn [fold_left]. change (fst (up (i, (p, v)))) with (set_child (hd i) (Some p)). change (snd (up (i, (p, v)))) with v. rewrite E. split; [exact E'|]. split; [exact F'|]. split.
      + intros k. rewrite M', M. cbn [map fst In]. intuition congruence.
      + intros k. rewrite S', tadd_sub. destruct (idec i k) as [->|N]; [now rewrite sub_same|now rewrite sub_other].
  Qed.
  (** *** The bins *)
  Variable cls : pclass.
  Hypothesis hd_class : forall i, class_of (hd i) = cls.
  Hypothesis hd_child : forall i, child_of (hd i) = None.
  Variable dom : I -> Prop.
  Hypothesis hd_inj : forall i j, dom i -> dom j -> path_str (hd i) = path_str (hd j) -> i = j.
  Definition kids (ks : list (I * bin)) : list (path * bin) := map (fun k => (hd (fst k), snd k)) ks.
  Definition lookup (i : I) (ks : list (I * bin)) : bin := match sub i ks with b :: _ => b | [] => new_bin end.
  Fixpoint tupdate (i : I) (b : bin) (ks : list (I * bin)) : list (I * bin) :=
    match ks with [] => [(i, b)] | (j, c) :: ks => if idec j i then (j, b) :: ks else (j, c) :: tupdate i b ks end.
  Lemma update_tag i f ks b : dom i -> (forall k, In k (map fst ks) -> dom k) -> f (lookup i ks) = Ok b -> update (hd i) f (kids ks) = Ok (kids (tupdate i b ks)).
  Proof.
    intros Di. induction ks as [|[j c] ks IH]; intros Dk E; cbn [kids map update tupdate fst snd]; [cbn in E; now rewrite E|]. destruct (idec j i) as [->|N].
    - unfold path_eqb. rewrite String.eqb_refl. unfold lookup in E. rewrite sub_same in E. now rewrite E.
    - assert (X : path_eqb (hd j) (hd i) = false) by (unfold path_eqb; apply String.eqb_neq; intros H; apply N; apply hd_inj; auto; apply Dk; now left). rewrite X. unfold lookup in E, IH. rewrite sub_other in E by exact N. fold (kids ks). rewrite IH; [reflexivity|intros k Hk; apply Dk; now right|exact E].
  Qed.
  Lemma tupdate_lookup i b ks k : lookup k (tupdate i b ks) = if idec i k then b else lookup k ks.
  Proof.
    unfold lookup. induction ks as [|[j c] ks IH]; cbn [tupdate].
    - destruct (idec i k) as [->|N]; [now rewrite sub_same|now rewrite sub_other].
    - destruct (idec j i) as [->|N].
      + destruct (idec i k) as [->|N]; [now rewrite !sub_same|now rewrite !sub_other].
      + destruct (idec j k) as [->|N2]; [rewrite !sub_same; destruct (idec i k); [congruence|reflexivity]|]. rewrite !sub_other by exact N2. exact IH.
  Qed.
  Lemma tupdate_keys i b ks : (forall k, In k (map fst (tupdate i b ks)) <-> k = i \/ In k (map fst ks)) /\ (NoDup (map fst ks) -> NoDup (map fst (tupdate i b ks))).
  Proof.
    induction ks as [|[j c] ks [M N]]; cbn [tupdate]; [split; [intros k; cbn; intuition congruence|intros _; repeat constructor; intros []]|]. destruct (idec j i) as [->|Ne].
    - split; [intros k; cbn; intuition congruence|auto].
    - split; [intros k; cbn [map fst In]; rewrite M; tauto|]. cbn [map fst]. intros D. apply NoDup_cons_iff in D. destruct D as [D1 D2]. constructor; [|auto]. rewrite M. intros [->|H]; auto.
  Qed.
  Lemma group_tag L : forall ty ks B, typed ty cls -> (forall k, In k (map fst L) \/ In k (map fst ks) -> dom k) -> NoDup (map fst ks) -> (forall i, In i (map fst L) -> group_all (sub i L) (lookup i ks) = Ok (B i)) ->
    exists ks', group_all (map up L) (Bin ty None (kids ks)) = Ok (Bin (match L with [] => ty | _ => Some cls end) None (kids ks')) /\ NoDup (map fst ks') /\
      (forall i, In i (map fst ks') <-> In i (map fst L) \/ In i (map fst ks)) /\ (forall i, lookup i ks' = if in_dec idec i (map fst L) then B i else lookup i ks).
  Proof.
    induction L as [|[i [p vs]] L IH]; intros ty ks B T Dm N H.
    - exists ks. split; [reflexivity|]. split; [exact N|]. split; [intros i; cbn; tauto|]. intros i. destruct (in_dec idec i (map fst [])) as [[]|]. reflexivity.
    - cbn [map group_all up fst snd]. assert (Ti : (match ty with Some c => if isinstance (set_child (hd i) (Some p)) c then Ok c else Err ValueError | None => Ok (class_of (set_child (hd i) (Some p))) end) = Ok cls).
      { destruct T as [-> | ->]; [now rewrite class_set, hd_class|]. unfold isinstance. now rewrite class_set, hd_class, pclass_eqb_refl, orb_true_r. }
      rewrite group_by_eq, Ti. cbn [bind]. rewrite child_set, alone_set, set_set. assert (A : set_child (hd i) None = hd i) by (rewrite <- (hd_child i); apply set_child_id). rewrite A.
      pose proof (H i (or_introl eq_refl)) as Hi. rewrite sub_same in Hi. cbn [group_all] in Hi. destruct (group_by p vs (lookup i ks)) as [b|] eqn:Eb; [|discriminate]. cbn [bind] in Hi.
      match goal with |- context [update (hd i) ?f (kids ks)] => rewrite (update_tag i f ks b (Dm i (or_introl (or_introl eq_refl))) (fun k Hk => Dm k (or_intror Hk)) Eb) end. cbn [bind]. destruct (tupdate_keys i b ks) as [Mk Nk].
      destruct (IH (Some cls) (tupdate i b ks) B) as (ks' & E & N' & M' & S'); [now right| |auto| |].
      + intros k Hk. rewrite Mk in Hk. apply Dm. destruct Hk as [Hk|[->|Hk]]; [left; now right|left; now left|now right].
      + intros k Hk. rewrite tupdate_lookup. destruct (idec i k) as [<-|Ne]; [exact Hi|]. rewrite <- (H k) by (now right). now rewrite sub_other.
      + exists ks'. split; [rewrite E; destruct L; reflexivity|]. split; [exact N'|]. split; [intros k; rewrite M', Mk; cbn; intuition congruence|]. intros k. rewrite S', tupdate_lookup. cbn [map fst].
        destruct (in_dec idec k (map fst L)) as [Hk|Hk], (in_dec idec k (i :: map fst L)) as [Hk'|Hk']; try reflexivity.
        * elim Hk'. now right.
        * destruct Hk' as [->|Hk']; [|contradiction]. destruct (idec k k); [|congruence]. rewrite (sub_none k L Hk) in Hi. cbn in Hi. congruence.
        * destruct (idec i k) as [->|]; [elim Hk'; now left|reflexivity].
  Qed.
End Tagged.

(** ** The builder of words *)
Definition rdec : forall i j : role, {i = j} + {i <> j} := list_eq_dec string_dec.
Lemma append_inv a b c : a ++ b = a ++ c -> b = c.
Proof. induction a as [|x a IH]; [auto|]. cbn. intros E. injection E as E. auto. Qed.
Lemma word_texts c f f' r w w' : cvalid lexeme c f -> cvalid lexeme c f' -> Permutation (map kstr (as_list c f')) (map kstr (as_list c f)) -> In r (map fst (as_list c f)) ->
  mk_word f r c = Ok w -> mk_word f' r c = Ok w' -> w_str w' = w_str w.
Proof.
  intros V V' P H W W'. assert (H' : In r (map fst (as_list c f'))).
  { assert (Q : Permutation (map fst (as_list c f')) (map fst (as_list c f))); [|eapply Permutation_in; [apply Permutation_sym, Q|exact H]]. apply (Permutation_map fst) in P. rewrite !map_map in P. exact P. }
  destruct (expansion_single c f r V H) as (r0 & Er & _ & _ & Ex). destruct (expansion_single c f' r V' H') as (r2 & Er2 & _ & _ & Ex2). assert (r2 = r0) by (rewrite Er in Er2; now apply app_inv_head in Er2). subst r2.
  assert (K : krows f' = krows f).
  { apply (krows_eq c); auto. rewrite !as_list_lst in P. unfold pre in P. rewrite !map_map in P. unfold kstr in P. cbn [fst snd] in P.
    apply (Permutation_map (fun e : role * string => (skipn (List.length (context_prefix c)) (fst e), snd e))) in P. rewrite !map_map in P. cbn [fst snd] in P.
    assert (X : forall m : list (role * option lexeme), map (fun e => (skipn (List.length (context_prefix c)) (context_prefix c ++ fst e), actor_str (snd e))) m = map kstr m).
    { intros m0. apply map_ext. intros [q x]. unfold kstr. cbn. f_equal. rewrite skipn_app, skipn_all, Nat.sub_diag. reflexivity. }
    rewrite !X in P. exact P. }
  pose proof (render_single c f r r0 Ex) as R1. pose proof (render_single c f' r r0 Ex2) as R2. rewrite K in R2. unfold mk_word in W, W'. rewrite R1 in W. rewrite R2 in W'. cbn [bind] in *. destruct (class_from_address r); [|discriminate]. cbn [bind] in *. injection W as <-. injection W' as <-. reflexivity.
Qed.
Lemma mk_word_list c f r : cvalid lexeme c f -> In r (map fst (as_list c f)) -> exists w, mk_word f r c = Ok w.
Proof.
  intros V H. rewrite as_list_lst in H. apply in_map_iff in H. destruct H as (e & <- & He). apply pre_in in He. destruct He as (r0 & E & He). rewrite E. unfold SfunProofs.lst in He. apply in_map_iff in He. destruct He as ([q g] & Eq & Hg). cbn in Eq. injection Eq as <- _. apply filter_In in Hg. now apply (mk_word_ok c f q g V).
Qed.
Section Words.
  Variable so : list script -> list script.
  Hypothesis SO : set_order so.
  Variable c : context.
  Variable f : sfun lexeme.
  Variable focus : role.
  Hypothesis V : cvalid lexeme c f.
  Hypothesis Hr : In focus (map fst (as_list c f)).
  Notation roles := (map fst (as_list c f)).
  Definition rhead (i : role) : path := PRole i (role_eqb i focus) None.
  Notation rup := (up role rhead).
  Notation rsub := (sub role rdec).
  Definition wok (e : role * (path * script)) : Prop :=
    In (fst e) roles /\ lexeme_place nf (fst (snd e)) /\ one_digit (fst (snd e)) /\ nf (snd (snd e)) /\ old_class (str (snd (snd e))) = None.
  Lemma role_ok i : In i roles -> i <> [] /\ vrole i.
  Proof. intros H. apply in_map_iff in H. destruct H as (e & <- & He). now apply (roles_nonempty c f e V). Qed.
  (** paths with the text of a place of a lexeme *)
  Definition rok (i : role) (p : path) : Prop := In i roles /\ exists p0, lexeme_place nf p0 /\ path_str p = path_str p0.
  Definition rpre (i : role) : string := ">" ++ step_str (rhead i).
  Lemma rhead_str i p : path_str (set_child (rhead i) (Some p)) = rpre i ++ path_str p.
  Proof. unfold rpre. cbn [rhead set_child path_str append]. reflexivity. Qed.
  Lemma rinj i j p q : rok i p -> rok j q -> path_str (set_child (rhead i) (Some p)) = path_str (set_child (rhead j) (Some q)) -> i = j /\ path_str p = path_str q.
  Proof.
    intros (Hi & p0 & L0 & E0) (Hj & q0 & L1 & E1) E. assert (X : i = j).
    { rewrite !rhead_str, E0, E1, <- !rhead_str in E. destruct (role_ok i Hi) as [Ni Vi], (role_ok j Hj) as [Nj Vj].
      pose proof (raw0_ok (set_child (rhead i) (Some p0)) ltac:(now apply proper_role_lexeme)) as A. pose proof (raw0_ok (set_child (rhead j) (Some q0)) ltac:(now apply proper_role_lexeme)) as B. rewrite E in A. rewrite A in B. cbn [set_child rhead raw0] in B. congruence. }
    split; [exact X|]. subst j. rewrite !rhead_str in E. now apply append_inv in E.
  Qed.
  Lemma rcong i p q : path_str p = path_str q -> path_str (set_child (rhead i) (Some p)) = path_str (set_child (rhead i) (Some q)).
  Proof. intros E. now rewrite !rhead_str, E. Qed.
  Lemma rhd_inj i j : In i roles -> In j roles -> path_str (rhead i) = path_str (rhead j) -> i = j.
  Proof.
    intros Hi Hj E. destruct (role_ok i Hi) as [Ni Vi], (role_ok j Hj) as [Nj Vj]. pose proof (raw0_ok (rhead i) ltac:(now apply proper_role)) as A. pose proof (raw0_ok (rhead j) ltac:(now apply proper_role)) as B. rewrite E in A. rewrite A in B. cbn in B. congruence.
  Qed.
  Definition tCP (e : role * (path * script)) : role * (path * script) := (fst e, CP so (snd e)).
  Lemma tCP_up L : Forall wok L -> map (CP so) (map rup L) = map rup (map tCP L).
  Proof.
    intros F. rewrite !map_map. apply map_ext_Forall. eapply Forall_impl; [|exact F]. intros [i [p v]] (_ & L0 & _). cbn [fst snd] in L0. unfold CP, up, tCP. cbn [fst snd rhead set_child canon option_map]. f_equal. f_equal. f_equal. destruct L0; reflexivity.
  Qed.
  Lemma tCP_sub i L : rsub i (map tCP L) = map (CP so) (rsub i L).
  Proof.
    induction L as [|[j e] L IH]; [reflexivity|]. cbn [map]. unfold tCP at 1. cbn [fst snd]. destruct (rdec j i) as [->|N]; [now rewrite !sub_same, IH|now rewrite !sub_other, IH].
  Qed.
  Lemma tCP_fst L : map fst (map tCP L) = map fst L. Proof. rewrite map_map. reflexivity. Qed.
  Lemma lookup_in {W} i (b : W) ks : NoDup (map fst ks) -> In (i, b) ks -> rsub i ks = [b].
  Proof.
    induction ks as [|[j b'] ks IH]; intros N H; [destruct H|]. cbn [map fst] in N. apply NoDup_cons_iff in N. destruct N as [N1 N2]. destruct H as [H|H].
    - injection H as -> ->. rewrite sub_same, sub_none by exact N1. reflexivity.
    - rewrite sub_other; [auto|]. intros ->. apply N1. now apply (in_map fst) in H.
  Qed.
  Variable X : role -> lexeme.
  Lemma word_build L : Forall wok L -> (forall i, In i roles -> In i (map fst L)) ->
    (forall i, In i roles -> exists b, group_all (path_to_value (map (CP so) (rsub i L))) new_bin = Ok b /\ build_nodes b = Ok (NLexeme (X i))) ->
    exists w, usl_of_list so (map rup L) = Ok (UWord w) /\ w_role w = focus /\ w_context w = c /\ cvalid lexeme c (w_fun w) /\ Permutation (as_list c (w_fun w)) (map (fun i => (i, Some (X i))) roles) /\ mk_word (w_fun w) focus c = Ok w.
  Proof.
    intros F All Hb. assert (NE : map rup L <> []) by (intros E; apply map_eq_nil in E; subst L; destruct (All focus Hr)).
    assert (Eq : usl_of_list so (map rup L) = from_path_values so (map rup L)) by (destruct (map rup L); [congruence|reflexivity]). rewrite Eq. rewrite (from_items_all so SO).
    2:{ rewrite Forall_map. eapply Forall_impl; [|exact F]. intros [i [p v]] (Hi & L0 & D & N & O). cbn [fst snd] in *. destruct (role_ok i Hi) as [Ni Vi]. unfold item_ok, up. cbn [fst snd]. split; [now apply proper_role_lexeme|]. split; [exact D|auto]. }
    fold (CP so). rewrite tCP_up by exact F.
    destruct (pv_tag role rdec rhead rok rinj rcong (map tCP L)) as (T & ET & OT & MT & ST).
    { unfold okl. rewrite Forall_map. eapply Forall_impl; [|exact F]. intros [i [p v]] (Hi & L0 & D & N & O). cbn [fst snd tCP CP] in *. split; [exact Hi|]. exists p. split; [exact L0|]. destruct L0 as [l|p0 P0|m M]; apply (canon_str so SO); try exact D; apply proper_lexeme; constructor; auto. }
    rewrite ET.
    assert (Fi : forall i, In i (map fst L) -> In i roles) by (intros i Hi; apply in_map_iff in Hi; destruct Hi as (e & <- & He); rewrite Forall_forall in F; now apply F).
    set (B := fun i => match group_all (path_to_value (map (CP so) (rsub i L))) new_bin with Ok b => b | Err _ => new_bin end).
    assert (HB : forall i, In i roles -> group_all (path_to_value (map (CP so) (rsub i L))) new_bin = Ok (B i) /\ build_nodes (B i) = Ok (NLexeme (X i))) by (intros i Hi; destruct (Hb i Hi) as (b & E1 & E2); unfold B; rewrite E1; auto).
    destruct (group_tag role rdec rhead ClRole (fun _ => eq_refl) (fun _ => eq_refl) (fun i => In i roles) rhd_inj T None [] B) as (ks & Ek & Nk & Mk & Lk).
    - now left.
    - intros k [Hk|[]]. apply Fi. rewrite MT, tCP_fst in Hk. exact Hk.
    - constructor.
    - intros i Hi. rewrite MT, tCP_fst in Hi. rewrite ST, tCP_sub. cbn [lookup]. now apply HB, Fi.
    - cbn [kids map] in Ek. unfold new_bin at 1. rewrite Ek. cbn [bind].
      assert (Ty : match T with [] => None | _ => Some ClRole end = Some ClRole) by (destruct T; [exfalso; apply (proj2 (MT focus)); rewrite tCP_fst; now apply All|reflexivity]). rewrite Ty. rewrite build_nodes_eq.
      assert (Ks : forall k, In k ks -> In (fst k) roles /\ snd k = B (fst k)).
      { intros [i b] Hk. cbn [fst snd]. assert (Hi : In i (map fst T)) by (destruct (proj1 (Mk i) (in_map fst _ _ Hk)) as [Hi|[]]; exact Hi). split; [apply Fi; rewrite MT, tCP_fst in Hi; exact Hi|].
        pose proof (Lk i) as Li. unfold lookup in Li. rewrite (lookup_in i b ks Nk Hk) in Li. destruct (in_dec rdec i (map fst T)); [exact Li|contradiction]. }
      assert (Mx : mapM (fun e => do n <- build_nodes (snd e); Ok (fst e, n)) (kids role rhead ks) = Ok (map (fun k => (rhead (fst k), NLexeme (X (fst k)))) ks)).
      { clear - Ks HB. induction ks as [|k ks IH]; [reflexivity|]. cbn [kids map]. rewrite mapM_step. cbn [fst snd]. destruct (Ks k (or_introl eq_refl)) as [Hk Ek]. rewrite Ek, (proj2 (HB _ Hk)). cbn [bind]. fold (kids role rhead ks). rewrite IH by (intros k' Hk'; apply Ks; now right). reflexivity. }
      rewrite Mx. cbn [bind build]. set (xs := map (fun k : role * bin => (fst k, X (fst k))) ks).
      assert (Ex : map (fun k : role * bin => (rhead (fst k), NLexeme (X (fst k)))) ks = map (fun x : role * lexeme => (head focus x, NLexeme (snd x))) xs) by (unfold xs; rewrite map_map; reflexivity). rewrite Ex. unfold build_word.
      assert (Kx : map fst xs = map fst ks) by (unfold xs; rewrite map_map; reflexivity).
      assert (Pk : Permutation (map fst ks) roles).
      { apply NoDup_Permutation; [exact Nk|now apply as_list_nodup|]. intros i. rewrite Mk, MT, tCP_fst. cbn. split; [intros [H|[]]; auto|auto]. }
      assert (Vx : Forall (fun e : role * lexeme => vrole (fst e)) xs).
      { apply Forall_forall. intros e He. apply (role_ok (fst e)). eapply Permutation_in; [exact Pk|]. rewrite <- Kx. now apply in_map. }
      assert (Fo : focus_of None (map (fun x : role * lexeme => (head focus x, NLexeme (snd x))) xs) = Ok (Some focus)).
      { apply (focus_of_ok focus xs); auto.
        - clear. induction xs; cbn; constructor; auto.
        - now apply role_ok.
        - now rewrite Kx.
        - rewrite Kx. eapply Permutation_in; [apply Permutation_sym, Pk|exact Hr]. }
      rewrite Fo. cbn [bind].
      assert (Kk : mapM (role_key focus) (map (fun x : role * lexeme => (head focus x, NLexeme (snd x))) xs) = Ok (map (fun x => ((fst x, (role_eqb (fst x) focus || role_eqb focus (fst x))%bool), snd x)) xs)).
      { clear. induction xs as [|x xs IH]; [reflexivity|]. cbn [map]. rewrite mapM_step. cbn [role_key head bind]. now rewrite IH. }
      rewrite Kk. cbn [bind]. rewrite !map_map. cbn [fst snd]. rewrite dedup_keys.
      + rewrite !map_length, Nat.eqb_refl. cbn [negb]. set (m := map (fun i => (i, Some (X i))) roles). assert (Km : map fst m = roles) by (unfold m; rewrite map_map; apply map_id).
        destruct (refill_c lexeme c f V m Km) as (f2 & V2 & E2 & _).
        destruct (from_list_perm lexeme c f2 (map (fun x => (fst x, Some (snd x))) xs) V2) as (f3 & E3 & S3).
        { rewrite E2. unfold m, xs. rewrite map_map. cbn [fst snd]. rewrite <- (map_map fst (fun i => (i, Some (X i)))). now apply Permutation_map. }
        rewrite E3. cbn [bind fst snd]. apply from_list_inv in E3. destruct E3 as [V3 _]. assert (P3 : Permutation (as_list c f3) m) by (rewrite <- E2; now apply same_actants_list).
        destruct (mk_word_list c f3 focus V3) as (w & Ew). { eapply Permutation_in; [apply Permutation_sym, Permutation_map, P3|]. now rewrite Km. }
        destruct (mk_word_fields _ _ _ _ Ew) as (W1 & W2 & W3). rewrite Ew. cbn [bind]. exists w. rewrite W1. repeat split; auto. unfold m in P3. rewrite map_map in P3. exact P3.
      + rewrite Forall_map. exact Vx.
      + rewrite map_map. cbn [fst]. change (NoDup (map fst xs)). now rewrite Kx.
  Qed.
End Words.
