(** The order of the rows and columns of the table of a polymorpheme. *)
From Coq Require Import List String Bool Arith Permutation Sorting Lia.
From Verif Require Import Base Commons Script ScriptSpec ScriptOrderProofs SortProofs OrderTheory Usl UslSpec UslProofs UslSsProofs UslRoundProofs Sfun UslParser Path PathBuildProofs RebuildSpec Instance UslTable UslTableProofs TablesProofs UslTableSpec.
Import ListNotations.
Local Open Scope string_scope.

(** ** Lists of the same length, sorted, compared element by element *)
Notation lex := (seq_lt script_eqb lt).
Lemma lt_eqb a b : nf a -> nf b -> lt a b = true -> script_eqb a b = false.
Proof.
  intros Ha Hb L. apply not_true_iff_false. intros E. apply (o_eqb _ _ _ _ order_script) in E; auto. rewrite (o_irr _ _ _ _ order_script a b Ha Hb E) in L. discriminate.
Qed.
Lemma lex_insert x : nf x -> forall a b, Forall nf a -> Forall nf b -> List.length a = List.length b -> ~ In (str x) (map str a) -> ~ In (str x) (map str b) -> weak_sorted lt a -> weak_sorted lt b ->
  lex (insert lt x a) (insert lt x b) = lex a b.
Proof.
  intros Hx. induction a as [|y a IH]; intros [|z b] Fa Fb L Na Nb Sa Sb; try discriminate.
  - cbn. assert (E : script_eqb x x = true) by (now apply (o_eqb _ _ _ _ order_script)). now rewrite E.
  - apply Forall_cons_iff in Fa, Fb. destruct Fa as [Hy Fa], Fb as [Hz Fb]. cbn [map In] in Na, Nb. injection L as L.
    pose proof (o_total _ _ _ _ order_script y x Hy Hx) as T1. pose proof (o_total _ _ _ _ order_script z x Hz Hx) as T2. pose proof (o_total _ _ _ _ order_script y z Hy Hz) as T3.
    assert (Exx : script_eqb x x = true) by (now apply (o_eqb _ _ _ _ order_script)).
    assert (EQ : forall a b, nf a -> nf b -> script_eqb a b = true <-> str a = str b) by (intros; now apply (o_eqb _ _ _ _ order_script)).
    assert (NEQ : forall a b, nf a -> nf b -> str a <> str b -> script_eqb a b = false) by (intros a0 b0 A B N; apply not_true_iff_false; intros E; apply N; now apply EQ).
    assert (AS : forall a b, nf a -> nf b -> lt a b = true -> lt b a = false) by (intros a0 b0 A B X; destruct (lt b0 a0) eqn:Y; [|reflexivity]; pose proof (o_trans _ _ _ _ order_script a0 b0 a0 A B A X Y) as Z; rewrite (o_irr _ _ _ _ order_script a0 a0 A A eq_refl) in Z; discriminate).
    cbn [insert]. destruct (lt y x) eqn:Lyx, (lt z x) eqn:Lzx; cbn [seq_lt].
    + destruct (script_eqb y z); [|reflexivity]. inversion Sa; inversion Sb; subst. apply IH; auto.
    + rewrite (lt_eqb y x) by auto. rewrite Lyx. assert (Lxz : lt x z = true) by (destruct T2; [intros X; apply Nb; now left|congruence|assumption]).
      pose proof (o_trans _ _ _ _ order_script y x z Hy Hx Hz Lyx Lxz) as Q. rewrite (lt_eqb y z), Q by auto. reflexivity.
    + assert (Lxy : lt x y = true) by (destruct T1; [intros X; apply Na; now left|congruence|assumption]). rewrite (NEQ x z) by (auto; intros X; apply Nb; now left). rewrite (AS z x) by auto.
      pose proof (o_trans _ _ _ _ order_script z x y Hz Hx Hy Lzx Lxy) as Q. rewrite (AS z y) by auto. rewrite (NEQ y z); auto. intros X. rewrite (o_irr _ _ _ _ order_script z y) in Q; auto. discriminate.
    + rewrite Exx. reflexivity.
Qed.
Lemma lex_common k : Forall nf k -> forall a b, Forall nf a -> Forall nf b -> List.length a = List.length b -> NoDup (map str (k ++ a)) -> NoDup (map str (k ++ b)) ->
  lex (isort (k ++ a)) (isort (k ++ b)) = lex (isort a) (isort b).
Proof.
  induction 1 as [|x k Hx Fk IH]; intros a b Fa Fb L Na Nb; [reflexivity|]. cbn [app map] in *. apply NoDup_cons_iff in Na, Nb. destruct Na as [Na Na'], Nb as [Nb Nb'].
  change (isort (x :: k ++ a)) with (insert lt x (isort (k ++ a))). change (isort (x :: k ++ b)) with (insert lt x (isort (k ++ b))). rewrite lex_insert; auto.
  - apply (Permutation_Forall (Permutation_sym (sort_perm lt _))). now apply Forall_app.
  - apply (Permutation_Forall (Permutation_sym (sort_perm lt _))). now apply Forall_app.
  - unfold isort. rewrite !(Permutation_length (sort_perm lt _)), !app_length. lia.
  - intros H. apply Na. eapply Permutation_in; [apply Permutation_map, sort_perm|exact H].
  - intros H. apply Nb. eapply Permutation_in; [apply Permutation_map, sort_perm|exact H].
  - apply (o_sorted order_script). now apply Forall_app.
  - apply (o_sorted order_script). now apply Forall_app.
Qed.

(** ** The order of two choices *)
Definition smaller (d d' : list script) : bool :=
  let n := List.length (filter_empty d) in let n' := List.length (filter_empty d') in
  (Nat.ltb n n' || (Nat.eqb n n' && lex (isort (filter_empty d)) (isort (filter_empty d'))))%bool.
Lemma least a : nf a -> is_empty a = false -> lt (Null 0) a = true.
Proof.
  intros Ha E. assert (Nn : nf (Null 0)) by (split; [cbn; lia|discriminate]).
  assert (X : script_eqb (Null 0) a = false). { apply not_true_iff_false. intros X. apply (o_eqb _ _ _ _ order_script) in X; auto. apply is_empty_str in X; auto using nf_wf. rewrite E in X. discriminate. }
  cbn [lt]. rewrite X. destruct (negb _) eqn:Y; [|reflexivity]. cbn [layer] in *. apply negb_true_iff, Nat.eqb_neq in Y. apply Nat.ltb_lt. lia.
Qed.
Lemma seq_irr (l : list group) : Forall gok l -> seq_lt group_eqb group_lt l l = false.
Proof. intros F. apply (o_irr _ _ _ _ (order_seq order_group)); auto. Qed.
Lemma fe_nf l : Forall nf l -> Forall nf (filter_empty l).
Proof. intros F. apply Forall_forall. intros x Hx. apply filter_In in Hx. rewrite Forall_forall in F. apply F. tauto. Qed.
Lemma fe_app a b : filter_empty (a ++ b) = (filter_empty a ++ filter_empty b)%list.
Proof. apply filter_app. Qed.
Lemma fe_empty l m : In m (filter_empty l) -> is_empty m = false.
Proof. intros H. apply filter_In in H. destruct H as [_ H]. now apply negb_true_iff. Qed.
Lemma isort_len l : List.length (isort l) = List.length l.
Proof. apply Permutation_length, sort_perm. Qed.
Definition orE (l : list script) : list script := match l with [] => [Null 0] | x :: r => x :: r end.
Lemma pm_small K gs d d' : Forall nf K -> Forall nf d -> Forall nf d' -> Forall gok gs -> NoDup (map str (filter_empty (K ++ d))) -> NoDup (map str (filter_empty (K ++ d'))) ->
  pm_lt (mk_pm (K ++ d) gs) (mk_pm (K ++ d') gs) = smaller d d'.
Proof.
  intros FK Fd Fd' Fg Nd Nd'.
  assert (E : pm_lt (mk_pm (K ++ d) gs) (mk_pm (K ++ d') gs) = (let A := orE (isort (filter_empty (K ++ d))) in let B := orE (isort (filter_empty (K ++ d'))) in
     (Nat.ltb (List.length A) (List.length B) || (Nat.eqb (List.length A) (List.length B) && lex A B))%bool)).
  { unfold pm_lt, mk_pm. cbn [constant groups]. rewrite seq_irr.
    - rewrite andb_false_r, orb_false_r. reflexivity.
    - apply (Permutation_Forall (Permutation_sym (sort_perm group_lt _))). apply Forall_forall. intros g Hg. apply in_map_iff in Hg. destruct Hg as (x & <- & Hx). unfold gok. cbn [fst].
      apply (Permutation_Forall (Permutation_sym (sort_perm lt _))). apply fe_nf. rewrite Forall_forall in Fg. exact (Fg x Hx). }
  rewrite E. clear E. cbv zeta. rewrite !fe_app in *. unfold smaller. cbv zeta.
  assert (FK' := fe_nf K FK). assert (Fd1 := fe_nf d Fd). assert (Fd2 := fe_nf d' Fd').
  assert (M1 : Forall (fun m => is_empty m = false) (filter_empty d)) by (apply Forall_forall; apply fe_empty).
  assert (M2 : Forall (fun m => is_empty m = false) (filter_empty d')) by (apply Forall_forall; apply fe_empty).
  revert Nd Nd' FK' Fd1 Fd2 M1 M2. generalize (filter_empty K) as k, (filter_empty d) as a, (filter_empty d') as b. clear. intros k a b Na Nb Fk Fa Fb Ma Mb.
  assert (Gen : k <> [] \/ (a <> [] /\ b <> []) -> (Nat.ltb (List.length (orE (isort (k ++ a)))) (List.length (orE (isort (k ++ b)))) || (Nat.eqb (List.length (orE (isort (k ++ a)))) (List.length (orE (isort (k ++ b)))) && lex (orE (isort (k ++ a))) (orE (isort (k ++ b)))))%bool
     = (Nat.ltb (List.length a) (List.length b) || (Nat.eqb (List.length a) (List.length b) && lex (isort a) (isort b)))%bool).
  { intros H. assert (X : forall l, l <> [] -> orE (isort l) = isort l). { intros l Hl. unfold orE. pose proof (isort_len l) as L. destruct (isort l); [destruct l; [congruence|discriminate]|reflexivity]. }
    rewrite (X (k ++ a)%list), (X (k ++ b)%list).
    - rewrite !isort_len, !app_length. replace (Nat.ltb (List.length k + List.length a) (List.length k + List.length b)) with (Nat.ltb (List.length a) (List.length b)).
      + replace (Nat.eqb (List.length k + List.length a) (List.length k + List.length b)) with (Nat.eqb (List.length a) (List.length b)).
        * destruct (Nat.eqb (List.length a) (List.length b)) eqn:L; [|reflexivity]. apply Nat.eqb_eq in L. now rewrite lex_common.
        * apply eq_true_iff_eq. rewrite !Nat.eqb_eq. lia.
      + apply eq_true_iff_eq. rewrite !Nat.ltb_lt. lia.
    - destruct H as [H|[_ H]]; destruct k, b; cbn; congruence.
    - destruct H as [H|[H _]]; destruct k, a; cbn; congruence. }
  destruct k as [|x k]; [|apply Gen; left; discriminate]. cbn [app] in *. destruct a as [|x a].
  - destruct b as [|y b].
    + cbn. reflexivity.
    + clear Gen. change (orE (isort [])) with [Null 0]. assert (Y : orE (isort (y :: b)) = isort (y :: b)) by (pose proof (isort_len (y :: b)) as L; unfold orE; destruct (isort (y :: b)); [discriminate|reflexivity]). rewrite Y, isort_len. cbn [List.length]. destruct b as [|z b].
      * change (isort [y]) with [y]. cbn [seq_lt]. apply Forall_cons_iff in Fb, Mb. rewrite least by tauto. assert (Z : script_eqb (Null 0) y = false) by (apply lt_eqb; [split; [cbn; lia|discriminate]|tauto|apply least; tauto]). now rewrite Z.
      * reflexivity.
  - destruct b as [|y b]; [|apply Gen; right; split; discriminate]. clear Gen. change (orE (isort [])) with [Null 0]. assert (Y : orE (isort (x :: a)) = isort (x :: a)) by (pose proof (isort_len (x :: a)) as L; unfold orE; destruct (isort (x :: a)); [discriminate|reflexivity]). rewrite Y, isort_len. destruct a as [|z a]; [|reflexivity].
    change (isort [x]) with [x]. cbn [seq_lt]. apply Forall_cons_iff in Fa, Ma. assert (Nn : nf (Null 0)) by (split; [cbn; lia|discriminate]). assert (L : lt (Null 0) x = true) by (apply least; tauto). destruct (script_eqb x (Null 0)); [reflexivity|]. destruct (lt x (Null 0)) eqn:Q; [|reflexivity].
    pose proof (o_trans _ _ _ _ order_script _ _ _ Nn (proj1 Fa) Nn L Q) as Z. rewrite (o_irr _ _ _ _ order_script (Null 0) (Null 0) Nn Nn eq_refl) in Z. discriminate.
Qed.

(** ** Texts of choices *)
Notation same d d' := (Permutation (map str (filter_empty d)) (map str (filter_empty d'))).
Lemma fe_constant d gs : filter_empty (constant (mk_pm d gs)) = isort (filter_empty d).
Proof.
  cbn [mk_pm constant]. destruct (isort (filter_empty d)) as [|x l] eqn:E; [reflexivity|]. rewrite <- E. apply filter_empty_id. apply (Permutation_Forall (Permutation_sym (sort_perm lt _))). apply filter_empty_all.
Qed.
Lemma same_constant d gs : same (constant (mk_pm d gs)) d.
Proof. rewrite fe_constant. apply Permutation_map, sort_perm. Qed.
Lemma text_same K gs d d' : Forall nf K -> Forall nf d -> Forall nf d' -> Forall gok gs -> pm_str (mk_pm (K ++ d) gs) = pm_str (mk_pm (K ++ d') gs) <-> same d d'.
Proof.
  intros FK Fd Fd' Fg. assert (A := Forall_app nf K d). assert (B := Forall_app nf K d'). assert (FA : Forall nf (K ++ d)) by tauto. assert (FB : Forall nf (K ++ d')) by tauto. split.
  - intros E. apply pm_str_key in E; [|now apply mk_pm_ok..]. unfold pkey in E. assert (Ec : map str (constant (mk_pm (K ++ d) gs)) = map str (constant (mk_pm (K ++ d') gs))) by congruence. apply mk_pm_constant_key in Ec; auto. rewrite !fe_app, !map_app in Ec. now apply Permutation_app_inv_l in Ec.
  - intros P. apply pm_str_key; [now apply mk_pm_ok..|]. unfold pkey. f_equal. apply mk_pm_constant_key; auto. rewrite !fe_app, !map_app. now apply Permutation_app_head.
Qed.
Lemma flatpm_nf s : flatpm s -> Forall nf (constant s).
Proof. intros (d & F & ->). pose proof (mk_pm_ok d [] F (Forall_nil _)) as [[H _] _]. exact H. Qed.
Lemma flatpm_text s s' : flatpm s -> flatpm s' -> (pm_str s = pm_str s' <-> same (constant s) (constant s')).
Proof.
  intros (d & F & ->) (d' & F' & ->). rewrite (text_same [] [] d d') by auto. split; intros H.
  - rewrite (same_constant d []), (same_constant d' []). exact H.
  - rewrite <- (same_constant d []), <- (same_constant d' []). exact H.
Qed.

Lemma smaller_pm d d' : Forall nf d -> Forall nf d' -> NoDup (map str (filter_empty d)) -> NoDup (map str (filter_empty d')) -> smaller d d' = pm_lt (mk_pm d []) (mk_pm d' []).
Proof. intros. symmetry. now apply (pm_small [] []). Qed.
Lemma same_nodup d e : same d e -> NoDup (map str (filter_empty d)) -> NoDup (map str (filter_empty e)).
Proof. intros P. now apply Permutation_NoDup. Qed.
Lemma smaller_same d d' e e' : Forall nf d -> Forall nf d' -> Forall nf e -> Forall nf e' -> NoDup (map str (filter_empty d)) -> NoDup (map str (filter_empty d')) ->
  same d e -> same d' e' -> smaller d d' = smaller e e'.
Proof.
  intros F1 F2 F3 F4 N1 N2 S1 S2. rewrite !smaller_pm by eauto using same_nodup. apply (o_compat order_pm); try (apply mk_pm_ok; auto); now apply (text_same [] []).
Qed.
Lemma ss_nodup so p : set_order so -> pok p -> NoDup (map pm_str (pm_ss so p)).
Proof.
  intros SO [[P1 P2] _]. destruct (groups p) as [|g gs] eqn:E; [unfold pm_ss; rewrite E; cbn; constructor; [intros []|constructor]|].
  rewrite pm_ss_groups by congruence. apply traits_spec; auto; congruence.
Qed.
Lemma nodup_map_eq {A B} (f : A -> B) l x y : NoDup (map f l) -> In x l -> In y l -> f x = f y -> x = y.
Proof.
  induction l as [|z l IH]; cbn [map In]; intros N Hx Hy E; [tauto|]. apply NoDup_cons_iff in N. destruct N as [Nz N]. destruct Hx as [->|Hx], Hy as [->|Hy]; auto.
  - exfalso. apply Nz. rewrite E. now apply in_map.
  - exfalso. apply Nz. rewrite <- E. now apply in_map.
Qed.
Lemma nodup_of_map {A B} (f : A -> B) l : NoDup (map f l) -> NoDup l.
Proof. apply NoDup_map_inv. Qed.
Lemma NoDup_right {A} (a b : list A) : NoDup (a ++ b) -> NoDup b.
Proof. induction a as [|x a IH]; cbn; [auto|]. intros N. apply NoDup_cons_iff in N. tauto. Qed.
Lemma NoDup_left {A} (a b : list A) : NoDup (a ++ b) -> NoDup a.
Proof. induction a as [|x a IH]; cbn; [constructor|]. intros N. apply NoDup_cons_iff in N. destruct N as [N1 N2]. constructor; [|auto]. intros H. apply N1, in_or_app. now left. Qed.

Section Order.
  Variable so : list script -> list script.
  Variable po : list path -> list path.
  Variable wl : word -> word -> bool.
  Hypothesis SO : set_order so.
  Hypothesis PO : forall l, Permutation (po l) l.
  Variable u : pm.
  Hypothesis G : pm_good u.
  Hypothesis NR : no_repetition u.
  Variable gi : gidx.
  Variable hrow : option gidx.
  Hypothesis Hi : groups_at u gi <> None.
  Hypothesis Hh : match hrow with Some h => groups_at u h <> None /\ h <> gi | None => True end.
  Lemma at_path g : group_path u g = gpath u g. Proof. reflexivity. Qed.
  Lemma rest_eq : rest_groups u (restb gi hrow) = select u (in_rest gi hrow).
  Proof. unfold rest_groups, select, restb, in_rest. destruct hrow; reflexivity. Qed.
  Lemma head_eq : rest_groups u (headb gi hrow) = select u (fun h => (in_rest gi hrow h || gidx_eqb h gi)%bool).
  Proof. unfold rest_groups, select, headb, restb, in_rest. destruct hrow; reflexivity. Qed.
  Lemma inJ_eq g : groups_at u g <> None -> inJ u gi hrow g = in_rows gi hrow g.
  Proof.
    intros Hg. apply eq_true_iff_eq. rewrite inJ_in, J_in by auto. unfold in_rows, has_group. destruct hrow as [h|].
    - split; [intros ->; now apply gidx_eqb_eq|apply gidx_eqb_eq].
    - rewrite negb_true_iff. split; [intros [N _]; apply not_true_iff_false; intros E; apply gidx_eqb_eq in E; auto|]. intros N. split; [intros ->; apply not_true_iff_false in N; apply N; now apply gidx_eqb_eq|]. destruct (groups_at u g); [reflexivity|congruence].
  Qed.
  Lemma rows_eq : rowpm u gi hrow = mk_pm [] (select u (in_rows gi hrow)).
  Proof.
    unfold rowpm. f_equal. unfold row_groups, select. assert (X : forall ls, flat_map (fun g => match groups_at u g with Some gr => if inJ u gi hrow g then [gr] else [] | None => [] end) ls = flat_map (fun g => match groups_at u g with Some gr => if in_rows gi hrow g then [gr] else [] | None => [] end) ls); [|apply X].
    induction ls as [|g ls IH]; [reflexivity|]. cbn [flat_map]. rewrite IH. f_equal. pose proof (inJ_eq g) as E. destruct (groups_at u g); [|reflexivity]. now rewrite E.
  Qed.
  Lemma one_eq gr : groups_at u gi = Some gr -> one u gi = mk_pm [] [gr].
  Proof. intros E. unfold one. now rewrite (group_eq u gi gr E). Qed.

  Definition kR (r : pm) : list script := row_parts u gi hrow r.
  Lemma choice_nodup f d : choice u f d -> f Constant = false -> NoDup (map str (filter_empty (constant u ++ d))).
  Proof.
    intros C F. assert (X : choice u (fun g => (gidx_eqb Constant g || f g)%bool) (constant u ++ d)).
    { apply (choice_app u G NR); [apply (choice_constant u G NR)|exact C|]. intros g E Fg. apply gidx_eqb_eq in E. subst g. congruence. }
    apply X.
  Qed.
  Lemma cellp_small f d d' : f Constant = false -> choice u f d -> choice u f d' -> pm_lt (cellp u gi hrow d) (cellp u gi hrow d') = smaller d d'.
  Proof.
    intros F C C'. apply pm_small; [apply (ms_nf u G Constant)|apply C|apply C'|apply (rest_groups_ok u G)|now apply (choice_nodup f)|now apply (choice_nodup f)].
  Qed.
  Lemma cellp_same f d d' : choice u f d -> choice u f d' -> pm_str (cellp u gi hrow d) = pm_str (cellp u gi hrow d') <-> same d d'.
  Proof. intros C C'. apply text_same; [apply (ms_nf u G Constant)|apply C|apply C'|apply (rest_groups_ok u G)]. Qed.
  Lemma strict {A} (k : A -> list script) f l : f Constant = false -> Forall (fun x => choice u f (k x)) l ->
    (forall x y, In x l -> In y l -> same (k x) (k y) -> x = y) -> NoDup l ->
    StronglySorted (fun s t => pm_lt (cellp u gi hrow (k t)) (cellp u gi hrow (k s)) = false) l -> StronglySorted (fun s t => smaller (k s) (k t) = true) l.
  Proof.
    intros F FC Inj N. induction 1 as [|x l Sl IH Fx]; [constructor|]. apply Forall_cons_iff in FC. destruct FC as [Cx FC]. apply NoDup_cons_iff in N. destruct N as [Nx N]. constructor.
    - apply IH; auto. intros a b Ha Hb. apply Inj; now right.
    - rewrite Forall_forall in *. intros y Hy. rewrite <- (cellp_small f) by auto. specialize (Fx y Hy).
      destruct (o_total _ _ _ _ order_pm (cellp u gi hrow (k x)) (cellp u gi hrow (k y))) as [L|L]; [now apply (cellp_ok u G gi hrow f)|now apply (cellp_ok u G gi hrow f); apply FC| |exact L|congruence].
      intros E. apply (cellp_same f) in E; auto. apply Inj in E; [|now left|now right]. subst y. auto.
  Qed.

  Lemma J_nil : J u gi hrow = [] -> select u (in_rows gi hrow) = [].
  Proof.
    intros E. unfold select. assert (X : forall ls, flat_map (fun g => match groups_at u g with Some gr => if in_rows gi hrow g then [gr] else [] | None => [] end) ls = []); [|apply X].
    induction ls as [|g ls IH]; [reflexivity|]. cbn [flat_map]. rewrite IH, app_nil_r. pose proof (inJ_eq g) as Q. destruct (groups_at u g); [|reflexivity]. rewrite <- Q by discriminate. unfold inJ. rewrite E. reflexivity.
  Qed.
  Lemma inJ_C : inJ u gi hrow Constant = false.
  Proof. apply not_true_iff_false. intros H. destruct (inJ_rest u gi hrow Hh Constant H). congruence. Qed.
  Lemma gi_C : gidx_eqb Constant gi = false.
  Proof. apply not_true_iff_false. intros H. apply gidx_eqb_eq in H. now apply (gi_not u gi Hi). Qed.
  Definition is_cell (c r : pm) (x : usl) : Prop := exists p, x = UPm p /\ pok p /\ made p /\ pm_str p = pm_str (cell u gi hrow c r).
  Definition is_header (r : pm) (x : usl) : Prop := exists p, x = UPm p /\ pok p /\ made p /\ pm_str p = pm_str (header u gi hrow r).
  Lemma table_spec : exists cs rs cells hs,
    Permutation (map pm_str cs) (map pm_str (pm_ss so (one u gi))) /\ Permutation (map pm_str rs) (map pm_str (pm_ss so (rowpm u gi hrow))) /\
    Forall (fun c => choice u (fun h => gidx_eqb h gi) (constant c) /\ flatpm c) cs /\
    Forall (fun r => choice u (inJ u gi hrow) (kR r) /\ flatpm r /\ same (kR r) (constant r)) rs /\
    StronglySorted (fun s t => smaller (constant s) (constant t) = true) cs /\
    StronglySorted (fun s t => smaller (constant s) (constant t) = true) rs /\
    table_cells so po wl (UPm u) (group_path u gi) (option_map (group_path u) hrow) = Ok cells /\
    table_rows so po wl (UPm u) (group_path u gi) (option_map (group_path u) hrow) = Ok hs /\
    Forall2 (fun r l => Forall2 (fun c => is_cell c r) cs l) rs cells /\
    Forall2 is_header rs hs.
  Proof.
    destruct (cells_ok so po wl SO PO u G NR gi hrow Hi Hh) as (C & R & cells & PC & PR & FR & SC & SR & EC & ER & Ecells & Fcells).
    destruct (headers_ok so po wl SO u G NR gi hrow Hi Hh C R PC FR EC ER) as (hs & Ehs & Fhs).
    assert (PCt : Permutation (map pm_str C) (map pm_str (pm_ss so (one u gi)))) by (now apply Permutation_map).
    assert (FC : Forall (fun c => choice u (fun h => gidx_eqb h gi) (constant c) /\ flatpm c) C).
    { apply Forall_forall. intros c Hc. apply (Permutation_in _ PC) in Hc. split; [now apply (one_choice so SO u G gi c)|]. destruct (one_ok u G gi) as [O N]. now apply (ss_flatpm so (one u gi)). }
    assert (FR' : Forall (fun r => choice u (inJ u gi hrow) (kR r) /\ flatpm r /\ same (kR r) (constant r)) R).
    { apply Forall_forall. intros r Hr. pose proof FR as FR0. rewrite Forall_forall in FR0. destruct (FR0 r Hr) as [Cr Fr]. split; [exact Cr|]. split; [exact Fr|]. unfold kR, row_parts. destruct (J u gi hrow) eqn:EJ; [|reflexivity].
      pose proof (J_nil EJ) as Sn. assert (Hr' : In (pm_str r) (map pm_str (pm_ss so (rowpm u gi hrow)))) by (eapply Permutation_in; [exact PR|now apply in_map]). rewrite rows_eq, Sn in Hr'. cbn [pm_ss mk_pm groups map sort] in Hr'. cbn [map In] in Hr'. destruct Hr' as [E|[]].
      change (pm_str (mk_pm [] []) = pm_str r) in E. assert (F0 : flatpm (mk_pm [] [])) by (exists []; split; [constructor|reflexivity]). apply (flatpm_text _ _ F0 Fr) in E. exact E. }
    assert (NC : NoDup (map pm_str C)) by (eapply Permutation_NoDup; [apply Permutation_sym, PCt|]; apply ss_nodup; [exact SO|]; now apply (one_ok u G gi)).
    assert (NRw : NoDup (map pm_str R)) by (eapply Permutation_NoDup; [apply Permutation_sym, PR|]; apply ss_nodup; [exact SO|]; now apply (rowpm_ok u G)).
    assert (SC' : StronglySorted (fun s t => smaller (constant s) (constant t) = true) C).
    { apply (strict constant (fun h => gidx_eqb h gi)); auto using gi_C.
      - eapply Forall_impl; [|exact FC]. intros x Q. apply Q.
      - intros x y Hx Hy E. rewrite Forall_forall in FC. apply (nodup_map_eq pm_str C); auto. apply flatpm_text; [now apply FC|now apply FC|exact E].
      - now apply nodup_of_map in NC. }
    assert (SR' : StronglySorted (fun s t => smaller (constant s) (constant t) = true) R).
    { assert (X : StronglySorted (fun s t => smaller (kR s) (kR t) = true) R).
      { apply (strict kR (inJ u gi hrow)); auto using inJ_C.
        - eapply Forall_impl; [|exact FR']. intros x Q. apply Q.
        - intros x y Hx Hy E. rewrite Forall_forall in FR'. destruct (FR' x Hx) as (_ & Fx & Sx), (FR' y Hy) as (_ & Fy & Sy). apply (nodup_map_eq pm_str R); auto. apply flatpm_text; auto. rewrite <- Sx, <- Sy. exact E.
        - now apply nodup_of_map in NRw. }
      refine (sorted_weaken _ _ _ _ FR' _ X). intros x y (Cx & Fx & Sx) (Cy & Fy & Sy). rewrite (smaller_same (kR x) (kR y) (constant x) (constant y)); auto using flatpm_nf; [apply Cx|apply Cy|apply Cx|apply Cy]. }
    exists C, R, cells, hs. repeat (split; [assumption|]). split; [|].
    - assert (X : forall R cells, Forall (fun r => choice u (inJ u gi hrow) (kR r) /\ flatpm r /\ same (kR r) (constant r)) R -> Forall2 (fun r l => Forall2 (fun c x => exists p, x = UPm p /\ pok p /\ made p /\ pm_str p = pm_str (cellp u gi hrow (constant c ++ row_parts u gi hrow r))) C l) R cells -> Forall2 (fun r l => Forall2 (fun c => is_cell c r) C l) R cells); [|now apply X].
      clear - G FC Hh Hi. intros R cells FR F. induction F as [|r l R cells Fl F IH]; [constructor|]. apply Forall_cons_iff in FR. destruct FR as [(Cr & Fr & Sr) FR]. constructor; [|now apply IH].
      clear IH F FR. induction Fl as [|c x C l (p & -> & Po & Ma & Ep) Fl IH]; [constructor|]. apply Forall_cons_iff in FC. destruct FC as [[Cc Fc] FC]. constructor; [|now apply IH].
      exists p. split; [reflexivity|]. split; [exact Po|]. split; [exact Ma|]. rewrite Ep. unfold cellp, cell. rewrite rest_eq. apply text_same.
      + apply (ms_nf u G Constant).
      + apply Forall_app. split; [apply Cc|apply Cr].
      + apply Forall_app. split; [apply Cc|now apply flatpm_nf].
      + rewrite <- rest_eq. apply (rest_groups_ok u G).
      + rewrite !fe_app, !map_app. now apply Permutation_app_head.
    - clear - G Hi Hh Fhs FR'. induction Fhs as [|r x R hs (p & -> & Po & Ma & Ep) F IH]; [constructor|]. apply Forall_cons_iff in FR'. destruct FR' as [(Cr & Fr & Sr) FR']. constructor; [|now apply IH].
      exists p. split; [reflexivity|]. split; [exact Po|]. split; [exact Ma|]. rewrite Ep. unfold headp, header. rewrite head_eq. apply text_same.
      + apply (ms_nf u G Constant).
      + apply Cr.
      + now apply flatpm_nf.
      + apply Forall_forall. intros gr H. apply in_flat_map in H. destruct H as (g & Hg & H). destruct (groups_at u g) as [y|] eqn:E; [|destruct H]. pose proof (ms_nf u G g) as Fm. unfold ms in Fm. rewrite E in Fm. destruct (_ || _)%bool; [|destruct H]. destruct H as [<-|[]]. destruct Hg as [<-|[<-|[<-|[]]]]; exact Fm.
      + exact Sr.
  Qed.

  (** ** Two cells *)
  Notation cc c := (choice u (fun h => gidx_eqb h gi) (constant c) /\ flatpm c).
  Notation rr r := (choice u (inJ u gi hrow) (kR r) /\ flatpm r /\ same (kR r) (constant r)).
  Lemma sel_ok f : Forall gok (select u f).
  Proof. apply Forall_forall. intros gr H. apply in_flat_map in H. destruct H as (g & Hg & H). destruct (groups_at u g) as [y|] eqn:E; [|destruct H]. pose proof (ms_nf u G g) as Fm. unfold ms in Fm. rewrite E in Fm. destruct (f g); [|destruct H]. destruct H as [<-|[]]. destruct Hg as [<-|[<-|[<-|[]]]]; exact Fm. Qed.
  Lemma mix c r : cc c -> rr r -> choice u (fun g => (gidx_eqb g gi || inJ u gi hrow g)%bool) (constant c ++ kR r).
  Proof. intros [Cc _] [Cr _]. apply (choice_app u G NR); auto. apply (gi_row u gi hrow Hh). Qed.
  Lemma mix_nodup c r : cc c -> rr r -> NoDup (map str (filter_empty (constant u ++ constant c ++ constant r))).
  Proof.
    intros Hc Hr. assert (X := choice_nodup _ _ (mix c r Hc Hr)). cbn beta in X. rewrite gi_C, inJ_C in X. specialize (X eq_refl). destruct Hr as (_ & _ & Sr). eapply Permutation_NoDup; [|exact X]. rewrite !fe_app, !map_app. apply Permutation_app_head. now apply Permutation_app_head.
  Qed.
  Lemma nf_u : Forall nf (constant u). Proof. apply (ms_nf u G Constant). Qed.
  Lemma cell_ok' c r : cc c -> rr r -> pok (cell u gi hrow c r).
  Proof. intros [_ Fc] (_ & Fr & _). apply mk_pm_ok; [|apply sel_ok]. repeat (apply Forall_app; split); auto using nf_u, flatpm_nf. Qed.
  Lemma header_ok' r : rr r -> pok (header u gi hrow r).
  Proof. intros (_ & Fr & _). apply mk_pm_ok; [|apply sel_ok]. repeat (apply Forall_app; split); auto using nf_u, flatpm_nf. Qed.
  Lemma swap_text c r : cc c -> rr r -> pm_str (cell u gi hrow c r) = pm_str (mk_pm ((constant u ++ constant r) ++ constant c) (select u (in_rest gi hrow))).
  Proof.
    intros [_ Fc] (_ & Fr & _). unfold cell. rewrite <- app_assoc. apply text_same; auto using nf_u, sel_ok; [apply Forall_app; split; auto using flatpm_nf..|]. rewrite !fe_app, !map_app. apply Permutation_app_comm.
  Qed.
  Lemma cell_row c c' r : cc c -> cc c' -> rr r -> pm_lt (cell u gi hrow c r) (cell u gi hrow c' r) = smaller (constant c) (constant c').
  Proof.
    intros Hc Hc' Hr. assert (Fc := flatpm_nf c (proj2 Hc)). assert (Fc' := flatpm_nf c' (proj2 Hc')). assert (Fr := flatpm_nf r (proj1 (proj2 Hr))).
    assert (FK : Forall nf (constant u ++ constant r)) by (apply Forall_app; split; auto using nf_u).
    rewrite <- (pm_small (constant u ++ constant r) (select u (in_rest gi hrow)) (constant c) (constant c')); auto using sel_ok.
    - apply (o_compat order_pm); auto using cell_ok', swap_text; (apply mk_pm_ok; [|apply sel_ok]); apply Forall_app; auto.
    - eapply Permutation_NoDup; [|exact (mix_nodup c r Hc Hr)]. rewrite !fe_app, !map_app, <- app_assoc. apply Permutation_app_head, Permutation_app_comm.
    - eapply Permutation_NoDup; [|exact (mix_nodup c' r Hc' Hr)]. rewrite !fe_app, !map_app, <- app_assoc. apply Permutation_app_head, Permutation_app_comm.
  Qed.
  Lemma cell_column c r r' : cc c -> rr r -> rr r' -> pm_lt (cell u gi hrow c r) (cell u gi hrow c r') = smaller (constant r) (constant r').
  Proof.
    intros Hc Hr Hr'. assert (Fc := flatpm_nf c (proj2 Hc)). assert (Fr := flatpm_nf r (proj1 (proj2 Hr))). assert (Fr' := flatpm_nf r' (proj1 (proj2 Hr'))).
    unfold cell. rewrite !app_assoc. apply pm_small; auto using sel_ok; [apply Forall_app; split; auto using nf_u|rewrite <- app_assoc; now apply mix_nodup..].
  Qed.
  Lemma header_row r r' : rr r -> rr r' -> pm_lt (header u gi hrow r) (header u gi hrow r') = smaller (constant r) (constant r').
  Proof.
    intros Hr Hr'. assert (Fr := flatpm_nf r (proj1 (proj2 Hr))). assert (Fr' := flatpm_nf r' (proj1 (proj2 Hr'))).
    assert (N : forall x, rr x -> NoDup (map str (filter_empty (constant u ++ constant x)))).
    { intros x (Cx & _ & Sx). eapply Permutation_NoDup; [|exact (choice_nodup _ _ Cx inJ_C)]. rewrite !fe_app, !map_app. now apply Permutation_app_head. }
    unfold header. apply pm_small; auto using sel_ok, nf_u.
  Qed.
  Lemma of_text f d t : choice u f d -> In t (map str (filter_empty d)) -> exists g m, f g = true /\ In m (ms u g) /\ str m = t.
  Proof.
    intros (_ & _ & H) Ht. apply in_map_iff in Ht. destruct Ht as (m & <- & Hm). apply filter_In in Hm. destruct Hm as [Hm Em]. destruct (H m Hm) as [->|(_ & g & m' & Fg & Hm' & E)]; [discriminate|]. eauto.
  Qed.
  Lemma cell_inj c c' r r' : cc c -> cc c' -> rr r -> rr r' -> pm_str (cell u gi hrow c r) = pm_str (cell u gi hrow c' r') -> pm_str c = pm_str c' /\ pm_str r = pm_str r'.
  Proof.
    intros Hc Hc' Hr Hr' E.
    assert (Fc := flatpm_nf c (proj2 Hc)). assert (Fc' := flatpm_nf c' (proj2 Hc')). assert (Fr := flatpm_nf r (proj1 (proj2 Hr))). assert (Fr' := flatpm_nf r' (proj1 (proj2 Hr'))).
    unfold cell in E. apply text_same in E; [|auto using nf_u, sel_ok; apply Forall_app; auto..]; try apply sel_ok.
    assert (N1 := mix_nodup c r Hc Hr). assert (N2 := mix_nodup c' r' Hc' Hr'). rewrite !fe_app, !map_app in *. apply NoDup_right in N1, N2.
    assert (D : forall x y t, cc x -> rr y -> In t (map str (filter_empty (constant x))) -> In t (map str (filter_empty (constant y))) -> False).
    { intros x y t [Cx _] (Cy & _ & Sy) H1 H2. apply (Permutation_in _ (Permutation_sym Sy)) in H2. destruct (of_text _ _ _ Cx H1) as (g & m & Eg & Hm & Em). destruct (of_text _ _ _ Cy H2) as (h & m' & Eh & Hm' & Em').
      assert (g = h) by (apply (ms_unique u G NR g h m m'); auto; congruence). subst h. exact (gi_row u gi hrow Hh g Eg Eh). }
    assert (O : forall x y t, cc x -> cc y -> In t (map str (filter_empty (constant x))) -> forall z w, rr z -> rr w -> Permutation (map str (filter_empty (constant x)) ++ map str (filter_empty (constant z))) (map str (filter_empty (constant y)) ++ map str (filter_empty (constant w))) -> In t (map str (filter_empty (constant y)))).
    { intros x y t Hx Hy Ht z w Hz Hw P. assert (Q : In t (map str (filter_empty (constant y)) ++ map str (filter_empty (constant w)))) by (eapply Permutation_in; [exact P|apply in_or_app; now left]). apply in_app_or in Q. destruct Q as [Q|Q]; [exact Q|]. exfalso.
      destruct Hx as [Cx Fx]. destruct (of_text _ _ _ Cx Ht) as (g & m & Eg & Hm & Em). destruct Hw as (Cw & _ & Sw). apply (Permutation_in _ (Permutation_sym Sw)) in Q. destruct (of_text _ _ _ Cw Q) as (h & m' & Eh & Hm' & Em').
      assert (g = h) by (apply (ms_unique u G NR g h m m'); auto; congruence). subst h. exact (gi_row u gi hrow Hh g Eg Eh). }
    assert (P1 : same (constant c) (constant c')).
    { apply NoDup_Permutation; [now apply NoDup_left in N1|now apply NoDup_left in N2|]. intros t. split; intros Ht; [apply (O c c' t Hc Hc' Ht r r')|apply (O c' c t Hc' Hc Ht r' r)]; auto. now apply Permutation_sym. }
    assert (P2 : same (constant r) (constant r')).
    { rewrite P1 in E. now apply Permutation_app_inv_l in E. }
    split; apply flatpm_text; auto; tauto.
  Qed.
End Order.
