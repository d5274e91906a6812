(** The boxes found by the factorisation, on coordinates. *)
From Coq Require Import List Bool Arith Lia Permutation.
From Verif Require Import Base Script SortProofs Factor.
Import ListNotations.

Lemma coord_eqb_eq s t : coord_eqb s t = true <-> s = t.
Proof.
  destruct s as [[x y] z], t as [[x' y'] z']. unfold coord_eqb. cbn [c0 c1 c2]. rewrite !andb_true_iff, !Nat.eqb_eq.
  split; [intros [[-> ->] ->]; auto|intros E; injection E; auto].
Qed.
Lemma coord_eta (t : coord) : t = (c0 t, c1 t, c2 t).
Proof. destruct t as [[x y] z]. reflexivity. Qed.
Lemma coord_dec (s t : coord) : {s = t} + {s <> t}.
Proof. destruct (coord_eqb s t) eqn:E; [left; apply coord_eqb_eq; auto|right; intros ->; rewrite (proj2 (coord_eqb_eq t t) eq_refl) in E; discriminate]. Qed.
Lemma memb_coord c l : memb coord_eqb c l = true <-> In c l.
Proof.
  rewrite memb_true. split; [intros (y & H & E); apply coord_eqb_eq in E; subst; auto|intros H; exists c; split; auto; apply coord_eqb_eq; auto].
Qed.
Lemma dedup_coord l c : In c (dedup coord_eqb l) <-> In c l.
Proof.
  split; [apply dedup_in|]. intros H. destruct (dedup_complete coord_eqb (fun x => proj2 (coord_eqb_eq x x) eq_refl) l c H) as (y & H' & E). apply coord_eqb_eq in E. subst. auto.
Qed.
Lemma FOP_NoDup {A} (R : A -> A -> Prop) l : (forall x y, R x y -> x <> y) -> ForallOrdPairs R l -> NoDup l.
Proof.
  intros HR F. induction F as [|x l Hx F IH]; constructor; auto. intros H. rewrite Forall_forall in Hx. apply (HR _ _ (Hx _ H)). reflexivity.
Qed.
Lemma dedup_coord_NoDup l : NoDup (dedup coord_eqb l).
Proof.
  eapply FOP_NoDup; [|apply dedup_distinct]; [|intros x y; unfold coord_eqb; rewrite (Nat.eqb_sym (c0 x)), (Nat.eqb_sym (c1 x)), (Nat.eqb_sym (c2 x)); reflexivity]. intros x y E ->. rewrite (proj2 (coord_eqb_eq y y) eq_refl) in E. discriminate.
Qed.
Lemma in_sort {A} (l : A -> A -> bool) x xs : In x (sort l xs) <-> In x xs.
Proof. split; apply Permutation_in; [|apply Permutation_sym]; apply sort_perm. Qed.

(** * Dictionaries *)
Lemma get_in {A} k (d : list (coord * A)) v : get k d = Ok v -> In (k, v) d.
Proof.
  unfold get. destruct (find (fun e => coord_eqb k (fst e)) d) as [[k' v']|] eqn:E; [|discriminate]. intros H. injection H as <-.
  apply find_some in E. cbn [fst] in E. destruct E as [I E]. apply coord_eqb_eq in E. subst. auto.
Qed.
Lemma get_key {A} k (d : list (coord * A)) : In k (map fst d) -> exists v, get k d = Ok v.
Proof.
  intros H. apply in_map_iff in H. destruct H as ([k' v] & <- & H). unfold get.
  destruct (find (fun e => coord_eqb (fst (k', v)) (fst e)) d) as [[k2 v2]|] eqn:E; [eauto|].
  apply find_none with (x := (k', v)) in E; auto. cbn [fst] in E. rewrite (proj2 (coord_eqb_eq k' k') eq_refl) in E. discriminate.
Qed.
Lemma get_no_key {A} k (d : list (coord * A)) : ~ In k (map fst d) -> get k d = Err KeyError.
Proof.
  intros H. unfold get. destruct (find (fun e => coord_eqb k (fst e)) d) as [[k2 v2]|] eqn:E; auto.
  apply find_some in E. cbn [fst] in E. destruct E as [I E]. apply coord_eqb_eq in E. subst. elim H. apply in_map_iff. exists (k2, v2). auto.
Qed.
Lemma get_unique {A} k (d : list (coord * A)) v : NoDup (map fst d) -> In (k, v) d -> get k d = Ok v.
Proof.
  intros N H. destruct (get_key k d) as (v' & E); [apply in_map_iff; exists (k, v); auto|]. rewrite E. f_equal. apply get_in in E.
  clear -N H E. induction d as [|[k1 v1] d IH]; [easy|]. cbn [map fst] in N. apply NoDup_cons_iff in N. destruct N as [N1 N].
  destruct H as [H|H], E as [E|E]; auto.
  - congruence.
  - injection H as -> ->. elim N1. apply in_map_iff. exists (k, v'). auto.
  - injection E as -> ->. elim N1. apply in_map_iff. exists (k, v). auto.
Qed.

(** * Relations *)
Definition related (keys : list coord) (a b : coord) : Prop := cube keys a b = true \/ cube keys b a = true.

Record rel_ok (keys seen : list coord) (rel : list (coord * list coord)) : Prop := {
  ro_keys : map fst rel = seen;
  ro_in : forall k v c, In (k, v) rel -> In c v -> c <> k /\ In c seen /\ related keys k c;
  ro_all : forall i j k c v, nth_error seen i = Some k -> nth_error seen j = Some c -> i < j -> cube keys c k = true -> In (k, v) rel -> In c v;
  ro_sym : forall i j k c v, nth_error seen i = Some k -> nth_error seen j = Some c -> j < i -> cube keys k c = true -> In (k, v) rel -> In c v
}.

Lemma relate_ok keys seen rel s : NoDup (seen ++ [s]) -> rel_ok keys seen rel -> rel_ok keys (seen ++ [s]) (relate keys rel s).
Proof.
  intros N [K I A S]. assert (Ns : ~ In s seen). { apply NoDup_remove_2 in N. rewrite app_nil_r in N. auto. }
  assert (Nseen : NoDup seen). { apply NoDup_remove_1 in N. rewrite app_nil_r in N. auto. }
  unfold relate. set (cubes := filter (cube keys s) (map fst rel)).
  assert (C : forall c, In c cubes <-> In c seen /\ cube keys s c = true) by (intros c; unfold cubes; rewrite filter_In, K; tauto).
  assert (X : forall k v, In (k, v) (map (fun e => if memb coord_eqb (fst e) cubes then (fst e, (snd e ++ [s])%list) else e) rel) ->
    In k seen /\ exists v0, In (k, v0) rel /\ (v = v0 /\ ~ In k cubes \/ v = (v0 ++ [s])%list /\ In k cubes)).
  { intros k v H. apply in_map_iff in H. destruct H as ([k0 v0] & E & H). cbn [fst snd] in E.
    assert (In k0 seen) by (rewrite <- K; apply in_map_iff; exists (k0, v0); auto).
    destruct (memb coord_eqb k0 cubes) eqn:M; injection E as <- <-; (split; [auto|]); exists v0; (split; [auto|]).
    - right. rewrite memb_coord in M. auto.
    - left. split; auto. intros Y. apply memb_coord in Y. congruence. }
  split.
  - rewrite map_app, map_map. cbn [map fst]. f_equal. rewrite <- K. apply map_ext. intros [k v]. cbn [fst]. destruct (memb _ _ _); reflexivity.
  - intros k v c H Hc. apply in_app_iff in H. destruct H as [H|[H|[]]].
    + destruct (X _ _ H) as (Hk & v0 & H0 & [[-> _]|[-> Y]]).
      * destruct (I _ _ _ H0 Hc) as (? & ? & ?). rewrite in_app_iff. auto.
      * apply in_app_iff in Hc. destruct Hc as [Hc|[<-|[]]].
        -- destruct (I _ _ _ H0 Hc) as (? & ? & ?). rewrite in_app_iff. auto.
        -- split; [intros ->; auto|]. split; [apply in_app_iff; simpl; auto|]. apply C in Y. right. tauto.
    + injection H as <- <-. apply C in Hc. destruct Hc as [Hc E]. split; [intros ->; auto|]. split; [apply in_app_iff; auto|left; auto].
  - intros i j k c v Hi Hj L E H.
    assert (Li : i < List.length seen).
    { assert (j < List.length (seen ++ [s])) by (apply nth_error_Some; congruence). rewrite app_length in H0. simpl in H0. lia. }
    rewrite nth_error_app1 in Hi by auto. assert (Hk : In k seen) by (eapply nth_error_In; eauto).
    apply in_app_iff in H. destruct H as [H|[H|[]]].
    2: { injection H as <- <-. now elim Ns. }
    destruct (X _ _ H) as (_ & v0 & H0 & Y).
    destruct (Nat.lt_ge_cases j (List.length seen)) as [Lj|Lj].
    + rewrite nth_error_app1 in Hj by auto. assert (In c v0) by exact (A i j k c v0 Hi Hj L E H0). destruct Y as [[-> _]|[-> _]]; auto. apply in_app_iff; auto.
    + assert (c = s). { rewrite nth_error_app2 in Hj by auto. destruct (j - List.length seen) as [|n] eqn:Ej; [injection Hj; auto|destruct n; discriminate]. }
      subst c. destruct Y as [[-> Y]|[-> _]]; [|apply in_app_iff; simpl; auto]. elim Y. apply C. auto.
  - intros i j k c v Hi Hj L E H.
    apply in_app_iff in H. destruct H as [H|[H|[]]].
    + destruct (X _ _ H) as (Hk & v0 & H0 & Y).
      assert (Li : i < List.length seen).
      { assert (i < List.length (seen ++ [s])) by (apply nth_error_Some; congruence). rewrite app_length in H1. simpl in H1.
        destruct (Nat.eq_dec i (List.length seen)) as [->|]; [|lia]. rewrite nth_error_app2, Nat.sub_diag in Hi by auto. injection Hi as ->. now elim Ns. }
      rewrite nth_error_app1 in Hi, Hj by lia. assert (In c v0) by exact (S i j k c v0 Hi Hj L E H0). destruct Y as [[-> _]|[-> _]]; auto. apply in_app_iff; auto.
    + injection H as <- <-. apply C. split; auto.
      assert (Lj : j < List.length seen). { assert (i < List.length (seen ++ [s])) by (apply nth_error_Some; congruence). rewrite app_length in H. simpl in H. lia. }
      rewrite nth_error_app1 in Hj by auto. eapply nth_error_In; eauto.
Qed.

Lemma relate_all keys l : forall seen rel, NoDup (seen ++ l) -> rel_ok keys seen rel -> rel_ok keys (seen ++ l) (fold_left (relate keys) l rel).
Proof.
  induction l as [|s l IH]; intros seen rel N R; [rewrite app_nil_r; auto|]. cbn [fold_left].
  replace (seen ++ s :: l) with ((seen ++ [s]) ++ l) in * by (rewrite <- app_assoc; reflexivity).
  apply IH; auto. apply relate_ok; auto. clear -N. induction l as [|x l IH] using rev_ind; [rewrite app_nil_r in N; auto|].
  rewrite app_assoc in N. apply NoDup_remove_1 in N. rewrite app_nil_r in N. auto.
Qed.

Lemma relations_ok keys : NoDup keys -> rel_ok keys keys (relations keys).
Proof.
  intros N. pose proof (relate_all keys keys [] [] N) as R. cbn [app] in R. destruct R as [K I A S].
  { split; try easy. }
  assert (X : forall k v, In (k, v) (relations keys) -> exists v0, In (k, v0) (fold_left (relate keys) keys []) /\ v = sort coord_lt v0).
  { intros k v H. unfold relations in H. apply in_map_iff in H. destruct H as ([k0 v0] & E & H). injection E as <- <-. eauto. }
  split.
  - unfold relations. rewrite map_map. cbn [fst]. auto.
  - intros k v c H Hc. destruct (X _ _ H) as (v0 & H0 & ->). rewrite in_sort in Hc. eauto.
  - intros i j k c v Hi Hj L E H. destruct (X _ _ H) as (v0 & H0 & ->). rewrite in_sort. eauto.
  - intros i j k c v Hi Hj L E H. destruct (X _ _ H) as (v0 & H0 & ->). rewrite in_sort. eauto.
Qed.

(** * Boxes *)
Definition box (l : list coord) : Prop := forall p q r, In p l -> In q l -> In r l -> In (c0 p, c1 q, c2 r) l.

Lemma box_one e : box [e].
Proof. intros p q r [<-|[]] [<-|[]] [<-|[]]. left. apply coord_eta. Qed.
Lemma in_neighbours s t c : In c (neighbours s t) <-> (c0 c = c0 s \/ c0 c = c0 t) /\ (c1 c = c1 s \/ c1 c = c1 t) /\ (c2 c = c2 s \/ c2 c = c2 t).
Proof.
  destruct s as [[x y] z], t as [[x' y'] z'], c as [[a b] d]. unfold neighbours. cbn [In c0 c1 c2]. split.
  - intros H. repeat (destruct H as [H|H]; [injection H as <- <- <-; auto|]). easy.
  - intros ([->| ->] & [->| ->] & [->| ->]); tauto.
Qed.
(** The box extended by one coordinate. *)
Definition extend (l : list coord) (r : coord) : list coord := sort coord_lt (dedup coord_eqb (flat_map (fun t => neighbours t r) l)).
Lemma in_extend l r c : In c (extend l r) <-> exists t, In t l /\ In c (neighbours t r).
Proof. unfold extend. rewrite in_sort, dedup_coord, in_flat_map. reflexivity. Qed.
Lemma extend_NoDup l r : NoDup (extend l r).
Proof. unfold extend. eapply Permutation_NoDup; [apply Permutation_sym, sort_perm|apply dedup_coord_NoDup]. Qed.
Lemma extend_box l r : box l -> box (extend l r).
Proof.
  intros B p q t Hp Hq Ht. rewrite in_extend in *. destruct Hp as (p' & Ip & Hp), Hq as (q' & Iq & Hq), Ht as (t' & It & Ht).
  exists (c0 p', c1 q', c2 t'). split; [apply B; auto|]. rewrite in_neighbours in *. cbn [c0 c1 c2]. tauto.
Qed.
Lemma extend_self l r : l <> [] -> In r (extend l r).
Proof. intros N. destruct l as [|t l]; [easy|]. apply in_extend. exists t. split; [simpl; auto|]. apply in_neighbours. auto. Qed.
Lemma extend_incl l r : incl l (extend l r).
Proof. intros c H. apply in_extend. exists c. split; auto. apply in_neighbours. auto. Qed.

Lemma restrict_ok rel facto : forall cand l, restrict rel facto cand = Ok l ->
  incl facto (map fst rel) /\ (forall c, In c l <-> In c cand /\ forall i v, In i facto -> get i rel = Ok v -> In c v) /\
  List.length l <= List.length cand.
Proof.
  induction facto as [|i facto IH]; intros cand l H; cbn [restrict] in H.
  - injection H as <-. split; [easy|]. split; [|lia]. intros c. split; [|tauto]. intros Hc. split; auto. easy.
  - destruct (get i rel) as [v|] eqn:G; [|discriminate]. cbn [bind] in H. apply IH in H. destruct H as (I & M & L). split; [|split].
    + intros x [<-|Hx]; auto. apply get_in in G. apply in_map_iff. exists (i, v). auto.
    + intros c. rewrite M, filter_In, memb_coord. split.
      * intros [[H1 H2] H3]. split; auto. intros j u [<-|Hj] Gu; [congruence|eauto].
      * intros [H1 H2]. split; [split; auto; apply (H2 i v); simpl; auto|]. intros j u Hj Gu. apply (H2 j u); simpl; auto.
    + etransitivity; [exact L|]. clear. induction cand; simpl; auto. destruct (memb _ _ _); simpl; lia.
Qed.
Lemma restrict_total rel facto : forall cand, incl facto (map fst rel) -> exists l, restrict rel facto cand = Ok l.
Proof.
  induction facto as [|i facto IH]; intros cand H; cbn [restrict]; [eauto|]. destruct (get_key i rel) as (v & ->); [apply H; simpl; auto|].
  cbn [bind]. apply IH. intros x Hx. apply H. simpl. auto.
Qed.
Lemma restrict_err rel facto : forall cand e, restrict rel facto cand = Err e -> e = KeyError.
Proof.
  induction facto as [|i facto IH]; intros cand e H; cbn [restrict] in H; [discriminate|].
  destruct (get i rel) as [v|e'] eqn:G; cbn [bind] in H; [eauto|]. unfold get in G. destruct (find _ _) as [[k v]|]; congruence.
Qed.

Lemma sort_hd {A} (lt : A -> A -> bool) l r l' : sort lt l = r :: l' -> In r l.
Proof. intros E. apply (in_sort lt). rewrite E. simpl. auto. Qed.
Lemma sort_nil {A} (lt : A -> A -> bool) l : sort lt l = [] -> l = [].
Proof. intros E. pose proof (sort_perm lt l) as P. rewrite E in P. apply Permutation_nil. auto. Qed.
Lemma sort_length {A} (lt : A -> A -> bool) l : List.length (sort lt l) = List.length l.
Proof. apply Permutation_length, sort_perm. Qed.

Lemma restrict_length rel facto : forall cand l, restrict rel facto cand = Ok l ->
  (exists r i v, In r cand /\ In i facto /\ get i rel = Ok v /\ ~ In r v) -> List.length l < List.length cand.
Proof.
  induction facto as [|i facto IH]; intros cand l H (r & j & v & Hr & Hj & G & N); [easy|]. cbn [restrict] in H.
  destruct (get i rel) as [u|] eqn:Gi; [|discriminate]. cbn [bind] in H.
  assert (Lf : List.length (filter (fun c => memb coord_eqb c u) cand) <= List.length cand).
  { clear. induction cand; simpl; auto. destruct (memb _ _ _); simpl; lia. }
  destruct (in_dec coord_dec r u) as [Y|Y].
  - destruct Hj as [<-|Hj]; [congruence|]. apply IH in H; [lia|]. exists r, j, v. rewrite filter_In, memb_coord. auto.
  - apply restrict_ok in H. destruct H as (_ & _ & L). enough (List.length (filter (fun c => memb coord_eqb c u) cand) < List.length cand) by lia.
    clear -Hr Y. induction cand as [|c cand IH]; [easy|]. cbn [filter]. destruct Hr as [->|Hr].
    + destruct (memb coord_eqb r u) eqn:M; [rewrite memb_coord in M; easy|]. simpl. clear. induction cand; simpl; auto. destruct (memb _ _ _); simpl in *; lia.
    + specialize (IH Hr). destruct (memb coord_eqb c u); simpl; lia.
Qed.

Section First.
  Variables (keys : list coord) (rel : list (coord * list coord)).
  Hypothesis R : rel_ok keys keys rel.

  Lemma get_rel k v c : get k rel = Ok v -> In c v -> c <> k /\ In c keys /\ related keys k c.
  Proof. intros G. apply get_in in G. apply (ro_in _ _ _ R); auto. Qed.

  Lemma first_ok fuel : forall cand facto l, first_factors fuel rel cand facto = Ok l ->
    facto <> [] -> NoDup facto -> incl facto keys -> box facto ->
    l <> [] /\ NoDup l /\ incl l keys /\ box l.
  Proof.
    induction fuel as [|fuel IH]; intros cand facto l H F0 F1 F2 F3; cbn [first_factors] in H;
      destruct (sort _ cand) as [|r cand'] eqn:E; try (injection H as <-; auto; fail); [discriminate|].
    fold (extend facto r) in H. destruct (restrict rel (extend facto r) cand) as [c|] eqn:Ec; [|discriminate]. cbn [bind] in H.
    pose proof (restrict_ok _ _ _ _ Ec) as (I & _). rewrite (ro_keys _ _ _ R) in I.
    assert (extend facto r <> []) by (intros X; pose proof (extend_self facto r F0) as Y; rewrite X in Y; easy).
    destruct c as [|x c].
    - injection H as <-. split; auto. split; [apply extend_NoDup|]. split; auto. apply extend_box; auto.
    - eapply IH; eauto using extend_NoDup, extend_box.
  Qed.

  (** The loop is done after as many steps as there are candidates. *)
  Lemma first_fuel fuel : forall cand facto e, first_factors fuel rel cand facto = Err e ->
    List.length cand <= fuel -> facto <> [] -> incl cand keys -> e = KeyError.
  Proof.
    induction fuel as [|fuel IH]; intros cand facto e H L F0 Ic; cbn [first_factors] in H;
      destruct (sort _ cand) as [|r cand'] eqn:E; try discriminate.
    - destruct cand; [discriminate|simpl in L; lia].
    - apply sort_hd in E. fold (extend facto r) in H. destruct (restrict rel (extend facto r) cand) as [c|e'] eqn:Ec; cbn [bind] in H.
      2: { apply restrict_err in Ec. congruence. }
      pose proof (restrict_ok _ _ _ _ Ec) as (I & M & _).
      assert (Lc : List.length c < List.length cand).
      { destruct (get_key r rel) as (v & G); [rewrite (ro_keys _ _ _ R); auto|]. eapply restrict_length; [exact Ec|].
        exists r, r, v. split; auto. split; [apply extend_self; auto|]. split; auto. intros X. destruct (get_rel _ _ _ G X) as (Y & _). auto. }
      destruct c as [|x c]; [discriminate|]. eapply IH; eauto.
      + rewrite sort_length. lia.
      + intros X. pose proof (extend_self facto r F0) as Y. rewrite X in Y. easy.
      + intros y Hy. rewrite in_sort in Hy. apply M in Hy. apply Ic. tauto.
  Qed.

  (** No failure when related coordinates always span a full box. *)
  Definition spans : Prop := forall i r, In i keys -> In r keys -> related keys i r -> incl (neighbours i r) keys.
  Lemma first_total fuel : spans -> forall cand facto, facto <> [] -> incl facto keys -> incl cand keys -> List.length cand <= fuel ->
    (forall i c v, In i facto -> In c cand -> get i rel = Ok v -> In c v) ->
    exists l, first_factors fuel rel cand facto = Ok l.
  Proof.
    intros Sp. induction fuel as [|fuel IH]; intros cand facto F0 Ff Fc L C; cbn [first_factors];
      destruct (sort _ cand) as [|r cand'] eqn:E; [eauto| |eauto|].
    - apply sort_hd in E. destruct cand; [easy|simpl in L; lia].
    - apply sort_hd in E. fold (extend facto r).
      assert (I : incl (extend facto r) keys).
      { intros c Hc. apply in_extend in Hc. destruct Hc as (t & Ht & Hc). destruct (get_key t rel) as (v & G); [rewrite (ro_keys _ _ _ R); auto|].
        destruct (get_rel t v r G (C _ _ _ Ht E G)) as (_ & _ & Y). apply (Sp t r); auto. }
      destruct (restrict_total rel (extend facto r) cand) as (c & Ec); [rewrite (ro_keys _ _ _ R); auto|]. rewrite Ec. cbn [bind].
      pose proof (restrict_ok _ _ _ _ Ec) as (_ & M & _).
      assert (Lc : List.length c < List.length cand).
      { destruct (get_key r rel) as (v & G); [rewrite (ro_keys _ _ _ R); auto|]. eapply restrict_length; [exact Ec|].
        exists r, r, v. split; auto. split; [apply extend_self; auto|]. split; auto. intros X. destruct (get_rel _ _ _ G X) as (Y & _). auto. }
      destruct c as [|x c]; [eauto|]. apply IH; auto.
      + intros X. pose proof (extend_self facto r F0) as Y. rewrite X in Y. easy.
      + intros y Hy. rewrite in_sort in Hy. apply M in Hy. apply Fc. tauto.
      + rewrite sort_length. lia.
      + intros i y v Hi Hy. rewrite in_sort in Hy. apply M in Hy. intros G. destruct Hy as [_ Hy]. eauto.
  Qed.

  (** When all the coordinates make a box, it is found. *)
  Lemma first_full fuel : box keys -> (forall i v, get i rel = Ok v -> forall c, In c keys -> c <> i -> In c v) ->
    forall cand facto l, first_factors fuel rel cand facto = Ok l -> facto <> [] ->
    (forall c, In c keys <-> In c cand \/ In c facto) -> forall c, In c keys -> In c l.
  Proof.
    intros B A. induction fuel as [|fuel IH]; intros cand facto l H F0 C c Hc; cbn [first_factors] in H;
      destruct (sort _ cand) as [|r cand'] eqn:E; try discriminate.
    - apply sort_nil in E. subst. injection H as <-. apply C in Hc. destruct Hc as [[]|]; auto.
    - apply sort_nil in E. subst. injection H as <-. apply C in Hc. destruct Hc as [[]|]; auto.
    - apply sort_hd in E. fold (extend facto r) in H. destruct (restrict rel (extend facto r) cand) as [c'|e'] eqn:Ec; [|discriminate]. cbn [bind] in H.
      pose proof (restrict_ok _ _ _ _ Ec) as (I & M & _). rewrite (ro_keys _ _ _ R) in I.
      assert (X : forall y, In y keys <-> In y c' \/ In y (extend facto r)).
      { intros y. split.
        - intros Hy. destruct (in_dec coord_dec y (extend facto r)) as [Y|Y]; auto. left. apply M. split.
          + apply C in Hy. destruct Hy as [|Hy]; auto. elim Y. apply extend_incl. auto.
          + intros i v Hi G. apply (A i v); auto. intros ->. auto.
        - intros [Hy|Hy]; auto. apply M in Hy. apply C. tauto. }
      destruct c' as [|x c'].
      + injection H as <-. apply X in Hc. destruct Hc as [[]|]; auto.
      + eapply IH in H; eauto.
        * intros Z. pose proof (extend_self facto r F0) as Y. rewrite Z in Y. easy.
        * intros y. rewrite in_sort. apply X.
  Qed.
End First.

Lemma rev_hd {A} (l : list A) x r : rev l = x :: r -> In x l.
Proof. intros E. apply in_rev. rewrite E. simpl. auto. Qed.

Lemma choose_ok keys l : NoDup keys -> choose (relations keys) = Ok l -> l <> [] /\ NoDup l /\ incl l keys /\ box l.
Proof.
  intros N H. pose proof (relations_ok keys N) as R. unfold choose in H. destruct (rev _) as [|e r] eqn:E; [discriminate|].
  apply rev_hd in E. rewrite in_sort, (ro_keys _ _ _ R) in E. destruct (get e (relations keys)) as [v|] eqn:G; [|discriminate]. cbn [bind] in H.
  eapply first_ok; eauto; [discriminate|repeat constructor; simpl; tauto|intros x [<-|[]]; auto|apply box_one].
Qed.
Lemma choose_err keys e : NoDup keys -> keys <> [] -> choose (relations keys) = Err e -> e = KeyError.
Proof.
  intros N K H. pose proof (relations_ok keys N) as R. unfold choose in H. destruct (rev _) as [|x r] eqn:E.
  { apply (f_equal (@rev _)) in E. rewrite rev_involutive in E. apply sort_nil in E. rewrite (ro_keys _ _ _ R) in E. easy. }
  apply rev_hd in E. rewrite in_sort, (ro_keys _ _ _ R) in E. destruct (get x (relations keys)) as [v|e'] eqn:G; cbn [bind] in H.
  - eapply first_fuel; eauto; [discriminate|]. intros y Hy. apply (get_rel _ _ R _ _ _ G Hy).
  - destruct (get_key x (relations keys)) as (v & X); [rewrite (ro_keys _ _ _ R); auto|congruence].
Qed.
Lemma choose_total keys : NoDup keys -> keys <> [] -> spans keys -> exists l, choose (relations keys) = Ok l.
Proof.
  intros N K Sp. pose proof (relations_ok keys N) as R. unfold choose. destruct (rev _) as [|x r] eqn:E.
  { apply (f_equal (@rev _)) in E. rewrite rev_involutive in E. apply sort_nil in E. rewrite (ro_keys _ _ _ R) in E. easy. }
  apply rev_hd in E. rewrite in_sort, (ro_keys _ _ _ R) in E. destruct (get_key x (relations keys)) as (v & G); [rewrite (ro_keys _ _ _ R); auto|].
  rewrite G. cbn [bind]. apply first_total with (keys := keys); auto; [discriminate|intros y [<-|[]]; auto| |].
  - intros y Hy. apply (get_rel _ _ R _ _ _ G Hy).
  - intros i c u [<-|[]] Hc Gi. rewrite G in Gi. injection Gi as <-. auto.
Qed.

Lemma cube_in keys s e : cube keys s e = true <-> In (c0 e, c1 s, c2 s) keys /\ In (c0 s, c1 e, c2 s) keys /\ In (c0 s, c1 s, c2 e) keys.
Proof. unfold cube. rewrite !andb_true_iff, !memb_coord. tauto. Qed.
Lemma box_cube keys s e : box keys -> In s keys -> In e keys -> cube keys s e = true.
Proof. intros B Hs He. apply cube_in. split; [apply B; auto|split; apply B; auto]. Qed.

(** A box is found in one piece. *)
Lemma choose_full keys l : NoDup keys -> box keys -> choose (relations keys) = Ok l -> forall c, In c keys <-> In c l.
Proof.
  intros N B H. pose proof (choose_ok keys l N H) as (_ & _ & I & _). intros c. split; [|apply I].
  pose proof (relations_ok keys N) as R. unfold choose in H. destruct (rev _) as [|e r] eqn:E; [discriminate|].
  apply rev_hd in E. rewrite in_sort, (ro_keys _ _ _ R) in E. destruct (get e (relations keys)) as [v|] eqn:G; [|discriminate]. cbn [bind] in H.
  assert (A : forall i v, get i (relations keys) = Ok v -> forall c, In c keys -> c <> i -> In c v).
  { intros i u Gi y Hy Ne. apply get_in in Gi. assert (Hi : In i keys) by (rewrite <- (ro_keys _ _ _ R); apply in_map_iff; exists (i, u); auto).
    destruct (In_nth_error _ _ Hi) as (n & Ei), (In_nth_error _ _ Hy) as (m & Ey). destruct (Nat.lt_trichotomy n m) as [L|[->|L]].
    - exact (ro_all _ _ _ R n m i y u Ei Ey L (box_cube _ _ _ B Hy Hi) Gi).
    - congruence.
    - exact (ro_sym _ _ _ R n m i y u Ei Ey L (box_cube _ _ _ B Hi Hy) Gi). }
  eapply first_full; eauto; [discriminate|]. intros y. split.
  - intros Hy. destruct (coord_dec e y) as [->|Ne]; [simpl; auto|]. left. eapply A; eauto.
  - intros [Hy|[<-|[]]]; auto. apply (get_rel _ _ R _ _ _ G Hy).
Qed.
Lemma box_spans keys : box keys -> spans keys.
Proof.
  intros B i r Hi Hr _ c Hc. apply in_neighbours in Hc. destruct Hc as (H0 & H1 & H2). rewrite (coord_eta c).
  assert (X : exists p q t, In p keys /\ In q keys /\ In t keys /\ c0 c = c0 p /\ c1 c = c1 q /\ c2 c = c2 t).
  { destruct H0, H1, H2; do 3 eexists; (split; [|split; [|split; [|split; [eassumption|split; eassumption]]]]); auto. }
  destruct X as (p & q & t & ? & ? & ? & -> & -> & ->). apply B; auto.
Qed.

(** Coordinates in a plane *)
Lemma plane_spans keys : (exists z, forall c, In c keys -> c0 c = z) \/ (exists z, forall c, In c keys -> c1 c = z) \/ (exists z, forall c, In c keys -> c2 c = z) -> spans keys.
Proof.
  intros P i r Hi Hr Rl c Hc. apply in_neighbours in Hc. rewrite (coord_eta c). unfold related in Rl. rewrite !cube_in in Rl.
  rewrite (coord_eta i) in Hi. rewrite (coord_eta r) in Hr.
  destruct P as [(z & P)|[(z & P)|(z & P)]]; pose proof (P _ Hi) as Ei; pose proof (P _ Hr) as Er; cbn [c0 c1 c2] in Ei, Er; rewrite Ei, Er in *;
    destruct Hc as (H0 & H1 & H2); destruct H0 as [->| ->], H1 as [->| ->], H2 as [->| ->]; tauto.
Qed.
