(** Roles, distinct keys, focus and change of the lexemes of a function. *)
From Coq Require Import List String Ascii Bool NArith Arith Permutation Lia.
From Verif Require Import Base SortProofs Script Commons Usl OrderTheory UslProofs Sfun SfunProofs SfunListProofs.
Import ListNotations.
Local Open Scope string_scope.

(** ** Roles *)
Definition vrole (r : role) : Prop := Forall (fun s => In s ADDRESS_SCRIPTS) r.
Definition wordyb (s : string) : bool := (negb (String.eqb s "") && chars_all (fun c => negb (delimiter c)) s)%bool.
Lemma wordyb_ok s : wordyb s = true -> wordy s.
Proof. unfold wordyb, wordy. rewrite andb_true_iff, negb_true_iff, String.eqb_neq. tauto. Qed.
Lemma address_wordy s : In s ADDRESS_SCRIPTS -> wordy s.
Proof.
  assert (H : forallb wordyb ADDRESS_SCRIPTS = true) by (vm_compute; reflexivity). rewrite forallb_forall in H. intros Hs. apply wordyb_ok. auto.
Qed.
Lemma vrole_wordy r : vrole r -> Forall wordy r.
Proof. apply Forall_impl. apply address_wordy. Qed.
Lemma role_str_inj a b : vrole a -> vrole b -> role_str a = role_str b -> a = b.
Proof.
  intros Ha Hb E. apply vrole_wordy in Ha, Hb.
  pose proof (split_join a Ha "]"%char "" eq_refl ltac:(discriminate)) as Ea. pose proof (split_join b Hb "]"%char "" eq_refl ltac:(discriminate)) as Eb.
  unfold role_str in E. rewrite E, Eb in Ea. apply app_inj_tail in Ea. destruct Ea as [Ea _].
  revert b Ea Ha Hb Eb E. induction a as [|x a IH]; intros [|y b] Ea; try discriminate; auto. injection Ea as <- Ea. intros Ha Hb _ _.
  apply Forall_cons_iff in Ha, Hb. f_equal. clear IH. revert b Ea Ha Hb. induction a as [|z a IH]; intros [|t b] Ea; try discriminate; auto. injection Ea as <- Ea. intros Ha Hb.
  destruct Ha as [? Ha], Hb as [? Hb]. apply Forall_cons_iff in Ha, Hb. f_equal. apply IH; tauto.
Qed.
Lemma role_eqb_eq a b : vrole a -> vrole b -> (role_eqb a b = true <-> a = b).
Proof. intros Ha Hb. unfold role_eqb. rewrite String.eqb_eq. split; [now apply role_str_inj|congruence]. Qed.
Lemma address_order_inj s t : In s ADDRESS_SCRIPTS -> In t ADDRESS_SCRIPTS -> address_order s = address_order t -> s = t.
Proof.
  intros Hs Ht. unfold address_order. apply In_nth_error in Hs, Ht. destruct Hs as [i Hi], Ht as [j Hj].
  rewrite (nth_index_of _ _ _ address_nodup Hi), (nth_index_of _ _ _ address_nodup Hj). intros <-. congruence.
Qed.
Lemma map_order_inj a b : vrole a -> vrole b -> map address_order a = map address_order b -> a = b.
Proof.
  intros Ha. revert b. induction Ha as [|x a Hx Ha IH]; intros [|y b] Hb E; try discriminate; auto.
  apply Forall_cons_iff in Hb. injection E as E1 E2. f_equal; [now apply address_order_inj|now apply IH].
Qed.
Lemma order_role : order vrole (fun r => r) role_eqb role_lt.
Proof.
  pose proof (order_seq order_nat) as O. assert (T : forall l : list nat, Forall (fun _ => True) l) by (intros; apply Forall_forall; auto).
  assert (M : forall l : list nat, map (fun n => n) l = l) by apply map_id. split.
  - intros a b. apply role_eqb_eq.
  - intros a b _ _ ->. apply (o_irr _ _ _ _ O); auto.
  - intros a b c _ _ _. apply (o_trans _ _ _ _ O); auto.
  - intros a b Ha Hb N. apply (o_total _ _ _ _ O); auto. rewrite !M. intros E. apply N. now apply map_order_inj.
Qed.
Lemma role_lt_prefix a x b : role_lt a (a ++ x :: b)%list = true.
Proof. unfold role_lt. rewrite map_app. cbn [map]. induction (map address_order a) as [|n l IH]; cbn; [reflexivity|]. now rewrite Nat.eqb_refl. Qed.

Section Facts.
  Variable X : Type.
  Notation sfun := (sfun X).
  Notation entry := (entry X).
  Notation lst := (lst X). Notation pre := (pre X).
  Notation valid := (valid X). Notation pvalid := (pvalid X). Notation cvalid := (cvalid X).

  Lemma inner_address s : inner s -> In s ADDRESS_SCRIPTS.
  Proof. intros H. apply address_in. unfold inner in H. tauto. Qed.
  Lemma actors_roles c f r g : cvalid c f -> In (r, g) (actors f) -> vrole r.
  Proof.
    intros V H. assert (Q : forall k f r g, valid k f -> In (r, g) (actors f) -> vrole r).
    { intros k f' r' g' V' H'. eapply Forall_impl; [apply inner_address|]. eapply actors_inner; eauto. }
    destruct c; cbn [SfunProofs.cvalid] in V; [|eauto|eauto]. destruct f as [| | |x v acts]; try solve [destruct V]. cbn [SfunProofs.pvalid] in V. destruct V as (V & N & F).
    rewrite actors_proc in H. destruct H as [[= <- _]|H]; [constructor; [|constructor]; apply address_in; auto|].
    apply in_concat in H. destruct H as (l & Hl & H). apply in_map_iff in Hl. destruct Hl as ([a h] & <- & Ha). apply under_in in H. destruct H as (r' & E & H). cbn [fst snd] in *. subst r.
    rewrite Forall_forall in F. destruct (F _ Ha) as [Fa Vh]. constructor; [apply address_in; auto|]. eapply Q; eauto.
  Qed.

  (** ** The keys of [actors] are distinct *)
  Lemma NoDup_app_intro {A} (a b : list A) : NoDup a -> NoDup b -> (forall x, In x a -> ~ In x b) -> NoDup (a ++ b).
  Proof.
    induction 1 as [|x a Hx Na IH]; intros Nb D; [exact Nb|]. cbn. constructor.
    - rewrite in_app_iff. intros [H|H]; [auto|]. apply (D x); auto. now left.
    - apply IH; auto. intros y Hy. apply D. now right.
  Qed.
  Lemma under_keys p (l : list (role * sfun)) : map fst (under p l) = map (app p) (map fst l).
  Proof. unfold under. now rewrite !map_map. Qed.
  Lemma map_app_nodup (p : role) l : NoDup l -> NoDup (map (app p) l).
  Proof.
    intros N. induction N as [|x l Hx N IH]; cbn; constructor; auto. rewrite in_map_iff. intros (y & E & Hy). apply app_inv_head in E. now subst.
  Qed.
  Lemma children_keys link i cs r : In r (map fst (children_actors X link i cs)) -> exists j r', i <= j < i + List.length cs /\ r = link :: nth j JUNCTION_INDEX "" :: r'.
  Proof.
    intros H. apply in_map_iff in H. destruct H as ([r0 g] & <- & H). apply children_actors_in in H. destruct H as (j & c & r' & E & E' & _).
    cbn [fst] in *. assert (j < List.length cs) by (apply nth_error_Some; congruence). exists (i + j), r'. split; [lia|auto].
  Qed.
  Lemma index_inj i j : i < 12 -> j < 12 -> nth i JUNCTION_INDEX "" = nth j JUNCTION_INDEX "" -> i = j.
  Proof. intros Hi Hj E. apply (proj1 (NoDup_nth JUNCTION_INDEX "") index_nodup); auto. Qed.
  Lemma actors_nodup k f : valid k f -> NoDup (map fst (actors f)).
  Proof.
    revert k. induction f as [link cs IH|x|x d i IHd IHi|x v acts IH] using sfun_ind'; intros k V.
    - apply valid_jun in V. destruct V as (L & N & V). rewrite actors_jun'. cbn [map fst]. constructor.
      + intros H. apply children_keys in H. destruct H as (j & r' & _ & E). discriminate.
      + enough (G : forall i, i + List.length cs <= 12 -> NoDup (map fst (children_actors X link i cs))) by (apply G; lia). clear N. induction cs as [|c cs IHc]; intros i Q; [constructor|].
        cbn [children_actors List.length] in *. apply Forall_cons_iff in IH, V. rewrite map_app. apply NoDup_app_intro.
        * rewrite under_keys. apply map_app_nodup. now apply (proj1 IH k).
        * apply IHc; try easy. lia.
        * rewrite under_keys. intros r Hr H. apply in_map_iff in Hr. destruct Hr as (r' & <- & _). apply children_keys in H. destruct H as (j & r'' & Hj & E).
          apply (f_equal (fun l : list string => nth 1 l EmptyString)) in E. cbn [nth app] in E. apply index_inj in E; lia.
    - constructor; [intros []|constructor].
    - cbn [SfunProofs.valid] in V. destruct V as (_ & Vd & Vi). rewrite actors_dep. cbn [map fst]. rewrite map_app, !under_keys. constructor.
      + rewrite in_app_iff, !in_map_iff. intros [(? & E & _)|(? & E & _)]; discriminate.
      + apply NoDup_app_intro.
        * apply map_app_nodup. destruct i; [eapply IHi; eauto|constructor].
        * apply map_app_nodup. destruct d; [eapply IHd; eauto|constructor].
        * intros r Hr H. apply in_map_iff in Hr, H. destruct Hr as (? & <- & _), H as (? & E & _). discriminate.
    - destruct V.
  Qed.
  Lemma actors_nodup_c c f : cvalid c f -> NoDup (map fst (actors f)).
  Proof.
    destruct c; [|apply actors_nodup|apply actors_nodup]. destruct f as [| | |x v acts]; intros V; try solve [destruct V]. cbn in V. destruct V as (V & N & F).
    rewrite actors_proc. cbn [map fst]. rewrite concat_map, map_map. constructor.
    - intros H. apply in_concat in H. destruct H as (l & Hl & H). apply in_map_iff in Hl. destruct Hl as ([a g] & <- & Ha). rewrite under_keys in H. apply in_map_iff in H. destruct H as (r & E & _).
      cbn [fst] in E. injection E as <- _. rewrite Forall_forall in F. destruct (F _ Ha) as [Fa _]. apply actant_not_valence in Fa. apply ins_out in Fa. auto.
    - clear V. induction acts as [|[a g] acts IH]; [constructor|]. cbn [map List.concat fst snd] in *. apply NoDup_cons_iff in N. apply Forall_cons_iff in F. apply NoDup_app_intro.
      + rewrite under_keys. apply map_app_nodup. eapply actors_nodup. apply F.
      + apply IH; tauto.
      + rewrite under_keys. intros r Hr H. apply in_map_iff in Hr. destruct Hr as (r' & <- & _). apply in_concat in H. destruct H as (l & Hl & H). apply in_map_iff in Hl.
        destruct Hl as ([b h] & <- & Hb). rewrite under_keys in H. apply in_map_iff in H. destruct H as (r'' & E & _). cbn [fst] in E. injection E as -> _.
        apply (proj1 N). change a with (fst (a, h)). now apply in_map.
  Qed.

  (** ** Equality of functions does not see the order of the actants *)
  Lemma perm_fst_eq {A B} (l l' : list (A * B)) : Permutation l l' -> NoDup (map fst l) -> map fst l = map fst l' -> l = l'.
  Proof.
    revert l'. induction l as [|[a x] l IH]; intros [|[b y] l'] P N E; try discriminate; auto. cbn in E, N. injection E as <- E. apply NoDup_cons_iff in N. destruct N as [Na N].
    assert (Exy : x = y).
    { assert (H : In (a, x) ((a, y) :: l')) by (apply (Permutation_in _ P); now left). destruct H as [H|H]; [congruence|]. elim Na. rewrite E. change a with (fst (a, x)). now apply in_map. }
    subst y. f_equal. apply IH; auto. now apply Permutation_cons_inv in P.
  Qed.
  Lemma same_actants_pairs c f f' : cvalid c f -> same_actants X f f' -> pairs f' = pairs f.
  Proof.
    intros V [->|(x & v & acts & acts' & -> & -> & P)]; [reflexivity|].
    assert (Pa : Permutation (map (fun e => (fst e, actor_of (snd e))) (actors (Proc x v acts'))) (map (fun e => (fst e, actor_of (snd e))) (actors (Proc x v acts)))).
    { rewrite !actors_proc. cbn [map]. apply perm_skip. apply Permutation_map. clear V. induction P; cbn; auto.
      - now apply Permutation_app_head.
      - rewrite !app_assoc. apply Permutation_app_tail, Permutation_app_comm.
      - eapply Permutation_trans; eauto. }
    pose proof (actors_nodup_c _ _ V) as N.
    assert (N' : NoDup (map fst (map (fun e => (fst e, actor_of (snd e))) (actors (Proc x v acts))))) by (rewrite map_map; exact N).
    assert (D : Forall (fun e : entry => vrole (fst e)) (map (fun e => (fst e, actor_of (snd e))) (actors (Proc x v acts)))).
    { apply Forall_forall. intros e He. apply in_map_iff in He. destruct He as ([r g] & <- & He). cbn. eapply actors_roles; eauto. }
    unfold pairs. set (l := map _ (actors (Proc x v acts))) in *. set (l' := map _ (actors (Proc x v acts'))) in *.
    assert (O : order (fun e : entry => vrole (fst e)) fst (fun a b => role_eqb (fst a) (fst b)) (fun a b => role_lt (fst a) (fst b))).
    { destruct order_role as [O1 O2 O3 O4]. split; intros; eauto. }
    symmetry. apply perm_fst_eq.
    - eapply Permutation_trans; [apply sort_perm|]. eapply Permutation_trans; [apply Permutation_sym, Pa|]. apply Permutation_sym, sort_perm.
    - eapply Permutation_NoDup; [apply Permutation_map, Permutation_sym, sort_perm|auto].
    - apply (o_sort_unique O); auto. + eapply Permutation_Forall; [apply Permutation_sym, Pa|auto]. + now apply Permutation_map, Permutation_sym.
  Qed.

  (** ** Changing the lexemes *)
  Lemma split_keys p l1 m (l' : list entry) : map fst l' = (map fst (pre p l1) ++ m)%list ->
    exists l1' l2', l' = (pre p l1' ++ l2')%list /\ map fst l1' = map fst l1 /\ map fst l2' = m.
  Proof.
    revert l'. induction l1 as [|[r x] l1 IH]; intros l' E.
    - exists [], l'. auto.
    - destruct l' as [|[r' y] l']; [discriminate|]. cbn in E. injection E as E1 E2. change (map fst (map _ l1)) with (map fst (pre p l1)) in E2. destruct (IH _ E2) as (l1' & l2' & -> & E3 & E4).
      exists ((r, y) :: l1'), l2'. split; [cbn; now rewrite E1|]. split; [cbn; now f_equal|auto].
  Qed.
  Lemma end_keys p l1 (l' : list entry) : map fst l' = map fst (pre p l1) -> exists l1', l' = pre p l1' /\ map fst l1' = map fst l1.
  Proof.
    intros E. destruct (split_keys p l1 [] l') as (l1' & l2' & -> & E1 & E2); [now rewrite app_nil_r|]. apply map_eq_nil in E2. subst. rewrite app_nil_r. eauto.
  Qed.
End Facts.

Fixpoint skel {X} (f : sfun X) : sfun unit :=
  match f with
  | Jun link cs => Jun link (map skel cs)
  | Indep _ => Indep None
  | Dep _ d i => Dep None (match d with Some g => Some (skel g) | None => None end) (match i with Some g => Some (skel g) | None => None end)
  | Proc _ v acts => Proc None v (map (fun p => (fst p, skel (snd p))) acts)
  end.

Section Refill.
  Variable X : Type.
  Notation sfun := (sfun X).
  Notation entry := (entry X).
  Notation lst := (lst X). Notation pre := (pre X).
  Notation valid := (valid X). Notation pvalid := (pvalid X). Notation cvalid := (cvalid X).

  Lemma refill k f : valid k f -> forall l', map fst l' = map fst (lst f) -> exists f', valid k f' /\ lst f' = l' /\ skel f' = skel f.
  Proof.
    revert k. induction f as [link cs IH|x|x d i IHd IHi|x v acts IH] using sfun_ind'; intros k V l' E.
    - apply valid_jun in V. destruct V as (L & N & V). rewrite lst_jun in E.
      assert (Q : forall i l', map fst l' = map fst (children_list X link i cs) -> exists cs', Forall (valid k) cs' /\ children_list X link i cs' = l' /\ map skel cs' = map skel cs).
      { clear -IH V. induction cs as [|c cs IHc]; intros i l' E.
        - destruct l'; [|discriminate]. exists []. auto.
        - apply Forall_cons_iff in IH, V. cbn [children_list] in E. rewrite map_app in E. apply split_keys in E. destruct E as (l1 & l2 & -> & E1 & E2).
          destruct (proj1 IH k (proj1 V) _ E1) as (c' & Vc & Ec & Sc). destruct (IHc (proj2 IH) (proj2 V) (S i) l2 E2) as (cs' & Vs & Es & Ss).
          exists (c' :: cs'). split; [constructor; auto|]. cbn [children_list map]. split; [now rewrite Ec, Es|congruence]. }
      destruct (Q 0 l' E) as (cs' & Vc & Ec & Sc). exists (Jun link cs'). split; [|split].
      + apply valid_jun. split; auto. split; auto. apply (f_equal (@List.length _)) in Sc. rewrite !map_length in Sc. lia.
      + now rewrite lst_jun.
      + cbn. now rewrite Sc.
    - destruct l' as [|[r y] [|]]; try discriminate. cbn in E. injection E as ->. exists (Indep y). auto.
    - cbn [SfunProofs.valid] in V. destruct V as (-> & Vd & Vi). rewrite lst_dep in E. destruct l' as [|[r y] l']; [discriminate|]. cbn [map fst] in E. injection E as -> E.
      rewrite map_app in E. apply split_keys in E. destruct E as (li & l2 & -> & Ei & E2). apply end_keys in E2.
      destruct E2 as (ld & -> & Ed).
      assert (Qi : exists i', match i' with Some g => valid KI g | None => True end /\ lsto X i' = li /\ match i' with Some g => Some (skel g) | None => None end = match i with Some g => Some (skel g) | None => None end).
      { destruct i as [g|]; cbn [lsto] in Ei.
        - destruct (IHi g eq_refl KI Vi _ Ei) as (g' & ? & ? & ?). exists (Some g'). cbn. split; auto. split; congruence.
        - apply map_eq_nil in Ei. subst. exists None. cbn. auto. }
      assert (Qd : exists d', match d' with Some g => valid KD g | None => True end /\ lsto X d' = ld /\ match d' with Some g => Some (skel g) | None => None end = match d with Some g => Some (skel g) | None => None end).
      { destruct d as [g|]; cbn [lsto] in Ed.
        - destruct (IHd g eq_refl KD Vd _ Ed) as (g' & ? & ? & ?). exists (Some g'). cbn. split; auto. split; congruence.
        - apply map_eq_nil in Ed. subst. exists None. cbn. auto. }
      destruct Qi as (i' & Vi' & <- & Si), Qd as (d' & Vd' & <- & Sd). exists (Dep y d' i'). split; [cbn [SfunProofs.valid]; auto|]. split; [now rewrite lst_dep|].
      cbn [skel]. now rewrite Si, Sd.
    - destruct V.
  Qed.
  Lemma refill_c c f : cvalid c f -> forall l', map fst l' = map fst (as_list c f) -> exists f', cvalid c f' /\ as_list c f' = l' /\ skel f' = skel f.
  Proof.
    intros V l' E. rewrite as_list_lst in E. apply end_keys in E. destruct E as (l1 & -> & E1).
    enough (Q : exists f', cvalid c f' /\ lst f' = l1 /\ skel f' = skel f) by (destruct Q as (f' & ? & <- & ?); exists f'; rewrite as_list_lst; auto).
    destruct c; cbn [SfunProofs.cvalid] in *; [|now apply refill|now apply refill].
    destruct f as [| | |x v acts]; try solve [destruct V]. cbn [SfunProofs.pvalid] in V. destruct V as (V & N & F).
    rewrite lst_proc in E1. destruct l1 as [|[r y] l1]; [discriminate|]. cbn [map fst] in E1. injection E1 as -> E1.
    assert (Q : exists acts', Forall (fun p => In (fst p) ACTANTS /\ valid KD (snd p)) acts' /\ List.concat (map (fun p => pre [fst p] (lst (snd p))) acts') = l1 /\
      map (fun p => (fst p, skel (snd p))) acts' = map (fun p => (fst p, skel (snd p))) acts).
    { clear -F E1. revert l1 E1. induction acts as [|[a g] acts IH]; intros l1 E1.
      - apply map_eq_nil in E1. subst. exists []. auto.
      - cbn [map List.concat fst snd] in E1. rewrite map_app in E1. apply split_keys in E1. destruct E1 as (la & l2 & -> & Ea & E2). apply Forall_cons_iff in F. destruct F as [[Ha Vg] F].
        destruct (refill KD g Vg _ Ea) as (g' & Vg' & <- & Sg). destruct (IH F _ E2) as (acts' & F' & <- & S'). exists ((a, g') :: acts'). cbn [map List.concat fst snd] in *.
        split; [constructor; auto|]. split; [auto|]. rewrite S', Sg. reflexivity. }
    destruct Q as (acts' & F' & <- & S'). exists (Proc y v acts'). split; [|split].
    - cbn [SfunProofs.pvalid]. split; auto. split; auto. replace (map fst acts') with (map fst acts); auto.
      apply (f_equal (map fst)) in S'. rewrite !map_map in S'. cbn in S'. auto.
    - apply lst_proc.
    - cbn [skel]. now rewrite S'.
  Qed.

  (** ** Expansion of the focus *)
  Lemma actors_skel (f : sfun) : actors (skel f) = map (fun e => (fst e, skel (snd e))) (actors f).
  Proof.
    assert (U : forall p (l : list (role * sfun)), under p (map (fun e => (fst e, skel (snd e))) l) = map (fun e => (fst e, skel (snd e))) (under p l)).
    { intros p l. unfold under. now rewrite !map_map. }
    induction f as [link cs IH|x|x d i IHd IHi|x v acts IH] using sfun_ind'.
    - cbn [skel]. rewrite !actors_jun'. cbn [map fst snd skel]. f_equal. generalize 0 as i.
      induction IH as [|c cs Hc IH IHc]; intros i; [reflexivity|]. cbn [children_actors map]. now rewrite Hc, IHc, U, map_app.
    - reflexivity.
    - cbn [skel]. rewrite !actors_dep. cbn [map fst snd skel]. f_equal. rewrite map_app, <- !U. f_equal.
      + destruct i as [g|]; [cbn; now rewrite (IHi g eq_refl)|reflexivity].
      + destruct d as [g|]; [cbn; now rewrite (IHd g eq_refl)|reflexivity].
    - cbn [skel]. rewrite !actors_proc. cbn [map fst snd skel]. f_equal. induction IH as [|[a g] acts Hg IH IHa]; [reflexivity|].
      cbn [map List.concat fst snd] in *. now rewrite Hg, U, IHa, map_app.
  Qed.
  Lemma is_jun_skel (f : sfun) : is_jun (skel f) = is_jun f. Proof. now destruct f. Qed.
  Lemma node_at_skel (f : sfun) r : node_at (skel f) r = option_map skel (node_at f r).
  Proof.
    unfold node_at. rewrite actors_skel. induction (actors f) as [|[r' g] l IH]; [reflexivity|]. cbn. destruct (role_eqb r r'); [reflexivity|exact IH].
  Qed.
  Lemma mapM_ext {A B} (f g : A -> res B) l : (forall x, f x = g x) -> mapM f l = mapM g l.
  Proof. intros H. induction l as [|x l IH]; [reflexivity|]. cbn. fold (mapM f) (mapM g). now rewrite H, IH. Qed.
  Lemma expand_skel n (f : sfun) : forall r, expand n (skel f) r = expand n f r.
  Proof.
    induction n as [|n IH]; intros r; [reflexivity|]. cbn [expand]. rewrite node_at_skel. destruct (node_at f r) as [[link cs| | |]|]; cbn [option_map skel]; try reflexivity.
    rewrite map_length. now rewrite (mapM_ext _ (fun i => expand n f (r ++ [link; nth i JUNCTION_INDEX ""])%list)).
  Qed.
  Lemma role_expansion_skel (f : sfun) r p : role_expansion (skel f) r p = role_expansion f r p.
  Proof. unfold role_expansion. rewrite actors_skel, map_map. cbn [fst]. now rewrite expand_skel. Qed.

  Lemma node_at_in c f r g : cvalid c f -> vrole r -> In (r, g) (actors f) -> node_at f r = Some g.
  Proof.
    intros V Vr H. unfold node_at. pose proof (actors_nodup_c _ _ _ V) as N. assert (R : forall r' g', In (r', g') (actors f) -> vrole r') by (intros; eapply actors_roles; eauto).
    induction (actors f) as [|[r' g'] l IH]; [destruct H|]. cbn in *. apply NoDup_cons_iff in N. destruct (role_eqb r r') eqn:E.
    - apply role_eqb_eq in E; eauto. subst r'. cbn. destruct H as [H|H]; [congruence|]. elim (proj1 N). change r with (fst (r, g)). now apply in_map.
    - destruct H as [[= -> ->]|H].
      + assert (role_eqb r r = true) by (apply role_eqb_eq; auto). congruence.
      + apply IH; eauto. tauto.
  Qed.
  Lemma node_at_some (f : sfun) r g : node_at f r = Some g -> exists r', In (r', g) (actors f) /\ role_eqb r r' = true.
  Proof.
    unfold node_at. destruct (find _ _) as [[r' g']|] eqn:E; [|discriminate]. intros [= <-]. apply find_some in E. eauto.
  Qed.

  Lemma actors_root k f : valid k f -> In ([], f) (actors f).
  Proof. destruct f; intros V; [rewrite actors_jun'; now left|now left|rewrite actors_dep; now left|destruct V]. Qed.
  Definition step_ok (f : sfun) : Prop := forall r link cs i c, In (r, Jun link cs) (actors f) -> nth_error cs i = Some c ->
    In ((r ++ [link; nth i JUNCTION_INDEX ""])%list, c) (actors f).
  Lemma under_step p f : step_ok f -> forall r link cs i c, In (r, Jun link cs) (under p (actors f)) -> nth_error cs i = Some c ->
    In ((r ++ [link; nth i JUNCTION_INDEX ""])%list, c) (under p (actors f)).
  Proof.
    intros H r link cs i c Hr Hc. apply under_in in Hr. destruct Hr as (r' & E & Hr). cbn [fst snd] in *. subst r. apply under_in. exists (r' ++ [link; nth i JUNCTION_INDEX ""])%list.
    cbn [fst snd]. split; [now rewrite app_assoc|]. eapply H; eauto.
  Qed.
  Lemma actors_step k f : valid k f -> step_ok f.
  Proof.
    revert k. induction f as [link cs IH|x|x d i IHd IHi|x v acts IH] using sfun_ind'; intros k V r ln cs' j c Hr Hc.
    - apply valid_jun in V. destruct V as (L & N & V). rewrite actors_jun' in *. right. apply children_actors_in. destruct Hr as [[= <- <- <-]|Hr].
      + exists j, c, []. cbn [fst snd Nat.add app]. split; auto. split; auto. apply nth_error_In in Hc. rewrite Forall_forall in V. eapply actors_root, V, Hc.
      + apply children_actors_in in Hr. destruct Hr as (m & c' & r' & Em & Er & Hr). cbn [fst snd] in *. subst r. pose proof (nth_error_In _ _ Em) as Hm.
        exists m, c', (r' ++ [ln; nth j JUNCTION_INDEX ""])%list. split; auto. split; [reflexivity|]. rewrite Forall_forall in V, IH. eapply (IH _ Hm k); eauto.
    - destruct Hr as [[=]|[]].
    - cbn [SfunProofs.valid] in V. destruct V as (_ & Vd & Vi). rewrite actors_dep in *. destruct Hr as [[=]|Hr]. right. apply in_app_iff. apply in_app_iff in Hr. destruct Hr as [Hr|Hr].
      + left. destruct i as [g|]; [|destruct Hr]. eapply under_step; eauto.
      + right. destruct d as [g|]; [|destruct Hr]. eapply under_step; eauto.
    - destruct V.
  Qed.
  Lemma actors_step_c c f : cvalid c f -> step_ok f.
  Proof.
    destruct c; [|apply actors_step|apply actors_step]. destruct f as [| | |x v acts]; intros V; try solve [destruct V]. cbn [SfunProofs.cvalid SfunProofs.pvalid] in V. destruct V as (V & N & F).
    intros r ln cs' j c Hr Hc. rewrite actors_proc in *. destruct Hr as [[=]|Hr]. right. apply in_concat in Hr. destruct Hr as (l & Hl & Hr). apply in_concat. exists l. split; auto.
    apply in_map_iff in Hl. destruct Hl as ([a g] & <- & Ha). cbn [fst snd] in *. rewrite Forall_forall in F. destruct (F _ Ha) as [_ Vg]. eapply under_step; eauto. eapply actors_step; eauto.
  Qed.
  Lemma mapM_total {A B} (h : A -> res B) l : (forall x, In x l -> exists y, h x = Ok y) -> exists ys, mapM h l = Ok ys.
  Proof.
    induction l as [|x l IH]; intros H; [cbn; eauto|]. destruct (H x (or_introl eq_refl)) as (y & E). destruct IH as (ys & E'); [intros; apply H; now right|].
    cbn. fold (mapM h). rewrite E. cbn. rewrite E'. cbn. eauto.
  Qed.
  Lemma maxl_le l n : In n l -> n <= maxl l.
  Proof. unfold maxl. induction l as [|m l IH]; [intros []|]. cbn [fold_right]. intros [->|H]; [lia|]. specialize (IH H). lia. Qed.
  Lemma expand_ok c f : cvalid c f -> forall n r g, In (r, g) (actors f) -> maxl (map (fun e => List.length (fst e)) (actors f)) < n + List.length r ->
    exists l, expand n f r = Ok l.
  Proof.
    intros V. induction n as [|n IH]; intros r g Hr Hn.
    - assert (List.length r <= maxl (map (fun e => List.length (fst e)) (actors f))); [|lia]. apply maxl_le. apply in_map_iff. now exists (r, g).
    - cbn [expand]. rewrite (node_at_in _ _ r g V (actors_roles _ _ _ _ _ V Hr) Hr). destruct g as [link cs| | |]; eauto.
      assert (Q : exists ls, mapM (fun i => expand n f (r ++ [link; nth i JUNCTION_INDEX ""])%list) (seq 0 (List.length cs)) = Ok ls); [|destruct Q as (ls & ->); cbn; eauto].
      apply mapM_total. intros i Hi. apply in_seq in Hi. destruct (nth_error cs i) as [c'|] eqn:Hc; [|apply nth_error_None in Hc; lia].
      apply (IH _ c'); [now apply (actors_step_c _ _ V r link cs)|rewrite app_length; cbn [List.length]; lia].
  Qed.
  Lemma role_expansion_ok c f r g p : cvalid c f -> In (r, g) (actors f) -> exists l, role_expansion f (p ++ r)%list p = Ok l.
  Proof.
    intros V H. unfold role_expansion. replace (skipn (List.length p) (p ++ r)%list) with r by (rewrite skipn_app, skipn_all, Nat.sub_diag; reflexivity).
    destruct (expand_ok c f V (S (maxl (map (fun e => List.length (fst e)) (actors f)))) r g H) as (l & ->); [lia|]. cbn. eauto.
  Qed.
End Refill.

(** ** Words *)
Lemma mk_word_skel f f' r c w : mk_word f r c = Ok w -> skel f' = skel f -> exists w', mk_word f' r c = Ok w' /\ w_fun w' = f' /\ w_role w' = r /\ w_context w' = c.
Proof.
  unfold mk_word, render. intros H E. rewrite <- (role_expansion_skel _ f'), E, role_expansion_skel. destruct (role_expansion f r (context_prefix c)) as [m|e]; [|discriminate].
  cbn [bind] in *. destruct (class_from_address r) as [k|e]; [|discriminate]. cbn [bind]. eexists. split; [reflexivity|]. auto.
Qed.
Lemma mk_word_fields f r c w : mk_word f r c = Ok w -> w_fun w = f /\ w_role w = r /\ w_context w = c.
Proof. unfold mk_word. intros H. destruct (render f r c); [|discriminate]. cbn [bind] in H. destruct (class_from_address r); [|discriminate]. injection H as <-. auto. Qed.
Lemma mk_word_ok c f r g : cvalid lexeme c f -> In (r, g) (actors f) -> exists w, mk_word f (context_prefix c ++ r)%list c = Ok w.
Proof.
  intros V H. unfold mk_word, render. destruct (role_expansion_ok _ c f r g (context_prefix c) V H) as (m & ->). cbn [bind].
  assert (K : exists k, class_from_address (context_prefix c ++ r)%list = Ok k); [|destruct K as (k & ->); cbn; eauto].
  unfold class_from_address. destruct c; cbn [context_prefix app].
  - destruct f as [| | |x v acts]; try solve [destruct V]. cbn [cvalid pvalid] in V. destruct V as (V & N & F). rewrite actors_proc in H. destruct H as [[= <- _]|H].
    + cbn [existsb]. apply ins_In in V. rewrite V. cbn. eauto.
    + apply in_concat in H. destruct H as (l & Hl & H). apply in_map_iff in Hl. destruct Hl as ([a h] & <- & Ha). apply under_in in H. destruct H as (r' & E & H). cbn [fst snd] in *. subst r.
      rewrite Forall_forall in F. destruct (F _ Ha) as [Fa _]. destruct (existsb (fun s => ins s VALENCES) _); [eauto|]. destruct (existsb (String.eqb INDEPENDANT_QUALITY) _); [eauto|].
      replace (existsb (fun s => ins s (ACTANTS ++ [DEPENDANT_QUALITY])) ([a] ++ r')%list) with true; [eauto|]. symmetry. apply existsb_exists. exists a. split; [now left|]. apply ins_In, in_or_app. now left.
  - destruct (existsb (fun s => ins s VALENCES) _); [eauto|]. destruct (existsb (String.eqb INDEPENDANT_QUALITY) _); [eauto|]. cbn [existsb]. replace (ins DEPENDANT_QUALITY _) with true by (vm_compute; reflexivity). cbn. eauto.
  - destruct (existsb (fun s => ins s VALENCES) _); [eauto|]. cbn [existsb]. rewrite String.eqb_refl. cbn. eauto.
Qed.
