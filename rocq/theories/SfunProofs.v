(** Facts on syntagmatic functions: [from_list] against [as_list]. *)
From Coq Require Import List String Ascii Bool NArith Arith Permutation Lia.
From Verif Require Import Base SortProofs Script Commons Usl OrderTheory Sfun.
Import ListNotations.
Local Open Scope string_scope.

Ltac run H := match type of H with bind ?a _ = Ok _ => destruct a eqn:?; [cbn [bind] in H|discriminate H] end.
Tactic Notation "run" hyp(H) "as" ident(v) ident(E) := match type of H with bind ?a _ = Ok _ => destruct a as [v|] eqn:E; [cbn [bind] in H|discriminate H] end.

Lemma ins_In x l : ins x l = true <-> In x l.
Proof.
  unfold ins. rewrite existsb_exists. split.
  - intros (y & Hy & E). apply String.eqb_eq in E. now subst.
  - intros H. exists x. split; auto. apply String.eqb_refl.
Qed.
Lemma ins_out x l : ins x l = false <-> ~ In x l.
Proof. rewrite <- ins_In. destruct (ins x l); split; congruence. Qed.

Lemma index_of_nth x l i : index_of x l = Some i -> nth_error l i = Some x.
Proof.
  revert i. induction l as [|y l IH]; intros i; cbn; [discriminate|].
  destruct (String.eqb_spec x y) as [<-|Hn]; [intros [= <-]; reflexivity|].
  destruct (index_of x l) as [j|]; [|discriminate]. intros [= <-]. cbn. auto.
Qed.
Lemma nth_index_of l i x : NoDup l -> nth_error l i = Some x -> index_of x l = Some i.
Proof.
  intros H. revert i. induction H as [|y l Hy Hl IH]; intros [|i]; cbn; try discriminate.
  - intros [= <-]. now rewrite String.eqb_refl.
  - intros E. destruct (String.eqb_spec x y) as [<-|Hn]; [elim Hy; now apply nth_error_In in E|].
    now rewrite (IH _ E).
Qed.

Lemma mapM_ok {A B} (f : A -> res B) (g : A -> B) l : (forall x, In x l -> f x = Ok (g x)) -> mapM f l = Ok (map g l).
Proof.
  induction l as [|x l IH]; intros H; [reflexivity|]. cbn. rewrite H by now left. cbn. fold (mapM f). rewrite IH; auto. intros; apply H; now right.
Qed.
Lemma mapM_inv {A B} (f : A -> res B) l r : mapM f l = Ok r -> Forall2 (fun x y => f x = Ok y) l r.
Proof.
  revert r. induction l as [|x l IH]; intros r; cbn; fold (mapM f).
  - intros [= <-]. constructor.
  - destruct (f x) eqn:E; cbn; [|discriminate]. destruct (mapM f l) eqn:E'; cbn; [|discriminate]. intros [= <-]. constructor; auto.
Qed.
Lemma mapM_Forall2 {A B} (f : A -> res B) l r : Forall2 (fun x y => f x = Ok y) l r -> mapM f l = Ok r.
Proof. induction 1 as [|x y l r E F IH]; [reflexivity|]. cbn. fold (mapM f). now rewrite E, IH. Qed.
Lemma mapM_err {A B} (f : A -> res B) l e : mapM f l = Err e -> exists x, In x l /\ f x = Err e.
Proof.
  induction l as [|x l IH]; cbn; fold (mapM f); [discriminate|]. destruct (f x) eqn:E; cbn.
  - destruct (mapM f l) eqn:E'; cbn; [discriminate|]. intros [= ->]. destruct (IH eq_refl) as (y & ? & ?). eauto.
  - intros [= ->]. eauto.
Qed.

(** ** The constants *)
Ltac byenum l := repeat match goal with H : In _ l |- _ => cbv in H end.
Lemma index_nodup : NoDup JUNCTION_INDEX.
Proof. repeat (constructor; [cbv; intuition discriminate|]). constructor. Qed.
Lemma address_nodup : NoDup ADDRESS_SCRIPTS.
Proof.
  assert (H : dedup String.eqb ADDRESS_SCRIPTS = ADDRESS_SCRIPTS) by (vm_compute; reflexivity).
  rewrite <- H. pose proof (dedup_distinct String.eqb String.eqb_sym ADDRESS_SCRIPTS) as F. revert F. generalize (dedup String.eqb ADDRESS_SCRIPTS).
  clear. induction 1 as [|x l F Fs IH]; constructor; auto. intros Hin. rewrite Forall_forall in F. specialize (F _ Hin).
  now rewrite String.eqb_refl in F.
Qed.
Lemma disjoint_test l l' : forallb (fun x => negb (ins x l')) l = true -> forall x, In x l -> ins x l' = false.
Proof. intros H x Hx. rewrite forallb_forall in H. specialize (H _ Hx). now apply negb_true_iff in H. Qed.
Lemma actant_not_valence x : In x ACTANTS -> ins x VALENCES = false.
Proof. apply disjoint_test. reflexivity. Qed.
Lemma valence_not_actant x : In x VALENCES -> ins x ACTANTS = false.
Proof. apply disjoint_test. reflexivity. Qed.
Lemma junction_not_actant x : In x JUNCTION_SCRIPTS -> ins x ACTANTS = false.
Proof. apply disjoint_test. reflexivity. Qed.
Lemma index_not_actant x : In x JUNCTION_INDEX -> ins x ACTANTS = false.
Proof. apply disjoint_test. reflexivity. Qed.
Lemma address_in : forall x, In x VALENCES \/ In x ACTANTS \/ x = DEPENDANT_QUALITY \/ x = INDEPENDANT_QUALITY \/ In x JUNCTION_SCRIPTS \/ In x JUNCTION_INDEX -> In x ADDRESS_SCRIPTS.
Proof.
  intros x H. unfold ADDRESS_SCRIPTS. rewrite !in_app_iff. cbn [In]. intuition (subst; auto 8).
Qed.

Lemma nodup_fst {A B} (l : list (A * B)) a x y : NoDup (map fst l) -> In (a, x) l -> In (a, y) l -> x = y.
Proof.
  induction l as [|[b z] l IH]; [intros _ []|]. cbn. intros N H H'. apply NoDup_cons_iff in N. destruct N as [N N'].
  destruct H as [[= -> ->]|H], H' as [E|H'].
  - congruence.
  - elim N. change a with (fst (a, y)). now apply in_map.
  - injection E as -> ->. elim N. change a with (fst (a, x)). now apply in_map.
  - auto.
Qed.

Section Facts.
  Variable X : Type.
  Notation sfun := (sfun X).
  Notation entry := (entry X).

  Lemma sfun_ind' (P : sfun -> Prop)
    (HJ : forall link cs, Forall P cs -> P (Jun link cs)) (HI : forall x, P (Indep x))
    (HD : forall x d i, (forall g, d = Some g -> P g) -> (forall g, i = Some g -> P g) -> P (Dep x d i))
    (HP : forall x v acts, Forall (fun p => P (snd p)) acts -> P (Proc x v acts)) : forall f, P f.
  Proof.
    fix IH 1. intros [link cs|x|x d i|x v acts].
    - apply HJ. induction cs; constructor; auto.
    - apply HI.
    - apply HD; intros g E; [destruct d as [g'|]|destruct i as [g'|]]; try discriminate; injection E as <-; apply IH.
    - apply HP. induction acts as [|[r g] l IHl]; constructor; [apply IH|apply IHl].
  Qed.

  (** ** The list of a function *)
  Definition here (e : role * sfun) : list entry := if is_jun (snd e) then [] else [(fst e, actor_of (snd e))].
  Definition lst (f : sfun) : list entry := map (fun e => (fst e, actor_of (snd e))) (filter (fun e => negb (is_jun (snd e))) (actors f)).
  Definition pre (p : role) (l : list entry) : list entry := map (fun e => ((p ++ fst e)%list, snd e)) l.
  Definition lsto (o : option sfun) : list entry := match o with Some f => lst f | None => [] end.
  Fixpoint children_list (link : string) (i : nat) (cs : list sfun) : list entry :=
    match cs with [] => [] | c :: r => (pre [link; nth i JUNCTION_INDEX ""] (lst c) ++ children_list link (S i) r)%list end.

  Lemma filter_under p (l : list (role * sfun)) :
    map (fun e => (fst e, actor_of (snd e))) (filter (fun e => negb (is_jun (snd e))) (under p l)) =
    pre p (map (fun e => (fst e, actor_of (snd e))) (filter (fun e => negb (is_jun (snd e))) l)).
  Proof. induction l as [|[r f] l IH]; [reflexivity|]. cbn. destruct (negb (is_jun f)); cbn; [f_equal|]; auto. Qed.

  Lemma lst_jun link cs : lst (Jun link cs) = children_list link 0 cs.
  Proof.
    unfold lst. cbn. generalize 0 as i. induction cs as [|c cs IH]; intros i; [reflexivity|].
    rewrite filter_app, map_app, filter_under, IH. reflexivity.
  Qed.
  Lemma lst_dep x d i : lst (Dep x d i) = (([], x) :: pre [INDEPENDANT_QUALITY] (lsto i) ++ pre [DEPENDANT_QUALITY] (lsto d))%list.
  Proof.
    unfold lst. cbn. f_equal. rewrite filter_app, map_app. f_equal.
    - destruct i; [apply filter_under|reflexivity].
    - destruct d; [apply filter_under|reflexivity].
  Qed.
  Lemma lst_indep x : lst (Indep x) = [([], x)]. Proof. reflexivity. Qed.
  Lemma lst_proc x v acts : lst (Proc x v acts) = ([v], x) :: List.concat (map (fun p => pre [fst p] (lst (snd p))) acts).
  Proof.
    unfold lst. cbn. f_equal. induction acts as [|[r g] l IH]; [reflexivity|].
    rewrite filter_app, map_app, filter_under, IH. reflexivity.
  Qed.
  Lemma as_list_lst c f : as_list c f = pre (context_prefix c) (lst f).
  Proof. unfold as_list, pre, lst. now rewrite map_map. Qed.
  Lemma pre_nil l : pre [] l = l.
  Proof. unfold pre. rewrite <- (map_id l) at 2. apply map_ext. now intros []. Qed.

  (** ** Well-formed functions *)
  Inductive kind := KD | KI.
  Definition from (k : kind) := match k with KD => @dep_from X | KI => @indep_from X end.
  Fixpoint valid (k : kind) (f : sfun) : Prop :=
    match f with
    | Jun link cs =>
      In link JUNCTION_SCRIPTS /\ 1 <= List.length cs <= 12 /\
      (fix all l := match l with [] => True | c :: r => valid k c /\ all r end) cs
    | Indep _ => k = KI
    | Dep _ d i => k = KD /\ match d with Some g => valid KD g | None => True end /\ match i with Some g => valid KI g | None => True end
    | Proc _ _ _ => False
    end.
  Lemma valid_jun k link cs : valid k (Jun link cs) <-> In link JUNCTION_SCRIPTS /\ 1 <= List.length cs <= 12 /\ Forall (valid k) cs.
  Proof.
    cbn [valid]. enough (H : (fix all l := match l with [] => True | c :: r => valid k c /\ all r end) cs <-> Forall (valid k) cs) by tauto.
    induction cs as [|c cs IH]; [split; auto|]. rewrite Forall_cons_iff, IH. tauto.
  Qed.
  Definition pvalid (f : sfun) : Prop :=
    match f with
    | Proc _ v acts => In v VALENCES /\ NoDup (map fst acts) /\ Forall (fun p => In (fst p) ACTANTS /\ valid KD (snd p)) acts
    | _ => False
    end.
  Definition cvalid (c : context) (f : sfun) : Prop :=
    match c with CProcess => pvalid f | CDependant => valid KD f | CIndependant => valid KI f end.

  Lemma pre_in p l (e : entry) : In e (pre p l) <-> exists r, fst e = (p ++ r)%list /\ In (r, snd e) l.
  Proof.
    unfold pre. rewrite in_map_iff. split.
    - intros ([r x] & <- & H). exists r. cbn. auto.
    - intros (r & E & H). exists (r, snd e). split; auto. cbn. rewrite <- E. now destruct e.
  Qed.
  Lemma children_list_in link i cs (e : entry) : In e (children_list link i cs) <->
    exists j c r, nth_error cs j = Some c /\ fst e = link :: nth (i + j) JUNCTION_INDEX "" :: r /\ In (r, snd e) (lst c).
  Proof.
    revert i. induction cs as [|c cs IH]; intros i; cbn [children_list].
    - split; [intros []|]. intros (j & c & r & E & _). now destruct j.
    - rewrite in_app_iff, pre_in, IH. split.
      + intros [(r & E & H)|(j & c' & r & E & E' & H)].
        * exists 0, c, r. rewrite Nat.add_0_r. auto.
        * exists (S j), c', r. rewrite Nat.add_succ_r. auto.
      + intros ([|j] & c' & r & E & E' & H).
        * injection E as <-. rewrite Nat.add_0_r in E'. left. exists r. auto.
        * right. exists j, c', r. rewrite Nat.add_succ_r in E'. auto.
  Qed.
  Lemma lst_nonempty k f : valid k f -> lst f <> [].
  Proof.
    induction f as [link cs IH|x|x d i _ _|x v acts IH] using sfun_ind'; intros H.
    - rewrite lst_jun. apply valid_jun in H. destruct H as (_ & L & V). destruct cs as [|c cs]; [cbn in L; lia|].
      apply Forall_cons_iff in IH. apply Forall_cons_iff in V. cbn [children_list]. pose proof (proj1 IH (proj1 V)) as Nc.
      destruct (lst c); [now elim Nc|discriminate].
    - discriminate.
    - now rewrite lst_dep.
    - destruct H.
  Qed.

  (** The scripts of the addresses below a dependant or independant function. *)
  Definition inner (s : string) : Prop := s = DEPENDANT_QUALITY \/ s = INDEPENDANT_QUALITY \/ In s JUNCTION_SCRIPTS \/ In s JUNCTION_INDEX.
  Lemma inner_not_actant s : inner s -> ins s ACTANTS = false.
  Proof. intros [->|[->|[H|H]]]; [reflexivity|reflexivity|now apply junction_not_actant|now apply index_not_actant]. Qed.
  Lemma actors_jun link cs : actors (Jun link cs) =
    ([], Jun link cs) :: (fix go (i : nat) (cs : list sfun) : list (role * sfun) :=
        match cs with [] => [] | c :: r => (under [link; nth i JUNCTION_INDEX ""] (actors c) ++ go (S i) r)%list end) 0 cs.
  Proof. reflexivity. Qed.
  Fixpoint children_actors (link : string) (i : nat) (cs : list sfun) : list (role * sfun) :=
    match cs with [] => [] | c :: r => (under [link; nth i JUNCTION_INDEX ""] (actors c) ++ children_actors link (S i) r)%list end.
  Lemma actors_jun' link cs : actors (Jun link cs) = ([], Jun link cs) :: children_actors link 0 cs.
  Proof.
    rewrite actors_jun. f_equal. generalize 0 as i. induction cs as [|c cs IH]; intros i; [reflexivity|]. cbn [children_actors]. now rewrite <- IH.
  Qed.
  Definition actorso (o : option sfun) := match o with Some f => actors f | None => [] end.
  Lemma actors_dep x d i : actors (Dep x d i) = (([], Dep x d i) :: under [INDEPENDANT_QUALITY] (actorso i) ++ under [DEPENDANT_QUALITY] (actorso d))%list.
  Proof. cbn. destruct i, d; reflexivity. Qed.
  Lemma actors_proc x v (acts : list (string * sfun)) : actors (Proc x v acts) = ([v], Proc x v acts) :: List.concat (map (fun p => under [fst p] (actors (snd p))) acts).
  Proof. cbn. f_equal. induction acts as [|[r g] l IH]; [reflexivity|]. cbn. now rewrite <- IH. Qed.
  Lemma under_in p (l : list (role * sfun)) e : In e (under p l) <-> exists r, fst e = (p ++ r)%list /\ In (r, snd e) l.
  Proof.
    unfold under. rewrite in_map_iff. split.
    - intros ([r x] & <- & H). exists r. cbn. auto.
    - intros (r & E & H). exists (r, snd e). split; auto. cbn. rewrite <- E. now destruct e.
  Qed.
  Lemma children_actors_in link i cs e : In e (children_actors link i cs) <->
    exists j c r, nth_error cs j = Some c /\ fst e = link :: nth (i + j) JUNCTION_INDEX "" :: r /\ In (r, snd e) (actors c).
  Proof.
    revert i. induction cs as [|c cs IH]; intros i; cbn [children_actors].
    - split; [intros []|]. intros (j & c & r & E & _). now destruct j.
    - rewrite in_app_iff, under_in, IH. split.
      + intros [(r & E & H)|(j & c' & r & E & E' & H)].
        * exists 0, c, r. rewrite Nat.add_0_r. auto.
        * exists (S j), c', r. rewrite Nat.add_succ_r. auto.
      + intros ([|j] & c' & r & E & E' & H).
        * injection E as <-. rewrite Nat.add_0_r in E'. left. exists r. auto.
        * right. exists j, c', r. rewrite Nat.add_succ_r in E'. auto.
  Qed.
  Lemma actors_inner k f : valid k f -> forall r g, In (r, g) (actors f) -> Forall inner r.
  Proof.
    revert k. induction f as [link cs IH|x|x d i IHd IHi|x v acts IH] using sfun_ind'; intros k V r g H.
    - apply valid_jun in V. destruct V as (L & N & V). rewrite actors_jun' in H. destruct H as [[= <- _]|H]; [constructor|].
      apply children_actors_in in H. destruct H as (j & c & r' & E & E' & H). cbn [fst snd Nat.add] in E', H. subst r.
      assert (j < List.length cs) by (apply nth_error_Some; congruence).
      constructor; [right; right; now left|]. constructor; [right; right; right; apply nth_In; cbn; lia|].
      rewrite Forall_forall in IH, V. apply nth_error_In in E. eapply IH; eauto.
    - destruct H as [[= <- _]|[]]. constructor.
    - cbn [valid] in V. destruct V as (_ & Vd & Vi). rewrite actors_dep in H. destruct H as [[= <- _]|H]; [constructor|].
      apply in_app_iff in H. rewrite !under_in in H. destruct H as [(r' & E & H)|(r' & E & H)]; cbn in E; subst r.
      + destruct i as [f|]; [|destruct H]. constructor; [right; now left|]. eapply IHi; eauto.
      + destruct d as [f|]; [|destruct H]. constructor; [now left|]. eapply IHd; eauto.
    - destruct V.
  Qed.
  Lemma lst_actors f r x : In (r, x) (lst f) -> exists g, In (r, g) (actors f) /\ is_jun g = false /\ actor_of g = x.
  Proof.
    unfold lst. rewrite in_map_iff. intros ([r' g] & [= <- <-] & H). apply filter_In in H. destruct H as [H J]. cbn in J.
    apply negb_true_iff in J. eauto.
  Qed.
  Lemma lst_inner k f r x : valid k f -> In (r, x) (lst f) -> Forall inner r.
  Proof. intros V H. apply lst_actors in H. destruct H as (g & H & _). eapply actors_inner; eauto. Qed.

  (** ** Junctions *)
  Definition idx (e : entry) : nat := match fst e with _ :: a :: _ => match index_of a JUNCTION_INDEX with Some i => i | None => 0 end | _ => 0 end.
  Definition rest2 (e : entry) : entry := (skipn 2 (fst e), snd e).
  Lemma filter_perm {A} (p : A -> bool) l l' : Permutation l l' -> Permutation (filter p l) (filter p l').
  Proof.
    induction 1; cbn.
    - constructor.
    - destruct (p x); auto.
    - destruct (p x), (p y); auto. apply perm_swap.
    - eapply Permutation_trans; eauto.
  Qed.
  Lemma filter_false {A} (p : A -> bool) l : (forall x, In x l -> p x = false) -> filter p l = [].
  Proof. induction l as [|x l IH]; intros H; [reflexivity|]. cbn. rewrite H by now left. apply IH. intros; apply H; now right. Qed.
  Lemma filter_true {A} (p : A -> bool) l : (forall x, In x l -> p x = true) -> filter p l = l.
  Proof. induction l as [|x l IH]; intros H; [reflexivity|]. cbn. rewrite H by now left. f_equal. apply IH. intros; apply H; now right. Qed.
  Lemma dedup_const (a : string) l : l <> [] -> (forall x, In x l -> x = a) -> dedup String.eqb l = [a].
  Proof.
    intros N H. destruct l as [|b l]; [easy|]. pose proof (H b (or_introl eq_refl)) as ->. cbn. f_equal.
    assert (H' : forall x, In x l -> x = a) by (intros; apply H; now right). clear H N.
    induction l as [|b l IH]; [reflexivity|]. cbn. rewrite (H' b) by now left. rewrite String.eqb_refl. cbn. apply IH. intros; apply H'; now right.
  Qed.
  Lemma dedup_nodup_nat l : NoDup (dedup Nat.eqb l) /\ (forall i, In i (dedup Nat.eqb l) <-> In i l).
  Proof.
    split.
    - pose proof (dedup_distinct Nat.eqb Nat.eqb_sym l) as F. revert F. generalize (dedup Nat.eqb l) as m. clear. induction 1 as [|x m F Fs IH]; constructor; auto.
      intros Hin. rewrite Forall_forall in F. specialize (F _ Hin). now rewrite Nat.eqb_refl in F.
    - intros i. split; [apply dedup_in|]. intros H. apply (dedup_complete Nat.eqb) in H; [|apply Nat.eqb_refl]. destruct H as (y & Hy & E). apply Nat.eqb_eq in E. now subst.
  Qed.
  Lemma dedup_nodup_str l : NoDup (dedup String.eqb l) /\ (forall i, In i (dedup String.eqb l) <-> In i l).
  Proof.
    split.
    - pose proof (dedup_distinct String.eqb String.eqb_sym l) as F. revert F. generalize (dedup String.eqb l) as m. clear. induction 1 as [|x m F Fs IH]; constructor; auto.
      intros Hin. rewrite Forall_forall in F. specialize (F _ Hin). now rewrite String.eqb_refl in F.
    - intros i. split; [apply dedup_in|]. intros H. apply (dedup_complete String.eqb) in H; [|apply String.eqb_refl]. destruct H as (y & Hy & E). apply String.eqb_eq in E. now subst.
  Qed.

  Lemma children_filter link i cs j : i + List.length cs <= 12 ->
    map rest2 (filter (fun e => Nat.eqb (idx e) j) (children_list link i cs)) =
    if Nat.leb i j then match nth_error cs (j - i) with Some c => lst c | None => [] end else [].
  Proof.
    revert i. induction cs as [|c cs IH]; intros i L; cbn [children_list].
    - destruct (Nat.leb i j); [|reflexivity]. now destruct (j - i).
    - cbn [List.length] in L. rewrite filter_app, map_app, IH by lia.
      assert (Ix : forall e, In e (pre [link; nth i JUNCTION_INDEX ""] (lst c)) -> idx e = i).
      { intros e H. apply pre_in in H. destruct H as (r & E & _). unfold idx. rewrite E. cbn [app].
        rewrite (nth_index_of JUNCTION_INDEX i); auto using index_nodup. apply nth_error_nth'. cbn. lia. }
      destruct (Nat.eqb_spec i j) as [<-|Hn].
      + rewrite filter_true by (intros e H; rewrite (Ix e H); apply Nat.eqb_refl). rewrite Nat.leb_refl, Nat.sub_diag. cbn [nth_error].
        replace (Nat.leb (S i) i) with false by (symmetry; apply Nat.leb_gt; lia). rewrite app_nil_r.
        unfold pre. rewrite map_map. rewrite <- (map_id (lst c)) at 2. apply map_ext. now intros [].
      + rewrite filter_false by (intros e H; rewrite (Ix e H); now apply Nat.eqb_neq). cbn [map app].
        destruct (Nat.leb_spec i j).
        * replace (Nat.leb (S i) j) with true by (symmetry; apply Nat.leb_le; lia). replace (j - i) with (S (j - S i)) by lia. reflexivity.
        * replace (Nat.leb (S i) j) with false by (symmetry; apply Nat.leb_gt; lia). reflexivity.
  Qed.

  Lemma junction_ok link cs l : In link JUNCTION_SCRIPTS -> 1 <= List.length cs <= 12 -> Forall (fun c => lst c <> []) cs ->
    Permutation l (lst (Jun link cs)) ->
    exists groups, junction_parts l = Ok (link, groups) /\ Forall2 (fun g c => Permutation g (lst c)) groups cs.
  Proof.
    intros HL N NE P. rewrite lst_jun in *.
    assert (Mem : forall e, In e l -> exists j c r, nth_error cs j = Some c /\ fst e = link :: nth j JUNCTION_INDEX "" :: r /\ In (r, snd e) (lst c)).
    { intros e H. apply (Permutation_in _ P) in H. now apply children_list_in in H. }
    assert (Hh : mapM head_of l = Ok (map (fun _ => link) l)).
    { apply mapM_ok. intros e H. destruct (Mem e H) as (j & c & r & _ & E & _). unfold head_of. now rewrite E. }
    assert (Hi : mapM indexed l = Ok (map (fun e => (idx e, rest2 e)) l)).
    { apply mapM_ok. intros e H. destruct (Mem e H) as (j & c & r & E' & E & _). unfold indexed, idx, rest2. rewrite E. cbn [skipn].
      rewrite (nth_index_of JUNCTION_INDEX j); auto using index_nodup. apply nth_error_nth'.
      assert (j < List.length cs) by (apply nth_error_Some; congruence). cbn [JUNCTION_INDEX List.length]. lia. }
    assert (Ne : l <> []).
    { intros ->. apply Permutation_nil in P. destruct cs as [|c cs]; [cbn in N; lia|]. apply Forall_cons_iff in NE.
      cbn [children_list] in P. pose proof (proj1 NE) as Nc. destruct (lst c); [now elim Nc|discriminate P]. }
    unfold junction_parts. rewrite Hh. cbn [bind].
    rewrite (dedup_const link) by (destruct l; [easy|discriminate] || (intros x H; apply in_map_iff in H; now destruct H as (? & <- & _))).
    cbn [filter]. rewrite (proj2 (ins_In _ _) HL). cbn [filter]. rewrite Hi. cbn [bind].
    set (keys := dedup Nat.eqb (map fst (map (fun e => (idx e, rest2 e)) l))).
    destruct (dedup_nodup_nat (map fst (map (fun e => (idx e, rest2 e)) l))) as [ND IN]. fold keys in ND, IN.
    assert (IN' : forall i, In i keys <-> i < List.length cs).
    { intros i. rewrite IN. rewrite map_map. rewrite in_map_iff. split.
      - intros (e & <- & H). destruct (Mem e H) as (j & c & r & E' & E & _). cbn. unfold idx. rewrite E.
        assert (j < List.length cs) by (apply nth_error_Some; congruence).
        rewrite (nth_index_of JUNCTION_INDEX j); auto using index_nodup. apply nth_error_nth'. cbn. lia.
      - intros H. destruct (nth_error cs i) as [c|] eqn:E; [|apply nth_error_None in E; lia].
        rewrite Forall_forall in NE. pose proof (NE c (nth_error_In _ _ E)) as Ec. destruct (lst c) as [|[r x] lc] eqn:El; [easy|].
        exists (link :: nth i JUNCTION_INDEX "" :: r, x). split.
        + cbn [fst]. unfold idx. cbn [fst]. rewrite (nth_index_of JUNCTION_INDEX i); auto using index_nodup. apply nth_error_nth'. cbn. lia.
        + apply (Permutation_in _ (Permutation_sym P)). apply children_list_in. exists i, c, r. rewrite El. cbn. auto. }
    assert (Len : List.length keys = List.length cs).
    { transitivity (List.length (seq 0 (List.length cs))); [|apply seq_length]. apply Permutation_length, NoDup_Permutation; auto using seq_NoDup.
      intros i. rewrite IN', in_seq. lia. }
    rewrite Len.
    assert (Hk : mapM (fun i => if Nat.ltb (List.length cs) i then Err ValueError else if Nat.eqb i (List.length cs) then Err IndexError else Ok tt) keys = Ok (map (fun _ => tt) keys)).
    { apply mapM_ok. intros i H. apply IN' in H. replace (Nat.ltb (List.length cs) i) with false by (symmetry; apply Nat.ltb_ge; lia).
      replace (Nat.eqb i (List.length cs)) with false by (symmetry; apply Nat.eqb_neq; lia). reflexivity. }
    rewrite Hk. cbn [bind].
    assert (Gr : forall i, map snd (filter (fun p => Nat.eqb (fst p) i) (map (fun e => (idx e, rest2 e)) l)) = map rest2 (filter (fun e => Nat.eqb (idx e) i) l)).
    { intros i. clear. induction l as [|e l IH]; [reflexivity|]. cbn. destruct (Nat.eqb (idx e) i); cbn; [f_equal|]; auto. }
    assert (Fi : forall i c, nth_error cs i = Some c -> map rest2 (filter (fun e => Nat.eqb (idx e) i) (children_list link 0 cs)) = lst c).
    { intros i c E. rewrite children_filter by (cbn; lia). cbn [Nat.leb]. now rewrite Nat.sub_0_r, E. }
    eexists. split; [reflexivity|].
    rewrite (map_ext _ _ Gr).
      assert (Q : forall m ds, (forall i d, nth_error ds i = Some d -> nth_error cs (m + i) = Some d) ->
        Forall2 (fun g c => Permutation g (lst c)) (map (fun i => map rest2 (filter (fun e => Nat.eqb (idx e) i) l)) (seq m (List.length ds))) ds).
      { intros m ds. revert m. induction ds as [|d ds IH]; intros m H; cbn; constructor.
        - rewrite <- (Fi m d). + now apply Permutation_map, filter_perm. + specialize (H 0 d eq_refl). now rewrite Nat.add_0_r in H.
        - apply IH. intros i c E. specialize (H (S i) c E). now rewrite Nat.add_succ_r in H. }
      apply (Q 0). auto.
  Qed.

  (** ** [from_list] on the list of a function *)
  Definition bare (e : entry) : bool := match fst e with [] => true | _ => false end.
  Definition heads (a : string) (e : entry) : bool := match fst e with b :: _ => String.eqb b a | [] => false end.
  Definition tailed (e : entry) : entry := (tl (fst e), snd e).
  Definition short (n : nat) (l : list entry) : Prop := Forall (fun e => List.length (fst e) < n) l.

  Lemma dep_scan_junction (st : dep_state X) (l : list entry) : (forall e, In e l -> exists a r, fst e = a :: r /\ In a JUNCTION_SCRIPTS) ->
    dep_scan st l = Ok {| d_actor := d_actor _ st; d_dep := d_dep _ st; d_indep := d_indep _ st;
                          d_jun := match l with [] => d_jun _ st | _ => true end |}.
  Proof.
    revert st. induction l as [|e l IH]; intros st H; cbn [dep_scan]; [now destruct st|].
    destruct (H e (or_introl eq_refl)) as (a & r & E & Ha). unfold dep_step at 1. rewrite E, (proj2 (ins_In _ _) Ha). cbn [bind].
    rewrite IH by (intros; apply H; now right). cbn. now destruct l.
  Qed.
  Lemma dep_scan_plain (l : list entry) (st : dep_state X) : d_jun _ st = false ->
    (forall e, In e l -> bare e = true \/ heads INDEPENDANT_QUALITY e = true \/ heads DEPENDANT_QUALITY e = true) ->
    List.length (filter bare l) <= match d_actor _ st with Some _ => 0 | None => 1 end ->
    dep_scan st l = Ok {| d_actor := match filter bare l with e :: _ => snd e | [] => d_actor _ st end;
                          d_dep := d_dep _ st ++ map tailed (filter (heads DEPENDANT_QUALITY) l);
                          d_indep := d_indep _ st ++ map tailed (filter (heads INDEPENDANT_QUALITY) l);
                          d_jun := false |}.
  Proof.
    revert st. induction l as [|[r x] l IH]; intros st J H L; cbn.
    - rewrite !app_nil_r. destruct st; cbn in *; now subst.
    - assert (H' : forall e, In e l -> bare e = true \/ heads INDEPENDANT_QUALITY e = true \/ heads DEPENDANT_QUALITY e = true) by (intros; apply H; now right).
      destruct (H (r, x) (or_introl eq_refl)) as [Hb|[Hb|Hb]].
      + destruct r as [|a r]; [|discriminate]. cbn in *. unfold dep_step. cbn.
        destruct (d_actor _ st) as [y|]; [lia|]. cbn.
        assert (E0 : filter bare l = []) by (destruct (filter bare l); [auto|cbn in L; lia]).
        rewrite IH; cbn; auto. { now rewrite E0. } rewrite E0. cbn. destruct x; lia.
      + destruct r as [|a r]; [discriminate|]. cbn in Hb. apply String.eqb_eq in Hb. subst a. cbn in *. unfold dep_step. cbn. rewrite J. cbn.
        rewrite IH; cbn; auto. now rewrite <- app_assoc.
      + destruct r as [|a r]; [discriminate|]. cbn in Hb. apply String.eqb_eq in Hb. subst a. cbn in *. unfold dep_step. cbn. rewrite J. cbn.
        rewrite IH; cbn; auto. now rewrite <- app_assoc.
  Qed.
  Lemma indep_from_junction n (l : list entry) : (forall e, In e l -> fst e <> []) ->
    indep_from (S n) l = (do p <- junction_parts l; do cs <- mapM (indep_from n) (snd p); mk_jun (fst p) cs).
  Proof.
    intros H. cbn. destruct l as [|[[|a r] x] [|e l]]; try reflexivity. elim (H ([], x) (or_introl eq_refl)). reflexivity.
  Qed.
  Lemma filter_pre_heads a b p (l : list entry) : filter (heads a) (pre (b :: p) l) = if String.eqb b a then pre (b :: p) l else [].
  Proof.
    destruct (String.eqb b a) eqn:Eb; [apply filter_true|apply filter_false]; intros e H; apply pre_in in H; destruct H as (r & E & _); unfold heads; now rewrite E.
  Qed.
  Lemma filter_pre_bare b p (l : list entry) : filter bare (pre (b :: p) l) = [].
  Proof. apply filter_false. intros e H. apply pre_in in H. destruct H as (r & E & _). unfold bare. now rewrite E. Qed.
  Lemma tailed_pre a (l : list entry) : map tailed (pre [a] l) = l.
  Proof. unfold pre. rewrite map_map. rewrite <- (map_id l) at 2. apply map_ext. now intros []. Qed.
  Lemma short_pre n a (l : list entry) : short n (pre [a] l) -> short (pred n) l.
  Proof. unfold short, pre. rewrite Forall_map. apply Forall_impl. intros [r x]. cbn. lia. Qed.
  Lemma short_perm n (l l' : list entry) : Permutation l l' -> short n l -> short n l'.
  Proof. intros P H. eapply Permutation_Forall; eauto. Qed.

  Lemma from_perm k f : valid k f -> forall l fuel, Permutation l (lst f) -> short fuel l -> from k fuel l = Ok f.
  Proof.
    revert k. induction f as [link cs IH|x|x d i IHd IHi|x v acts IH] using sfun_ind'; intros k V l fuel P S.
    - pose proof (lst_nonempty k _ V) as Ne. apply valid_jun in V. destruct V as (L & N & V).
      assert (NE : Forall (fun c => lst c <> []) cs) by (eapply Forall_impl; [|exact V]; intros; eapply lst_nonempty; eauto).
      destruct (junction_ok link cs l L N NE P) as (gs & Ej & F).
      assert (Mem : forall e, In e l -> exists j c r, nth_error cs j = Some c /\ fst e = link :: nth j JUNCTION_INDEX "" :: r /\ In (r, snd e) (lst c)).
      { intros e H. apply (Permutation_in _ P) in H. rewrite lst_jun in H. now apply children_list_in in H. }
      assert (N1 : l <> []) by (intros ->; apply Permutation_nil in P; now elim Ne).
      destruct fuel as [|fuel].
      { destruct l as [|e l]; [easy|]. unfold short in S. apply Forall_cons_iff in S. destruct S as [S _]. lia. }
      assert (Hcs : mapM (from k fuel) gs = Ok cs).
      { apply mapM_Forall2. assert (Sc : Forall (fun c => short fuel (lst c)) cs).
        { apply Forall_forall. intros c Hc. apply In_nth_error in Hc. destruct Hc as [j Hj]. apply Forall_forall. intros [r y] He.
          assert (Hl : In ((link :: nth j JUNCTION_INDEX "" :: r, y) : entry) l).
          { apply (Permutation_in _ (Permutation_sym P)). rewrite lst_jun. apply children_list_in. exists j, c, r. auto. }
          unfold short in S. rewrite Forall_forall in S. apply S in Hl. cbn [fst List.length] in *. lia. }
        clear -IH V F Sc. induction F as [|g c gs cs Pg F IHF]; constructor.
        - apply Forall_cons_iff in IH, V, Sc. apply (proj1 IH); [easy|easy|]. eapply short_perm; [apply Permutation_sym, Pg|easy].
        - apply Forall_cons_iff in IH, V, Sc. apply IHF; easy. }
      assert (Hm : mk_jun link cs = Ok (Jun link cs)).
      { unfold mk_jun. replace (Nat.ltb _ _) with false; [reflexivity|]. symmetry. apply Nat.ltb_ge. cbn [JUNCTION_INDEX List.length]. lia. }
      destruct k; cbn [from] in *.
      + cbn [dep_from]. rewrite dep_scan_junction.
        2:{ intros e H. destruct (Mem e H) as (j & c & r & _ & E & _). eauto. }
        destruct l as [|e l]; [easy|]. cbn [bind d_jun]. rewrite Ej. cbn [bind fst snd]. rewrite Hcs. cbn [bind]. exact Hm.
      + rewrite indep_from_junction. 2:{ intros e H. destruct (Mem e H) as (j & c & r & _ & E & _). now rewrite E. }
        rewrite Ej. cbn [bind fst snd]. rewrite Hcs. exact Hm.
    - cbn in V. subst k. cbn in P. apply Permutation_sym, Permutation_length_1_inv in P. subst l.
      destruct fuel; [|reflexivity]. unfold short in S. apply Forall_cons_iff in S. destruct S as [S _]. cbn in S. lia.
    - cbn [valid] in V. destruct V as (-> & Vd & Vi). rewrite lst_dep in P. cbn [from].
      assert (Sall : short fuel (([], x) :: pre [INDEPENDANT_QUALITY] (lsto i) ++ pre [DEPENDANT_QUALITY] (lsto d))) by (eapply short_perm; eauto).
      unfold short in Sall. apply Forall_cons_iff in Sall. destruct Sall as [S0 Sall]. apply Forall_app in Sall. destruct Sall as [Si Sd].
      destruct fuel as [|fuel]; [cbn in S0; lia|]. cbn [dep_from].
      assert (B : filter bare l = [([], x)]).
      { apply Permutation_length_1_inv, Permutation_sym. eapply Permutation_trans; [apply filter_perm, P|]. cbn. now rewrite filter_app, !filter_pre_bare. }
      assert (Pi : Permutation (map tailed (filter (heads INDEPENDANT_QUALITY) l)) (lsto i)).
      { rewrite <- (tailed_pre INDEPENDANT_QUALITY (lsto i)). apply Permutation_map. eapply Permutation_trans; [apply filter_perm, P|].
        cbn [filter heads fst]. rewrite filter_app, !filter_pre_heads. cbn. now rewrite app_nil_r. }
      assert (Pd : Permutation (map tailed (filter (heads DEPENDANT_QUALITY) l)) (lsto d)).
      { rewrite <- (tailed_pre DEPENDANT_QUALITY (lsto d)). apply Permutation_map. eapply Permutation_trans; [apply filter_perm, P|].
        cbn [filter heads fst]. rewrite filter_app, !filter_pre_heads. cbn. reflexivity. }
      rewrite dep_scan_plain.
      + cbn [bind d_jun dep_init d_dep d_indep d_actor app]. rewrite B.
        assert (Od : opt_from (dep_from fuel) (map tailed (filter (heads DEPENDANT_QUALITY) l)) = Ok d).
        { destruct d as [g|]; cbn [lsto] in Pd.
          - unfold opt_from. destruct (map tailed (filter (heads DEPENDANT_QUALITY) l)) as [|e m] eqn:Em.
            + apply Permutation_nil in Pd. now elim (lst_nonempty KD g Vd).
            + pose proof (IHd g eq_refl KD Vd (e :: m) fuel Pd) as Ed. cbn [from] in Ed. rewrite Ed; auto.
              eapply short_perm; [apply Permutation_sym, Pd|]. now apply short_pre in Sd.
          - apply Permutation_sym, Permutation_nil in Pd. now rewrite Pd. }
        assert (Oi : opt_from (indep_from fuel) (map tailed (filter (heads INDEPENDANT_QUALITY) l)) = Ok i).
        { destruct i as [g|]; cbn [lsto] in Pi.
          - unfold opt_from. destruct (map tailed (filter (heads INDEPENDANT_QUALITY) l)) as [|e m] eqn:Em.
            + apply Permutation_nil in Pi. now elim (lst_nonempty KI g Vi).
            + pose proof (IHi g eq_refl KI Vi (e :: m) fuel Pi) as Ed. cbn [from] in Ed. rewrite Ed; auto.
              eapply short_perm; [apply Permutation_sym, Pi|]. now apply short_pre in Si.
          - apply Permutation_sym, Permutation_nil in Pi. now rewrite Pi. }
        rewrite Od. cbn [bind]. rewrite Oi. reflexivity.
      + reflexivity.
      + intros e H. apply (Permutation_in _ P) in H. destruct H as [<-|H]; [now left|]. right.
        apply in_app_iff in H. rewrite !pre_in in H. destruct H as [(r & E & _)|(r & E & _)]; [left|right]; unfold heads; rewrite E; reflexivity.
      + rewrite B. cbn. lia.
    - destruct V.
  Qed.

  (** ** What [from_list] accepts *)
  Definition osome (o : option X) : list X := match o with Some x => [x] | None => [] end.
  Definition lexemes (l : list entry) : list X := List.concat (map (fun e => osome (snd e)) l).
  Lemma lexemes_app l l' : lexemes (l ++ l') = (lexemes l ++ lexemes l')%list.
  Proof. unfold lexemes. now rewrite map_app, concat_app. Qed.
  Lemma lexemes_perm l l' : Permutation l l' -> Permutation (lexemes l) (lexemes l').
  Proof.
    intros P. unfold lexemes. induction P; cbn; auto.
    - now apply Permutation_app_head.
    - rewrite !app_assoc. apply Permutation_app_tail, Permutation_app_comm.
    - eapply Permutation_trans; eauto.
  Qed.
  Lemma lexemes_pre p l : lexemes (pre p l) = lexemes l.
  Proof. unfold lexemes, pre. now rewrite map_map. Qed.
  Lemma lexemes_children link i cs : lexemes (children_list link i cs) = List.concat (map (fun c => lexemes (lst c)) cs).
  Proof. revert i. induction cs as [|c cs IH]; intros i; [reflexivity|]. cbn [children_list map List.concat]. now rewrite lexemes_app, lexemes_pre, IH. Qed.

  Lemma partition_perm {A} (ixs : list (nat * A)) n : (forall p, In p ixs -> fst p < n) ->
    Permutation (List.concat (map (fun i => map snd (filter (fun p => Nat.eqb (fst p) i) ixs)) (seq 0 n))) (map snd ixs).
  Proof.
    induction ixs as [|[j x] ixs IH]; intros H.
    - cbn. induction (seq 0 n); cbn; auto.
    - assert (Hj : j < n) by (apply (H (j, x)); now left).
      assert (IH' := IH (fun p Hp => H p (or_intror Hp))). clear IH H.
      replace n with (j + S (n - S j)) in * by lia. rewrite seq_app, map_app, concat_app in *. cbn [seq map List.concat Nat.add] in *.
      cbn [filter fst]. rewrite Nat.eqb_refl.
      assert (Q : forall m, (forall i, In i m -> i <> j) ->
        map (fun i => map snd (if Nat.eqb j i then (j, x) :: filter (fun p => Nat.eqb (fst p) i) ixs else filter (fun p => Nat.eqb (fst p) i) ixs)) m =
        map (fun i => map snd (filter (fun p => Nat.eqb (fst p) i) ixs)) m).
      { intros m Hm. apply map_ext_in. intros i Hi. destruct (Nat.eqb_spec j i) as [->|]; [|reflexivity]. now elim (Hm i Hi). }
      rewrite !Q by (intros i Hi; apply in_seq in Hi; lia). cbn [map snd app].
      apply Permutation_sym, Permutation_cons_app, Permutation_sym. exact IH'.
  Qed.

  Lemma indexed_ok e p : indexed e = Ok p -> 2 <= List.length (fst e) /\ p = (idx e, rest2 e).
  Proof.
    unfold indexed, idx, rest2. destruct e as [[|a [|b r]] x]; cbn [fst]; try discriminate.
    destruct (index_of b JUNCTION_INDEX); [|discriminate]. intros [= <-]. cbn. split; [lia|reflexivity].
  Qed.
  Lemma junction_inv l link gs : junction_parts l = Ok (link, gs) ->
    In link JUNCTION_SCRIPTS /\ l <> [] /\ gs <> [] /\ Forall (fun e => 2 <= List.length (fst e)) l /\
    Permutation (List.concat gs) (map rest2 l).
  Proof.
    unfold junction_parts. intros H. run H as hs Heqr.
    destruct (filter _ (dedup String.eqb hs)) as [|lk [|]] eqn:Ef; try discriminate H. run H as ixs Heqr0.
    assert (F : Forall2 (fun e p => p = (idx e, rest2 e) /\ 2 <= List.length (fst e)) l ixs).
    { apply mapM_inv in Heqr0. clear -Heqr0. induction Heqr0 as [|e p l ixs E F IH]; constructor; auto. apply indexed_ok in E. tauto. }
    assert (Eixs : ixs = map (fun e => (idx e, rest2 e)) l).
    { clear -F. induction F as [|e p l ixs [E _] F IH]; [reflexivity|]. cbn. now rewrite E, IH. }
    set (keys := dedup Nat.eqb (map fst ixs)) in *. run H as us Heqr1. injection H as -> <-.
    assert (Hin : In link (filter (fun a => ins a JUNCTION_SCRIPTS) (dedup String.eqb hs))) by (rewrite Ef; now left).
    apply filter_In in Hin. destruct Hin as [Hin Hj]. apply ins_In in Hj.
    assert (Ne : l <> []). { intros ->. cbn in Heqr. injection Heqr as <-. destruct Hin. }
    assert (Kn : forall i, In i keys -> i < List.length keys).
    { apply mapM_inv in Heqr1. clear -Heqr1. intros i Hi. revert i Hi. generalize dependent keys. intros keys. generalize (List.length keys) as n.
      intros n F. induction F as [|k u ks us E F IH]; intros i Hi; [destruct Hi|].
      destruct Hi as [<-|Hi]; auto. destruct (Nat.ltb_spec n k); [discriminate|]. destruct (Nat.eqb_spec k n); [discriminate|]. lia. }
    assert (Mem : forall p, In p ixs -> fst p < List.length keys).
    { intros p Hp. apply Kn. unfold keys. apply dedup_nodup_nat. now apply in_map. }
    split; [auto|]. split; [auto|]. split.
    - assert (List.length keys <> 0). { destruct l as [|e l]; [easy|]. cbn in Eixs. specialize (Mem (idx e, rest2 e)). rewrite Eixs in Mem at 1. specialize (Mem (or_introl eq_refl)). lia. }
      destruct (List.length keys); [easy|]. discriminate.
    - split; [clear -F; induction F as [|? ? ? ? [_ ?]]; constructor; auto|].
      eapply Permutation_trans; [apply partition_perm, Mem|]. rewrite Eixs, map_map. reflexivity.
  Qed.

  Lemma lexemes_rest l : lexemes (map rest2 l) = lexemes l.
  Proof. unfold lexemes, rest2. now rewrite map_map. Qed.
  Lemma lexemes_concat gs : lexemes (List.concat gs) = List.concat (map lexemes gs).
  Proof. induction gs as [|g gs IH]; [reflexivity|]. cbn [List.concat map]. now rewrite lexemes_app, IH. Qed.

  Definition st_lexemes (st : dep_state X) : list X := (osome (d_actor _ st) ++ lexemes (d_indep _ st) ++ lexemes (d_dep _ st))%list.
  Lemma dep_scan_lexemes l st st' : dep_scan st l = Ok st' -> d_jun _ st' = false ->
    Permutation (st_lexemes st') (st_lexemes st ++ lexemes l).
  Proof.
    revert st. induction l as [|e l IH]; intros st H J; cbn [dep_scan] in H.
    - injection H as <-. now rewrite app_nil_r.
    - run H as s1 Heqr. specialize (IH _ H J).
      assert (J1 : d_jun _ s1 = false).
      { clear -H J. revert s1 H. induction l as [|e l IH]; intros s1 H; cbn [dep_scan] in H; [now injection H as ->|].
        run H as s2 Heqr. apply IH in H. unfold dep_step in Heqr. destruct (fst e) as [|a r].
        - destruct (d_actor _ s1); [discriminate|]. injection Heqr as <-. exact H.
        - destruct (ins a JUNCTION_SCRIPTS); [injection Heqr as <-; discriminate|]. now destruct (d_jun _ s1); [discriminate|]. }
      eapply Permutation_trans; [exact IH|]. change (lexemes (e :: l)) with (osome (snd e) ++ lexemes l)%list. rewrite app_assoc.
      apply Permutation_app_tail. unfold dep_step in Heqr. unfold st_lexemes. destruct (fst e) as [|a r].
      + destruct (d_actor _ st); [discriminate|]. injection Heqr as <-. cbn [d_actor d_indep d_dep osome app].
        rewrite app_assoc. apply Permutation_app_comm || (rewrite <- app_assoc; apply Permutation_app_comm).
      + destruct (ins a JUNCTION_SCRIPTS); [injection Heqr as <-; discriminate|]. destruct (d_jun _ st); [discriminate|].
        destruct (String.eqb a INDEPENDANT_QUALITY); [|destruct (String.eqb a DEPENDANT_QUALITY); [|discriminate]]; injection Heqr as <-;
          cbn [d_actor d_indep d_dep]; rewrite lexemes_app; unfold lexemes at 2 3; cbn [map List.concat snd]; rewrite ?app_nil_r, <- !app_assoc.
        * apply Permutation_app_head, Permutation_app_head. apply Permutation_app_comm.
        * reflexivity.
  Qed.

  Lemma Forall2_all {A B} (P : A -> B -> Prop) (Q : B -> Prop) l r : Forall2 P l r -> (forall x y, In x l -> P x y -> Q y) -> Forall Q r.
  Proof. induction 1 as [|x y l r H F IH]; intros G; constructor; [apply (G x); [now left|auto]|]. apply IH. intros; eapply G; [right|]; eauto. Qed.
  Lemma mk_jun_inv link cs f : @mk_jun X link cs = Ok f -> f = Jun link cs /\ List.length cs <= 12.
  Proof. unfold mk_jun. destruct (Nat.ltb_spec (List.length JUNCTION_INDEX) (List.length cs)) as [H|H]; [discriminate|]. intros [= <-]. split; auto. Qed.
  Lemma junction_lexemes gs cs : Forall2 (fun g c => Permutation (lexemes (lst c)) (lexemes g)) gs cs ->
    Permutation (List.concat (map (fun c => lexemes (lst c)) cs)) (List.concat (map lexemes gs)).
  Proof. induction 1 as [|g c gs cs H F IH]; [constructor|]. cbn. now apply Permutation_app. Qed.

  Lemma from_inv fuel : forall k l f, from k fuel l = Ok f -> valid k f /\ Permutation (lexemes (lst f)) (lexemes l).
  Proof.
    induction fuel as [|n IH]; intros k l f H; [destruct k; discriminate H|].
    assert (Junc : (do p <- junction_parts l; do cs <- mapM (from k n) (snd p); mk_jun (fst p) cs) = Ok f ->
      valid k f /\ Permutation (lexemes (lst f)) (lexemes l)).
    { clear H. intros H. run H as p Ep. destruct p as [link gs]. cbn [fst snd] in H. run H as cs Ec. apply mk_jun_inv in H. destruct H as [-> Lc].
      apply junction_inv in Ep. destruct Ep as (HL & Nl & Ng & _ & P). apply mapM_inv in Ec.
      assert (F : Forall2 (fun g c => valid k c /\ Permutation (lexemes (lst c)) (lexemes g)) gs cs).
      { clear -Ec IH. induction Ec as [|g c gs cs H F IHF]; constructor; auto. }
      split.
      - apply valid_jun. split; auto. split.
        + split; auto. destruct F; [easy|cbn; lia].
        + clear -F. induction F as [|? ? ? ? [? _]]; constructor; auto.
      - rewrite lst_jun, lexemes_children. eapply Permutation_trans.
        + apply (junction_lexemes gs). clear -F. induction F as [|? ? ? ? [_ ?]]; constructor; auto.
        + rewrite <- lexemes_concat. eapply Permutation_trans; [apply lexemes_perm, P|]. now rewrite lexemes_rest. }
    destruct k; cbn [from] in *.
    - cbn [dep_from] in H. run H as st Es. destruct (d_jun _ st) eqn:J; [auto|]. clear Junc.
      run H as d Ed. run H as i Ei. injection H as <-.
      assert (Hd : match d with Some g => valid KD g | None => True end /\ Permutation (lexemes (lsto d)) (lexemes (d_dep _ st))).
      { unfold opt_from in Ed. destruct (d_dep _ st) as [|e m]; [injection Ed as <-; split; [exact Logic.I|reflexivity]|].
        run Ed as g Eg. injection Ed as <-. apply (IH KD) in Eg. exact Eg. }
      assert (Hi : match i with Some g => valid KI g | None => True end /\ Permutation (lexemes (lsto i)) (lexemes (d_indep _ st))).
      { unfold opt_from in Ei. destruct (d_indep _ st) as [|e m]; [injection Ei as <-; split; [exact Logic.I|reflexivity]|].
        run Ei as g Eg. injection Ei as <-. apply (IH KI) in Eg. exact Eg. }
      split; [cbn [valid]; tauto|]. rewrite lst_dep. change (lexemes (([], d_actor X st) :: ?m)) with (osome (d_actor X st) ++ lexemes m)%list.
      rewrite lexemes_app, !lexemes_pre. pose proof (dep_scan_lexemes _ _ _ Es J) as Q. cbn in Q. unfold st_lexemes in Q.
      eapply Permutation_trans; [|exact Q]. apply Permutation_app_head. now apply Permutation_app.
    - destruct l as [|[[|a r] x] [|e l]]; try (apply Junc; exact H). cbn in H. injection H as <-. split; [reflexivity|]. reflexivity.
  Qed.

  (** ** Processes *)
  Fixpoint group_at (r : string) (l : list (string * list entry)) : list entry :=
    match l with [] => [] | (r', es) :: l => if String.eqb r r' then es else group_at r l end.
  Lemma add_actant_keys r e l : In r (map fst l) -> map fst (@add_actant X r e l) = map fst l.
  Proof.
    induction l as [|[r' es] l IH]; [intros []|]. cbn. destruct (String.eqb_spec r r') as [->|Hn]; cbn; [auto|]. intros [E|H]; [congruence|]. now rewrite IH.
  Qed.
  Lemma add_actant_new r e l : ~ In r (map fst l) -> @add_actant X r e l = (l ++ [(r, [e])])%list.
  Proof.
    induction l as [|[r' es] l IH]; [reflexivity|]. cbn. intros H. destruct (String.eqb_spec r r') as [->|Hn]; [elim H; now left|]. f_equal. apply IH. tauto.
  Qed.
  Lemma add_actant_group r e l s : group_at s (@add_actant X r e l) = (group_at s l ++ if String.eqb s r then [e] else [])%list.
  Proof.
    induction l as [|[r' es] l IH]; cbn.
    - now destruct (String.eqb s r).
    - destruct (String.eqb_spec r r') as [->|Hn]; cbn.
      + destruct (String.eqb s r'); [reflexivity|]. now rewrite app_nil_r.
      + destruct (String.eqb_spec s r') as [->|]; [|exact IH]. destruct (String.eqb_spec r' r); [congruence|]. now rewrite app_nil_r.
  Qed.
  Definition pinv (acts : list (string * list entry)) : Prop :=
    NoDup (map fst acts) /\ Forall (fun p => In (fst p) ACTANTS /\ snd p <> []) acts.
  Lemma add_actant_inv r e l : In r ACTANTS -> pinv l -> pinv (@add_actant X r e l).
  Proof.
    intros Hr [N F]. destruct (in_dec string_dec r (map fst l)) as [H|H].
    - split; [now rewrite add_actant_keys|]. clear N H. induction F as [|[r' es] l [H1 H2] F IH]; cbn; [constructor; [|constructor]; cbn; split; [auto|discriminate]|].
      destruct (String.eqb r r'); constructor; auto; cbn in *. split; auto. now destruct es.
    - rewrite add_actant_new by auto. split.
      + rewrite map_app. cbn. eapply (Permutation_NoDup (Permutation_cons_append _ _)). now constructor.
      + apply Forall_app. split; auto. constructor; auto. cbn. split; [auto|discriminate].
  Qed.
  Lemma pinv_group acts r es : pinv acts -> (In (r, es) acts <-> es = group_at r acts /\ es <> []).
  Proof.
    intros [N F]. induction acts as [|[r' es'] l IH]; cbn in *.
    - split; [intros []|]. intros [-> H]. now elim H.
    - apply NoDup_cons_iff in N. apply Forall_cons_iff in F. cbn in F. destruct N as [N N'], F as [[_ F0] F']. specialize (IH N' F').
      destruct (String.eqb_spec r r') as [->|Hn].
      + split.
        * intros [[= <-]|H]; [auto|]. elim N. change r' with (fst (r', es)). now apply in_map.
        * intros [-> _]. now left.
      + rewrite <- IH. split; [|auto]. intros [[= ? ?]|H]; [congruence|auto].
  Qed.

  Definition proc_ok (e : entry) : Prop :=
    exists a r, fst e = a :: r /\ (In a VALENCES /\ r = [] \/ In a ACTANTS /\ forall s, In s r -> ins s ACTANTS = false).
  Definition isval (e : entry) : bool := match fst e with a :: _ => ins a VALENCES | [] => false end.
  Lemma proc_step_actant (st : proc_state X) a r x : In a ACTANTS -> (forall s, In s r -> ins s ACTANTS = false) ->
    proc_step st (a :: r, x) = Ok {| p_actor := p_actor _ st; p_valence := p_valence _ st; p_actants := add_actant a (r, x) (p_actants _ st) |}.
  Proof.
    intros Ha Hr. unfold proc_step. cbn [fst snd]. rewrite (actant_not_valence a Ha), (proj2 (ins_In _ _) Ha). cbn [filter].
    rewrite (proj2 (ins_In _ _) Ha). cbn [List.length]. now rewrite (filter_false _ r Hr).
  Qed.
  Lemma proc_scan_ok l : forall st, Forall proc_ok l -> pinv (p_actants _ st) ->
    List.length (filter isval l) <= match p_actor _ st with Some _ => 0 | None => 1 end ->
    exists st', proc_scan st l = Ok st' /\ pinv (p_actants _ st') /\
      (forall r, group_at r (p_actants _ st') = group_at r (p_actants _ st) ++ if ins r ACTANTS then map tailed (filter (heads r) l) else [])%list /\
      p_actor _ st' = match filter isval l with e :: _ => snd e | [] => p_actor _ st end /\
      p_valence _ st' = match filter isval l with e :: _ => hd_error (fst e) | [] => p_valence _ st end.
  Proof.
    induction l as [|e l IH]; intros st F I L; cbn [proc_scan].
    - exists st. split; [auto|]. split; [auto|]. split; [intros r; cbn [filter map]; destruct (ins r ACTANTS); now rewrite app_nil_r|]. auto.
    - apply Forall_cons_iff in F. destruct F as [(a & r & E & Ha) F]. destruct e as [r0 x]. cbn [fst] in E. subst r0. destruct Ha as [[Ha ->]|[Ha Hr]].
      + unfold proc_step. cbn [filter] in L |- *.
        match type of L with context [if isval ?e then _ else _] => assert (Eb : isval e = true) by (unfold isval; cbn [fst]; now apply ins_In) end.
        rewrite Eb in L. rewrite !Eb. cbn [fst snd] in L |- *. rewrite (proj2 (ins_In _ _) Ha) in *.
        destruct (p_actor _ st) as [y|] eqn:Ey; [cbn in L; lia|]. cbn [bind].
        assert (E0 : filter isval l = []) by (destruct (filter isval l); [auto|cbn in L; lia]).
        match goal with |- context [proc_scan ?s l] => destruct (IH s F I) as (st' & S' & I' & G' & A' & V'); [rewrite E0; cbn; destruct x; lia|] end.
        rewrite E0 in A', V'. cbn [p_actor p_valence p_actants] in *. exists st'. split; [exact S'|]. split; [auto|]. split; [|split; auto].
        intros r. rewrite G'. f_equal. destruct (ins r ACTANTS) eqn:Er; [|reflexivity]. unfold heads at 2. cbn [fst].
        destruct (String.eqb_spec a r) as [->|]; [|reflexivity]. rewrite (valence_not_actant r Ha) in Er. discriminate.
      + rewrite proc_step_actant by auto. cbn [bind]. cbn [filter] in L |- *.
        match type of L with context [if isval ?e then _ else _] => assert (Eb : isval e = false) by (unfold isval; cbn [fst]; now apply actant_not_valence) end.
        rewrite Eb in L. rewrite !Eb. cbn [fst snd] in L |- *.
        match goal with |- context [proc_scan ?s l] => destruct (IH s F) as (st' & S' & I' & G' & A' & V') end.
        3:{ exists st'. split; [exact S'|]. split; [auto|]. split; [|split; [exact A'|exact V']]. intros s. rewrite G'. cbn [p_actants]. rewrite add_actant_group, <- app_assoc. f_equal.
            unfold heads at 2. cbn [fst]. rewrite (String.eqb_sym a s). destruct (String.eqb_spec s a) as [->|]; [|reflexivity].
            rewrite (proj2 (ins_In _ _) Ha). reflexivity. }
        * cbn [p_actants]. now apply add_actant_inv.
        * exact L.
  Qed.

  Definition glexemes (acts : list (string * list entry)) : list X := List.concat (map (fun p => lexemes (snd p)) acts).
  Definition pst_lexemes (st : proc_state X) : list X := (osome (p_actor _ st) ++ glexemes (p_actants _ st))%list.
  Lemma add_actant_lexemes r e l : Permutation (glexemes (@add_actant X r e l)) (glexemes l ++ osome (snd e)).
  Proof.
    unfold glexemes. induction l as [|[r' es] l IH]; cbn [add_actant map List.concat snd].
    - unfold lexemes. cbn. now rewrite !app_nil_r.
    - destruct (String.eqb r r'); cbn [map List.concat snd].
      + rewrite lexemes_app. unfold lexemes at 2. cbn [map List.concat]. rewrite app_nil_r, <- !app_assoc. apply Permutation_app_head, Permutation_app_comm.
      + rewrite <- app_assoc. now apply Permutation_app_head.
  Qed.
  Definition vok (o : option string) : Prop := match o with Some v => In v VALENCES | None => True end.
  Lemma proc_scan_inv l : forall st st', proc_scan st l = Ok st' -> pinv (p_actants _ st) -> vok (p_valence _ st) ->
    pinv (p_actants _ st') /\ vok (p_valence _ st') /\ Permutation (pst_lexemes st') (pst_lexemes st ++ lexemes l) /\
    (forall n, short (S n) l -> Forall (fun p => short n (snd p)) (p_actants _ st) -> Forall (fun p => short n (snd p)) (p_actants _ st')).
  Proof.
    induction l as [|e l IH]; intros st st' H I V; cbn [proc_scan] in H.
    - injection H as <-. split; [auto|]. split; [auto|]. rewrite app_nil_r. auto.
    - run H as s1 E1.
      assert (Q : pinv (p_actants _ s1) /\ vok (p_valence _ s1) /\ Permutation (pst_lexemes s1) (pst_lexemes st ++ osome (snd e)) /\
        (forall n, List.length (fst e) < S n -> Forall (fun p => short n (snd p)) (p_actants _ st) -> Forall (fun p => short n (snd p)) (p_actants _ s1))).
      { unfold proc_step in E1. destruct (fst e) as [|a r] eqn:Ee; [discriminate|]. destruct (ins a VALENCES) eqn:Ea.
        - destruct r; [|discriminate]. destruct (p_actor _ st) eqn:Ep; [discriminate|]. injection E1 as <-. cbn [p_actants p_valence].
          split; [auto|]. split; [now apply ins_In|]. split; [|auto]. unfold pst_lexemes. cbn [p_actants p_actor]. rewrite Ep. cbn [osome app]. apply Permutation_app_comm.
        - destruct (ins a ACTANTS) eqn:Ea'; [|discriminate]. destruct (List.length _) as [|[|]]; try discriminate. injection E1 as <-. cbn [p_actants p_valence].
          split; [apply add_actant_inv; auto; now apply ins_In|]. split; [auto|]. split.
          + unfold pst_lexemes. cbn [p_actants p_actor]. rewrite <- app_assoc. apply Permutation_app_head.
            apply (add_actant_lexemes a (r, snd e)).
          + intros n Hn. cbn in Hn. intros F. clear -Hn F. induction F as [|[r' es] m Hm F IHF]; cbn.
            * constructor; [|constructor]. cbn. constructor; [cbn; lia|constructor].
            * destruct (String.eqb a r'); constructor; [|exact F|exact Hm|exact IHF]. apply Forall_app. split; [exact Hm|]. constructor; [cbn; lia|constructor]. }
      destruct Q as (I1 & V1 & P1 & S1). destruct (IH s1 st' H I1 V1) as (I2 & V2 & P2 & S2).
      split; [auto|]. split; [auto|]. split.
      + eapply Permutation_trans; [exact P2|]. change (lexemes (e :: l)) with (osome (snd e) ++ lexemes l)%list. rewrite app_assoc. now apply Permutation_app_tail.
      + intros n Hs Hf. apply Forall_cons_iff in Hs. destruct Hs. auto.
  Qed.
  Lemma pinv_nil : pinv []. Proof. split; constructor. Qed.

  Lemma proc_inv fuel l f : proc_from fuel l = Ok f -> pvalid f /\ Permutation (lexemes (lst f)) (lexemes l).
  Proof.
    unfold proc_from. intros H. run H as st Es. run H as acts Ea. destruct (p_valence _ st) as [v|] eqn:Ev; [|discriminate]. injection H as <-.
    destruct (proc_scan_inv _ _ _ Es pinv_nil Logic.I) as ([N F] & V & P & _). rewrite Ev in V. cbn in V, P.
    apply mapM_inv in Ea.
    assert (Q : Forall2 (fun p q => fst q = fst p /\ valid KD (snd q) /\ Permutation (lexemes (lst (snd q))) (lexemes (snd p))) (p_actants _ st) acts).
    { clear -Ea. induction Ea as [|[r es] q l m E F IH]; constructor; auto. cbn in E. run E as g Eg. injection E as <-.
      apply (from_inv fuel KD) in Eg. cbn. auto. }
    assert (K : map fst acts = map fst (p_actants _ st)) by (clear -Q; induction Q as [|? ? ? ? [? _]]; cbn; congruence).
    split.
    - cbn. split; [auto|]. split; [now rewrite K|]. clear -Q F. induction Q as [|p q l m (E & Vq & _) Q IH]; constructor.
      + apply Forall_cons_iff in F. rewrite E. tauto.
      + apply Forall_cons_iff in F. tauto.
    - rewrite lst_proc. change (lexemes (([v], p_actor X st) :: ?m)) with (osome (p_actor X st) ++ lexemes m)%list.
      eapply Permutation_trans; [|exact P]. apply Permutation_app_head. clear -Q. unfold glexemes. rewrite lexemes_concat, map_map.
      induction Q as [|p q l m (E & _ & Pq) Q IH]; [constructor|]. cbn [map List.concat]. rewrite lexemes_pre. now apply Permutation_app.
  Qed.

  Lemma proc_list_ok x v acts : pvalid (Proc x v acts) -> Forall proc_ok (lst (Proc x v acts)).
  Proof.
    cbn [pvalid]. intros (V & N & F). rewrite lst_proc. constructor; [exists v, []; auto|].
    clear N. induction F as [|[r g] acts [Hr Vg] F IH]; cbn [map List.concat fst snd] in *; [constructor|]. apply Forall_app. split; auto.
    apply Forall_forall. intros e He. apply pre_in in He. destruct He as (r' & E & H). exists r, r'. split; auto. right. split; auto.
    intros s Hs. apply inner_not_actant. pose proof (lst_inner _ _ _ _ Vg H) as I. rewrite Forall_forall in I. auto.
  Qed.
  Lemma filter_heads_acts r acts : NoDup (map fst acts) ->
    filter (heads r) (List.concat (map (fun p => pre [fst p] (lst (snd p))) acts)) =
    match find (fun p => String.eqb (fst p) r) acts with Some p => pre [r] (lst (snd p)) | None => [] end.
  Proof.
    induction acts as [|[s g] acts IH]; [reflexivity|]. cbn [map List.concat find fst snd]. intros N. apply NoDup_cons_iff in N. destruct N as [N N'].
    rewrite filter_app, filter_pre_heads, IH by auto. destruct (String.eqb_spec s r) as [->|]; [|reflexivity].
    destruct (find _ acts) as [p|] eqn:E; [|apply app_nil_r]. apply find_some in E. destruct E as [E E']. apply String.eqb_eq in E'. elim N. rewrite <- E'. now apply in_map.
  Qed.
  Lemma filter_isval_acts acts : Forall (fun p : string * sfun => In (fst p) ACTANTS) acts -> filter isval (List.concat (map (fun p => pre [fst p] (lst (snd p))) acts)) = [].
  Proof.
    induction 1 as [|[r g] acts H F IH]; [reflexivity|]. cbn [map List.concat fst snd]. rewrite filter_app, IH, app_nil_r.
    apply filter_false. intros e He. apply pre_in in He. destruct He as (r' & E & _). unfold isval. rewrite E. now apply actant_not_valence.
  Qed.

  Lemma proc_perm x v acts : pvalid (Proc x v acts) -> forall l fuel, Permutation l (lst (Proc x v acts)) -> short (S fuel) l ->
    exists acts', proc_from fuel l = Ok (Proc x v acts') /\ Permutation acts' acts.
  Proof.
    intros PV l fuel P S. pose proof (proc_list_ok _ _ _ PV) as OK. cbn [pvalid] in PV. destruct PV as (V & N & F). rewrite lst_proc in *.
    assert (FA : Forall (fun p : string * sfun => In (fst p) ACTANTS) acts) by (eapply Forall_impl; [|exact F]; now intros p [? _]).
    assert (Lv : filter isval l = [([v], x)]).
    { apply Permutation_length_1_inv, Permutation_sym. eapply Permutation_trans; [apply filter_perm, P|]. cbn [filter]. rewrite filter_isval_acts by auto.
      unfold isval. cbn [fst]. now rewrite (proj2 (ins_In _ _) V). }
    destruct (proc_scan_ok l proc_init) as (st & E & I & G & A & Vl).
    { eapply Permutation_Forall; [apply Permutation_sym, P|auto]. } { apply pinv_nil. } { rewrite Lv. cbn. lia. }
    rewrite Lv in A, Vl. cbn in A, Vl. unfold proc_from. rewrite E. cbn [bind]. rewrite Vl, A.
    assert (Gr : forall r es, In (r, es) (p_actants _ st) -> exists g, In (r, g) acts /\ Permutation es (lst g)).
    { intros r es H. assert (Hr : In r ACTANTS) by (destruct I as [_ I]; rewrite Forall_forall in I; apply (I _ H)).
      apply (pinv_group _ _ _ I) in H. destruct H as [Ee Ne]. rewrite G, (proj2 (ins_In _ _) Hr) in Ee. cbn [group_at p_actants proc_init app] in Ee.
      assert (Pe : Permutation es (map tailed (filter (heads r) (([v], x) :: List.concat (map (fun p => pre [fst p] (lst (snd p))) acts))))).
      { rewrite Ee. apply Permutation_map, filter_perm, P. }
      cbn [filter] in Pe. replace (heads r ([v], x)) with false in Pe.
      2:{ symmetry. unfold heads. cbn [fst]. apply String.eqb_neq. intros ->. pose proof (actant_not_valence _ Hr) as Z. apply ins_out in Z. now elim Z. }
      rewrite filter_heads_acts in Pe by auto. destruct (find _ acts) as [p|] eqn:Ef.
      - rewrite tailed_pre in Pe. apply find_some in Ef. destruct Ef as [Ef Ef']. apply String.eqb_eq in Ef'. exists (snd p). subst r. destruct p. auto.
      - apply Permutation_sym, Permutation_nil in Pe. now elim Ne. }
    assert (Cov : forall r g, In (r, g) acts -> exists es, In (r, es) (p_actants _ st)).
    { intros r g H. exists (group_at r (p_actants _ st)). apply (pinv_group _ _ _ I). split; [auto|]. rewrite G.
      rewrite Forall_forall in F. destruct (F _ H) as [Hr Vg]. cbn [fst snd] in Hr, Vg. rewrite (proj2 (ins_In _ _) Hr). cbn [group_at p_actants proc_init app].
      pose proof (lst_nonempty _ _ Vg) as Ng. destruct (lst g) as [|[r1 x1] lg] eqn:Eg; [easy|].
      assert (Hin : In ((r :: r1, x1) : entry) l).
      { apply (Permutation_in _ (Permutation_sym P)). right. apply in_concat. exists (pre [r] (lst g)). split; [now apply (in_map (fun p => pre [fst p] (lst (snd p))) _ (r, g))|]. rewrite Eg. now left. }
      assert (Hin' : In ((r :: r1, x1) : entry) (filter (heads r) l)) by (apply filter_In; split; auto; unfold heads; apply String.eqb_refl).
      destruct (filter (heads r) l); [destruct Hin'|discriminate]. }
    assert (Sg : Forall (fun p => short fuel (snd p)) (p_actants _ st)).
    { destruct (proc_scan_inv _ _ _ E pinv_nil Logic.I) as (_ & _ & _ & Q). apply Q; [exact S|constructor]. }
    assert (Q : exists acts', mapM (fun p => do f <- dep_from fuel (snd p); Ok (fst p, f)) (p_actants _ st) = Ok acts' /\ map fst acts' = map fst (p_actants _ st) /\ incl acts' acts).
    { clear -Gr Sg F. induction (p_actants X st) as [|[r es] m IH].
      - exists []. split; [reflexivity|]. split; [reflexivity|]. intros ? [].
      - destruct IH as (acts' & E1 & E2 & E3). { intros; apply Gr; now right. } { now apply Forall_cons_iff in Sg. }
        destruct (Gr r es (or_introl eq_refl)) as (g & Hg & Pg). exists ((r, g) :: acts').
        rewrite Forall_forall in F. destruct (F _ Hg) as [_ Vg]. apply Forall_cons_iff in Sg. destruct Sg as [Se _].
        pose proof (from_perm KD g Vg es fuel Pg Se) as Ed. cbn [from] in Ed.
        split; [|split; [cbn; now f_equal|now intros ? [<-|?]; auto]].
        cbn [mapM fst snd]. rewrite Ed. cbn [bind]. fold (mapM (fun p : string * list entry => do f <- dep_from fuel (snd p); Ok (fst p, f))). rewrite E1. reflexivity. }
    destruct Q as (acts' & E1 & E2 & E3). rewrite E1. exists acts'. split; [reflexivity|].
    assert (N' : NoDup (map fst acts')) by (rewrite E2; apply I).
    apply NoDup_Permutation; [now apply NoDup_map_inv in N'|now apply NoDup_map_inv in N|]. intros [r g]. split; [apply E3|].
    intros H. destruct (Cov r g H) as (es & He). assert (Hr : In r (map fst acts')) by (rewrite E2; change r with (fst (r, es)); now apply in_map).
    apply in_map_iff in Hr. destruct Hr as ([r' g'] & E' & H'). cbn in E'. subst r'. pose proof (E3 _ H') as H''.
    rewrite (nodup_fst _ _ _ _ N H H''). exact H'.
  Qed.
End Facts.
