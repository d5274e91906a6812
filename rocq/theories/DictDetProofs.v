(** The dictionary and the order of sets. *)
From Coq Require Import List String Ascii Bool NArith Arith Lia Permutation Sorted.
From Verif Require Import Base Script ScriptParser SortProofs ScriptWf ScriptStrProofs ScriptOrderProofs ScriptSpec ScriptCtorProofs ScriptParseProofs ScriptSeqProofs ScriptMoreProofs ScriptAlgProofs ScriptEqProofs Tables TablesSpec TablesProofs TablesGridProofs TablesAllProofs Dictionary DictionarySpec DictTableProofs DictLoadProofs DictRelProofs DictSibProofs DictTopProofs DictAcceptProofs DictParentProofs.
Import ListNotations.

(** * Sets of tables *)
Lemma mapM_perm {A B} (f : A -> res B) l l' r : Permutation l l' -> mapM f l = Ok r -> exists r', mapM f l' = Ok r' /\ Permutation r r'.
Proof.
  intros P. revert r. induction P as [|x l l' P IH|x y l|l l' l'' P1 IH1 P2 IH2]; intros r E.
  - exists r. auto.
  - cbn [mapM] in *. destruct (f x) as [b|]; cbn [bind] in *; [|discriminate]. destruct (mapM f l) as [bs|]; cbn [bind] in *; [|discriminate]. apply Ok_inj in E. subst r. destruct (IH bs eq_refl) as (r' & E & P'). rewrite E. cbn [bind]. exists (b :: r'). auto.
  - cbn [mapM] in *. destruct (f y) as [b|]; cbn [bind] in *; [|discriminate]. destruct (f x) as [a|]; cbn [bind] in *; [|discriminate]. destruct (mapM f l) as [bs|]; cbn [bind] in *; [|discriminate]. apply Ok_inj in E. subst r. exists (a :: b :: bs). split; [reflexivity|apply perm_swap].
  - destruct (IH1 r E) as (r1 & E1 & P3). destruct (IH2 r1 E1) as (r2 & E2 & P4). exists r2. split; [exact E2|eapply Permutation_trans; eauto].
Qed.
Lemma filter_perm {A} (p : A -> bool) l l' : Permutation l l' -> Permutation (filter p l) (filter p l').
Proof.
  induction 1 as [|x l l' P IH|x y l|l l' l'' P1 IH1 P2 IH2]; cbn [filter]; auto.
  - destruct (p x); auto.
  - destruct (p x), (p y); auto. apply perm_swap.
  - eapply Permutation_trans; eauto.
Qed.
Lemma smallest_perm c c' : Permutation c c' -> NoDup (map (fun e => str (tscript (fst e))) c) -> Forall (fun e => nf (tscript (fst e))) c -> smallest c = smallest c'.
Proof.
  intros P N F. pose proof (Permutation_Forall P F) as F'. destruct (smallest c) as [e|] eqn:E.
  - destruct (smallest c') as [e'|] eqn:E'.
    + destruct (smallest_least c e E F) as [H L]. destruct (smallest_least c' e' E' F') as [H' L']. assert (Hc : In e' c) by (apply (Permutation_in _ (Permutation_sym P)); exact H').
      f_equal. apply (nodup_inj (fun e => str (tscript (fst e))) c); auto. destruct (L e' Hc) as [X|X]; [congruence|]. destruct (L' e (Permutation_in _ P H)) as [Y|Y]; [congruence|].
      rewrite Forall_forall in F. pose proof (lt_trans _ _ _ (F e H) (F e' Hc) (F e H) X Y) as Z. rewrite lt_irr in Z. discriminate.
    + apply smallest_none in E'. subst c'. apply Permutation_sym, Permutation_nil in P. subst c. discriminate.
  - apply smallest_none in E. subst c. apply Permutation_nil in P. subst c'. reflexivity.
Qed.
Definition accepts (t : table) (s : script) : bool := match accept_script t s with Ok (b, _) => b | Err _ => false end.
Definition regularly (t : table) (s : script) : bool := match accept_script t s with Ok (_, b) => b | Err _ => false end.
Lemma candidates_form D s c : candidates D s = Ok c <-> (forall t, In t D -> exists a, accept_script t s = Ok a) /\ c = map (fun t => (t, regularly t s)) (filter (fun t => accepts t s) D).
Proof.
  unfold candidates. revert c. induction D as [|t D IH]; intros c; cbn [mapM bind map filter].
  - split; [intros E; apply Ok_inj in E; subst c; split; [intros t []|reflexivity]|intros [_ ->]; reflexivity].
  - destruct (accept_script t s) as [[b r]|] eqn:E; cbn [bind].
    + assert (Ac : accepts t s = b) by (unfold accepts; rewrite E; reflexivity). assert (Rg : regularly t s = r) by (unfold regularly; rewrite E; reflexivity). rewrite Ac.
      destruct (mapM (fun t => do a <- accept_script t s; Ok (t, a)) D) as [m|e] eqn:Em; cbn [bind] in *.
      * destruct (IH (map (fun e => (fst e, snd (snd e))) (filter (fun e => fst (snd e)) m))) as [I _]. destruct (I eq_refl) as [T C]. cbn [filter fst snd]. split.
        -- intros X. apply Ok_inj in X. subst c. split; [intros t' [<-|H]; eauto|]. destruct b; cbn [map fst snd]; [rewrite Rg; f_equal|]; exact C.
        -- intros [_ ->]. f_equal. destruct b; cbn [map fst snd]; [rewrite Rg; f_equal|]; exact C.
      * split; [discriminate|]. intros [T _]. exfalso. destruct (IH (map (fun t => (t, regularly t s)) (filter (fun t => accepts t s) D))) as [_ I]. assert (X : Err e = Ok (map (fun t => (t, regularly t s)) (filter (fun t => accepts t s) D))) by (apply I; split; [intros t' H; apply T; simpl; auto|reflexivity]). discriminate.
    + split; [discriminate|]. intros [T _]. destruct (T t (or_introl eq_refl)) as [a X]. congruence.
Qed.
Lemma nodup_left {A} (l l' : list A) : NoDup (l ++ l') -> NoDup l.
Proof. induction l as [|x l IH]; cbn [app]; intros H; [constructor|]. apply NoDup_cons_iff in H as [N H]. constructor; [|auto]. intros X. apply N, in_or_app. auto. Qed.
Lemma nodup_right {A} (l l' : list A) : NoDup (l ++ l') -> NoDup l'.
Proof. induction l as [|x l IH]; cbn [app]; intros H; [exact H|]. apply NoDup_cons_iff in H as [_ H]. auto. Qed.
(** The tables made, and the scripts left. *)
Definition fine (D : list table) (l : list script) : Prop :=
  NoDup (map (fun t => str (tscript t)) D ++ map str l) /\ Forall (fun t => nf (tscript t) /\ table_class (tscript t) = Ok (tkind t)) D /\ Forall nf l.
Lemma fine_skip D s l : fine D (s :: l) -> fine D l.
Proof. intros (N & F & G). cbn [map] in N. apply NoDup_remove_1 in N. apply Forall_cons_iff in G as [_ G]. split; [exact N|auto]. Qed.
Lemma fine_step D s l p r t : fine D (s :: l) -> mk_table s p r = Ok t -> fine (D ++ [t]) l.
Proof.
  intros (N & F & G) E. destruct (mk_table_spec _ _ _ _ E) as (k & Ek & ->). apply Forall_cons_iff in G as [Gs G]. split; [|split; [|exact G]].
  - rewrite map_app, <- app_assoc. exact N.
  - apply Forall_app. split; [exact F|]. constructor; [auto|constructor].
Qed.
Lemma fine_perm D D' l : Permutation D D' -> fine D l -> fine D' l.
Proof.
  intros P (N & F & G). split; [|split; [exact (Permutation_Forall P F)|exact G]]. eapply Permutation_NoDup; [|exact N]. apply Permutation_app_tail, Permutation_map, P.
Qed.
Lemma candidates_perm D D' l s c : fine D l -> Permutation D D' -> candidates D s = Ok c -> exists c', candidates D' s = Ok c' /\ smallest c' = smallest c.
Proof.
  intros (N & F & _) P E. apply candidates_form in E as [T ->]. exists (map (fun t => (t, regularly t s)) (filter (fun t => accepts t s) D')). split.
  - apply candidates_form. split; [|reflexivity]. intros t Ht. apply T. apply (Permutation_in _ (Permutation_sym P)). exact Ht.
  - symmetry. apply smallest_perm; [apply Permutation_map, filter_perm, P| |].
    + rewrite map_map. cbn [fst]. apply NoDup_filter_map. apply nodup_left in N. exact N.
    + apply Forall_forall. intros e He. apply in_map_iff in He as (t & <- & Ht). apply filter_In in Ht as [Ht _]. rewrite Forall_forall in F. cbn [fst]. apply F, Ht.
Qed.
Lemma define_perm l : forall D D' ts, fine D l -> Permutation D D' -> define_tables D l = Ok ts -> exists ts', define_tables D' l = Ok ts' /\ Permutation ts ts'.
Proof.
  induction l as [|s l IH]; intros D D' ts Fi P E; cbn [define_tables] in E |- *; [apply Ok_inj in E; subst ts; eauto|].
  destruct (candidates D s) as [c|] eqn:Ec; cbn [bind] in E; [|discriminate]. destruct (candidates_perm D D' _ s c Fi P Ec) as (c' & Ec' & Es'). rewrite Ec'. cbn [bind]. rewrite Es'. destruct (smallest c) as [[p r]|].
  - destruct (mk_table s (Some p) r) as [t|] eqn:Et; cbn [bind] in E |- *; [|discriminate]. apply (IH (D ++ [t])); [eapply fine_step; eauto|apply Permutation_app_tail; exact P|exact E].
  - apply (IH D); [eapply fine_skip; eauto|exact P|exact E].
Qed.

(** * A table does not accept what is not in it *)
Lemma accept_outside t s : nf (tscript t) -> table_class (tscript t) = Ok (tkind t) -> wf s -> ~ included s (tscript t) -> exists b, accept_script t s = Ok (false, b).
Proof.
  intros Nt K Ws No. assert (Set_ : tkind t = KSet \/ tkind t = K3D -> exists b, accept_script t s = Ok (false, b)).
  { intros S. assert (T : exists x, tables (tscript t) = Ok x).
    { unfold table_class in K. destruct (N.eqb (cardinal (tscript t)) 1); [apply Ok_inj in K; destruct S; congruence|]. destruct (tables (tscript t)) as [x|]; cbn [bind] in K; [eauto|discriminate]. }
    destruct T as [x T]. destruct (accept_set t s x S (proj1 Nt) Ws T) as ([|] & A & _); [|eauto]. exfalso. apply No. exact (accept_inside t s false (proj1 Nt) Ws A). }
  destruct (tkind t) eqn:Kt; [| | |apply Set_; auto|apply Set_; auto]; unfold accept_script; rewrite Kt; destruct (script_in_spec s (tscript t) Ws (proj1 Nt)) as (b & -> & Hb); (destruct b; [exfalso; apply No, Hb; reflexivity|]); cbn [bind negb]; eauto.
Qed.
Lemma candidates_snoc D t s b c : accept_script t s = Ok (false, b) -> (candidates (D ++ [t]) s = Ok c <-> candidates D s = Ok c).
Proof.
  intros A. rewrite !candidates_form. assert (F : filter (fun t => accepts t s) (D ++ [t]) = filter (fun t => accepts t s) D) by (rewrite filter_app; cbn [filter]; unfold accepts at 2; rewrite A; apply app_nil_r). rewrite F.
  split; intros [T ->]; (split; [|reflexivity]); intros t' H; [apply T, in_or_app; auto|]. apply in_app_or in H as [H|[<-|[]]]; [auto|eauto].
Qed.
Definition apart_from (s x : script) : Prop := ~ included s x /\ ~ included x s.
Lemma define_swap D s x l ts : fine D (s :: x :: l) -> apart_from s x -> define_tables D (s :: x :: l) = Ok ts -> exists ts', define_tables D (x :: s :: l) = Ok ts' /\ Permutation ts ts'.
Proof.
  intros Fi [A1 A2] E. pose proof Fi as (Nd & FD & G). apply Forall_cons_iff in G as [Gs G]. apply Forall_cons_iff in G as [Gx G].
  assert (Fx : fine D (x :: s :: l)).
  { split; [|split; [exact FD|constructor; auto]]. eapply Permutation_NoDup; [|exact Nd]. apply Permutation_app_head. apply perm_swap. }
  cbn [define_tables] in E |- *.
  assert (Off : forall a b t p r D c, nf a -> nf b -> ~ included b a -> mk_table a p r = Ok t -> (candidates (D ++ [t]) b = Ok c <-> candidates D b = Ok c)).
  { intros a b t p r D0 c Na Nb No Et. destruct (mk_table_spec _ _ _ _ Et) as (k & Ek & ->). destruct (accept_outside (Tab k a p r) b Na Ek (proj1 Nb) No) as [b' A]. exact (candidates_snoc D0 _ b b' c A). }
  destruct (candidates D s) as [c|] eqn:Ec; cbn [bind] in E; [|discriminate]. destruct (smallest c) as [[p r]|] eqn:Em.
  - destruct (mk_table s (Some p) r) as [t|] eqn:Et; cbn [bind] in E; [|discriminate]. destruct (candidates (D ++ [t]) x) as [cx|] eqn:Ex; cbn [bind] in E; [|discriminate].
    apply (Off s x t (Some p) r D cx Gs Gx A2 Et) in Ex. rewrite Ex. cbn [bind]. destruct (smallest cx) as [[q rx]|] eqn:Emx.
    + destruct (mk_table x (Some q) rx) as [tx|] eqn:Etx; cbn [bind] in E |- *; [|discriminate]. rewrite (proj2 (Off x s tx (Some q) rx D c Gx Gs A1 Etx) Ec). cbn [bind]. rewrite Em, Et. cbn [bind].
      apply (define_perm l ((D ++ [t]) ++ [tx])); [|rewrite <- !app_assoc; apply Permutation_app_head; apply perm_swap|exact E]. eapply fine_step; [eapply fine_step; [exact Fi|exact Et]|exact Etx].
    + try rewrite Ec. cbn [bind]. rewrite Em, Et. cbn [bind]. eauto.
  - destruct (candidates D x) as [cx|] eqn:Ex; cbn [bind] in E |- *; [|discriminate]. destruct (smallest cx) as [[q rx]|] eqn:Emx.
    + destruct (mk_table x (Some q) rx) as [tx|] eqn:Etx; cbn [bind] in E |- *; [|discriminate]. rewrite (proj2 (Off x s tx (Some q) rx D c Gx Gs A1 Etx) Ec). cbn [bind]. rewrite Em. eauto.
    + try rewrite Ec. cbn [bind]. rewrite Em. eauto.
Qed.
Lemma define_shift a : forall D s b ts, fine D (s :: a ++ b) -> (forall x, In x a -> apart_from s x) -> define_tables D (s :: a ++ b) = Ok ts -> exists ts', define_tables D (a ++ s :: b) = Ok ts' /\ Permutation ts ts'.
Proof.
  induction a as [|x a IH]; intros D s b ts Fi Ap E; cbn [app] in *; [eauto|].
  destruct (define_swap D s x (a ++ b) ts Fi (Ap x (or_introl eq_refl)) E) as (ts1 & E1 & P1).
  assert (Fx : fine D (x :: s :: a ++ b)).
  { destruct Fi as (Nd & FD & G). apply Forall_cons_iff in G as [Gs G]. apply Forall_cons_iff in G as [Gx G]. split; [|split; [exact FD|constructor; auto]]. eapply Permutation_NoDup; [|exact Nd]. apply Permutation_app_head. apply perm_swap. }
  cbn [define_tables] in E1 |- *. destruct (candidates D x) as [c|]; cbn [bind] in *; [|discriminate]. destruct (smallest c) as [[p r]|].
  - destruct (mk_table x (Some p) r) as [t|] eqn:Et; cbn [bind] in *; [|discriminate]. destruct (IH (D ++ [t]) s b ts1) as (ts2 & E2 & P2); [eapply fine_step; eauto|intros y Hy; apply Ap; simpl; auto|exact E1|]. exists ts2. split; [exact E2|eapply Permutation_trans; eauto].
  - destruct (IH D s b ts1) as (ts2 & E2 & P2); [eapply fine_skip; eauto|intros y Hy; apply Ap; simpl; auto|exact E1|]. exists ts2. split; [exact E2|eapply Permutation_trans; eauto].
Qed.
Lemma decreasing_app a s b : decreasing (a ++ s :: b) -> decreasing (a ++ b) /\ forall x, In x a -> (cardinal s <= cardinal x)%N.
Proof.
  unfold decreasing. induction a as [|y a IH]; cbn [app]; intros H; apply StronglySorted_inv in H as [H F]; [split; [exact H|intros x []]|]. destruct (IH H) as [I1 I2]. split.
  - constructor; [exact I1|]. apply Forall_app in F as [F1 F2]. apply Forall_cons_iff in F2 as [_ F2]. apply Forall_app. auto.
  - intros x [<-|Hx]; [|auto]. rewrite Forall_forall in F. apply F. apply in_or_app. simpl. auto.
Qed.
Lemma define_sorted l : forall l' D ts, Permutation l l' -> decreasing l -> decreasing l' -> fine D l -> (forall s x, In s l -> In x l -> s <> x -> cardinal s = cardinal x -> ~ included s x) ->
  define_tables D l = Ok ts -> exists ts', define_tables D l' = Ok ts' /\ Permutation ts ts'.
Proof.
  induction l as [|s l IH]; intros l' D ts P Dl Dl' Fi Ap E; [apply Permutation_nil in P; subst l'; eauto|].
  assert (Hs : In s l') by (apply (Permutation_in _ P); simpl; auto). apply in_split in Hs as (a & b & ->). destruct (decreasing_app a s b Dl') as [Dab Ga]. pose proof (Permutation_cons_app_inv _ _ P) as Pl. unfold decreasing in Dl. apply StronglySorted_inv in Dl as [Dl Fl]. rewrite Forall_forall in Fl.
  assert (Pre : exists ts1, define_tables D (s :: a ++ b) = Ok ts1 /\ Permutation ts ts1).
  { cbn [define_tables] in E |- *. destruct (candidates D s) as [c|]; cbn [bind] in *; [|discriminate]. destruct (smallest c) as [[p r]|].
    - destruct (mk_table s (Some p) r) as [t|] eqn:Et; cbn [bind] in *; [|discriminate]. apply (IH (a ++ b) (D ++ [t]) ts Pl Dl Dab); [eapply fine_step; eauto|intros y z Hy Hz; apply Ap; simpl; auto|exact E].
    - apply (IH (a ++ b) D ts Pl Dl Dab); [eapply fine_skip; eauto|intros y z Hy Hz; apply Ap; simpl; auto|exact E]. }
  destruct Pre as (ts1 & E1 & P1).
  assert (Fi' : fine D (s :: a ++ b)).
  { destruct Fi as (Nd & FD & G). apply Forall_cons_iff in G as [Gs G]. split; [|split; [exact FD|constructor; [exact Gs|exact (Permutation_Forall Pl G)]]]. eapply Permutation_NoDup; [|exact Nd]. apply Permutation_app_head. cbn [map]. constructor. apply Permutation_map, Pl. }
  destruct (define_shift a D s b ts1 Fi') as (ts2 & E2 & P2); [|exact E1|exists ts2; split; [exact E2|eapply Permutation_trans; eauto]].
  intros x Hx. assert (Hl : In x l) by (apply (Permutation_in _ (Permutation_sym Pl)); apply in_or_app; auto). assert (C : cardinal s = cardinal x) by (specialize (Ga x Hx); specialize (Fl x Hl); lia).
  assert (Ns : s <> x). { intros <-. destruct Fi as (Nd & _ & _). apply nodup_right in Nd. cbn [map] in Nd. apply NoDup_cons_iff in Nd as [Nd _]. apply Nd, in_map, Hl. }
  split; apply Ap; simpl; auto.
Qed.
Section Root.
  Variables so so' : list script -> list script.
  Hypothesis SO : set_order so.
  Hypothesis SO' : set_order so'.
  Lemma define_root_det r ps ts : nf r -> Forall nf ps -> NoDup (map str ps) -> (forall s, In s ps -> cardinal s <> 1%N) -> (forall s x, In s ps -> In x ps -> s <> x -> cardinal s = cardinal x -> ~ included s x) ->
    define_root so r ps = Ok ts -> exists ts', define_root so' r ps = Ok ts' /\ Permutation ts ts'.
  Proof.
    intros Nr F Nd Pl Ap E. unfold define_root in E |- *. destruct (mk_table r None false) as [t0|] eqn:E0; cbn [bind] in *; [|discriminate]. destruct (ss r) as [cells|]; cbn [bind] in *; [|discriminate].
    set (q := filter _ _) in *. match type of E with context[do h <- ?m; _] => destruct m as [l|] eqn:El end; cbn [bind] in E; [|discriminate]. apply Ok_inj in E. subst ts.
    assert (P : forall so, set_order so -> Permutation (by_length (so q)) q) by (intros so0 S0; eapply Permutation_trans; [apply sort_perm|apply S0]).
    assert (Hq : forall s, In s (by_length (so q)) <-> In s ps /\ str s <> str r) by (intros s; apply queue_in; auto).
    destruct (define_sorted (by_length (so q)) (by_length (so' q)) [t0] l) as (l' & El' & Pl'); auto using by_length_decreasing.
    - eapply Permutation_trans; [apply P, SO|apply Permutation_sym, P, SO'].
    - destruct (mk_table_spec _ _ _ _ E0) as (k & Ek & ->). split; [|split].
      + cbn [map app tscript]. constructor; [|apply queue_nodup; auto]. intros H. apply in_map_iff in H as (s & Es & Hs). apply Hq in Hs as [_ X]. congruence.
      + constructor; [auto|constructor].
      + apply Forall_forall. intros s Hs. apply Hq in Hs as [Hs _]. rewrite Forall_forall in F. auto.
    - intros s x Hs Hx. apply Hq in Hs as [Hs _]. apply Hq in Hx as [Hx _]. auto.
    - rewrite El'. cbn [bind]. exists (l' ++ map (fun x => Tab KCell x (Some t0) false) cells)%list. split; [reflexivity|]. apply Permutation_app_tail, Pl'.
  Qed.
  Definition alike (e e' : script * list table) : Prop := fst e = fst e' /\ Permutation (snd e) (snd e').
  Lemma build_det roots scripts forest : Forall nf roots -> Forall nf scripts -> NoDup (map str scripts) -> (forall s x, In s scripts -> In x scripts -> cardinal s <> 1%N -> s <> x -> cardinal s = cardinal x -> ~ included s x) ->
    build_tables so roots scripts = Ok forest -> exists forest', build_tables so' roots scripts = Ok forest' /\ Forall2 alike forest forest'.
  Proof.
    intros Fr Fs Nd Ap E. unfold build_tables in E |- *. destruct (mapM _ roots) as [ls|] in E |- *; cbn [bind] in *; [|discriminate]. destruct (assign ls scripts) as [m|] eqn:Em; cbn [bind] in *; [|discriminate]. destruct (assign_out _ _ _ Em Nd) as [Nm _].
    assert (One : forall r ts, nf r -> define_root so r (map snd (filter (fun e => script_eqb (fst e) r) m)) = Ok ts -> exists ts', define_root so' r (map snd (filter (fun e => script_eqb (fst e) r) m)) = Ok ts' /\ Permutation ts ts').
    { intros r ts Nr Er. assert (I : forall s, In s (map snd (filter (fun e => script_eqb (fst e) r) m)) -> In s scripts /\ cardinal s <> 1%N).
      { intros s Hs. apply in_map_iff in Hs as ([r' s'] & <- & Hs). apply filter_In in Hs as [Hs _]. exact (assign_in _ _ _ Em _ _ Hs). }
      apply (define_root_det r _ ts Nr); auto.
      - apply Forall_forall. intros s Hs. apply I in Hs as [Hs _]. rewrite Forall_forall in Fs. auto.
      - rewrite map_map. apply NoDup_filter_map. exact Nm.
      - intros s Hs. apply I, Hs.
      - intros s x Hs Hx. apply I in Hs as [Hs Cs]. apply I in Hx as [Hx Cx]. auto. }
    clear Em Nm Nd Ap Fs. revert forest E. induction roots as [|r roots IH]; intros forest E; cbn [mapM] in *; [apply Ok_inj in E; subst forest; eauto|]. apply Forall_cons_iff in Fr as [Nr Fr].
    destruct (define_root so r _) as [l|] eqn:El in E; cbn [bind] in E; [|discriminate]. destruct (One r l Nr El) as (l' & El' & Pl). rewrite El'. cbn [bind]. match type of E with context[do h <- ?m; _] => destruct m as [fo|] eqn:Ef end; cbn [bind] in E; [|discriminate]. apply Ok_inj in E. subst forest.
    destruct (IH Fr fo eq_refl) as (fo' & Ef' & F2). rewrite Ef'. cbn [bind]. exists ((r, l') :: fo'). split; [reflexivity|]. constructor; [split; auto|exact F2].
  Qed.
End Root.

(** * Relations *)
Definition same_set {A} (l l' : list A) : Prop := forall e, In e l <-> In e l'.
Lemma mapM_set {A A' B} (Q : A -> A' -> Prop) (f : A -> res (list B)) (f' : A' -> res (list B)) l l' r :
  (forall x', In x' l' -> exists x, In x l /\ Q x x') -> (forall x, In x l -> exists x', In x' l' /\ Q x x') ->
  (forall x x' y, In x l -> In x' l' -> Q x x' -> f x = Ok y -> exists y', f' x' = Ok y' /\ same_set y y') ->
  mapM f l = Ok r -> exists r', mapM f' l' = Ok r' /\ same_set (List.concat r) (List.concat r').
Proof.
  intros H1 H2 H3 E. destruct (mapM_total f' l') as [r' E'].
  { intros x' Hx'. destruct (H1 x' Hx') as (x & Hx & Hq). destruct (mapM_each _ _ _ _ E Hx) as [y Ey]. destruct (H3 x x' y Hx Hx' Hq Ey) as (y' & Ey' & _). eauto. }
  exists r'. split; [exact E'|]. intros e. rewrite (mapM_concat_in _ _ _ e E), (mapM_concat_in _ _ _ e E'). split.
  - intros (x & y & Hx & Ey & He). destruct (H2 x Hx) as (x' & Hx' & Hq). destruct (H3 x x' y Hx Hx' Hq Ey) as (y' & Ey' & S). exists x', y'. split; [exact Hx'|]. split; [exact Ey'|]. now apply S.
  - intros (x' & y' & Hx' & Ey' & He). destruct (H1 x' Hx') as (x & Hx & Hq). destruct (mapM_each _ _ _ _ E Hx) as [y Ey]. destruct (H3 x x' y Hx Hx' Hq Ey) as (y'' & Ey'' & S). rewrite Ey' in Ey''. apply Ok_inj in Ey''. subst y''. exists x, y. split; [exact Hx|]. split; [exact Ey|]. now apply S.
Qed.
Ltac through Q El l' El' Sl := match type of El with mapM ?f ?a = Ok ?l => match goal with |- context[mapM ?g ?b] => destruct (mapM_set Q f g a b l) as (l' & El' & Sl); [| | |exact El|] end end.
Ltac by_eq E := match type of E with _ = ?r => match goal with |- context[do h <- ?m; _] => replace m with r by (symmetry; exact E) end end.
Lemma mapM_same {A B} (f : A -> res B) l l' r : same_set l l' -> mapM f l = Ok r -> exists r', mapM f l' = Ok r' /\ same_set r r'.
Proof.
  intros S E. destruct (mapM_total f l') as [r' E']; [intros x Hx; apply S in Hx; exact (mapM_each _ _ _ _ E Hx)|]. exists r'. split; [exact E'|]. intros e. split; intros H.
  - destruct (mapM_in _ _ _ _ E H) as (x & Hx & Ex). apply S in Hx. destruct (combine_all _ _ _ _ E' Hx) as (y & Ey & Hy). rewrite Ex in Ey. apply Ok_inj in Ey. subst y. eapply in_combine_r; eauto.
  - destruct (mapM_in _ _ _ _ E' H) as (x & Hx & Ex). apply S in Hx. destruct (combine_all _ _ _ _ E Hx) as (y & Ey & Hy). rewrite Ex in Ey. apply Ok_inj in Ey. subst y. eapply in_combine_r; eauto.
Qed.
Lemma perm_set {A} (l l' : list A) : Permutation l l' -> same_set l l'.
Proof. intros P e. split; apply Permutation_in; [exact P|apply Permutation_sym; exact P]. Qed.
Lemma filter_set {A} (p : A -> bool) l l' : same_set l l' -> same_set (filter p l) (filter p l').
Proof. intros S e. rewrite !filter_In, (S e). tauto. Qed.
Lemma map_set {A B} (f : A -> B) l l' : same_set l l' -> same_set (map f l) (map f l').
Proof. intros S e. rewrite !in_map_iff. split; intros (x & E & H); exists x; (split; [exact E|now apply S]). Qed.
Lemma kept {A} (f : A -> res bool) l keep : mapM f l = Ok keep -> map fst (filter snd (combine l keep)) = filter (fun s => match f s with Ok b => b | Err _ => false end) l.
Proof.
  revert keep. induction l as [|s l IH]; intros keep E; cbn [mapM] in E; [apply Ok_inj in E; subst keep; reflexivity|]. destruct (f s) as [b|] eqn:Es; cbn [bind] in E; [|discriminate]. destruct (mapM f l) as [r|]; cbn [bind] in E; [|discriminate]. apply Ok_inj in E. subst keep.
  cbn [combine filter snd]. rewrite Es. destruct b; cbn [map fst]; [f_equal|]; apply IH; reflexivity.
Qed.
Lemma couples_perm {A} (l l' : list A) a b : Permutation l l' -> In (a, b) (couples l) -> In (a, b) (couples l') \/ In (b, a) (couples l').
Proof.
  intros P. revert a b. induction P as [|x l l' P IH|x y l|l l' l'' P1 IH1 P2 IH2]; intros a b H.
  - destruct H.
  - rewrite !couples_cons in *. destruct H as [[-> H]|H]; [left; left; split; [reflexivity|exact (Permutation_in _ P H)]|]. destruct (IH a b H); auto.
  - rewrite !couples_cons in *. cbn [In] in *. intuition (subst; auto).
  - destruct (IH1 a b H) as [K|K]; [auto|]. destruct (IH2 b a K); auto.
Qed.
Definition twisted {A} (e e' : A * A) : Prop := e' = e \/ e' = (snd e, fst e).
Lemma couples_twisted {A} (l l' : list A) : Permutation l l' -> (forall e', In e' (couples l') -> exists e, In e (couples l) /\ twisted e e') /\ (forall e, In e (couples l) -> exists e', In e' (couples l') /\ twisted e e').
Proof.
  intros P. unfold twisted. split; intros [a b] H.
  - destruct (couples_perm _ _ a b (Permutation_sym P) H) as [K|K]; [exists (a, b); auto|exists (b, a); cbn; auto].
  - destruct (couples_perm _ _ a b P H) as [K|K]; [exists (a, b); auto|exists (b, a); cbn; auto].
Qed.
Lemma find_perm {A} (p : A -> bool) l l' : Permutation l l' -> (forall x y, In x l -> In y l -> p x = true -> p y = true -> x = y) -> find p l = find p l'.
Proof.
  intros P U. destruct (find p l) as [x|] eqn:E.
  - apply find_some in E as [Hx Px]. destruct (find p l') as [y|] eqn:E'.
    + apply find_some in E' as [Hy Py]. f_equal. apply U; auto. apply (Permutation_in _ (Permutation_sym P)), Hy.
    + pose proof (find_none _ _ E' x (Permutation_in _ P Hx)). congruence.
  - destruct (find p l') as [y|] eqn:E'; [|reflexivity]. apply find_some in E' as [Hy Py]. pose proof (find_none _ _ E y (Permutation_in _ (Permutation_sym P) Hy)). congruence.
Qed.

(** ** The siblings of two tables in either order *)
Lemma child_total n s : n < 2 -> wf s -> layer s <> 0 -> is_empty s = false -> (forall x, s <> Add [x]) -> exists c, child n s = Ok c.
Proof.
  intros Hn W L E N. destruct s as [m|p|a b c|cs]; [discriminate|exfalso; apply L; reflexivity|cbn [child]; eauto|cbn [child]]. destruct cs as [|x [|y cs]]; [destruct W as [W _]; congruence|exfalso; exact (N x eq_refl)|]. destruct n as [|[|n]]; [cbn; eauto|cbn; eauto|lia].
Qed.
Lemma opposed_total s t : nf s -> nf t -> layer s <> 0 -> layer t <> 0 -> exists b, opposed_sibling s t = Ok b.
Proof.
  intros [Ws Ns] [Wt Nt] Ls Lt. unfold opposed_sibling. destruct (is_empty s) eqn:Es; cbn [negb andb and_then]; [eauto|]. destruct (is_empty t) eqn:Et; cbn [negb andb and_then]; [eauto|]. destruct (N.eqb _ _); cbn [and_then]; [|eauto].
  destruct (child_total 0 s ltac:(lia) Ws Ls Es Ns) as [c0 ->]. destruct (child_total 1 s ltac:(lia) Ws Ls Es Ns) as [c1 ->]. destruct (child_total 0 t ltac:(lia) Wt Lt Et Nt) as [d0 ->]. destruct (child_total 1 t ltac:(lia) Wt Lt Et Nt) as [d1 ->]. unfold same. cbn [bind]. destruct (script_eqb c0 d1); cbn [and_then]; eauto.
Qed.
Lemma opposed_turn s t b : nf s -> nf t -> layer s = layer t -> layer s <> 0 -> opposed_sibling s t = Ok b -> opposed_sibling t s = Ok b.
Proof.
  intros Ns Nt L L0 E. destruct (opposed_total t s Nt Ns) as [b' E']; try congruence. rewrite E'. f_equal. pose proof (opposed_ok s t (proj1 Ns) (proj1 Nt) L) as O1. pose proof (opposed_ok t s (proj1 Nt) (proj1 Ns) (eq_sym L)) as O2. rewrite E in O1. rewrite E' in O2. pose proof (opposed_sym s t). pose proof (opposed_sym t s).
  destruct b, b'; try reflexivity.
  - assert (X : Ok false = Ok true) by (apply O2; apply opposed_sym, O1; reflexivity). discriminate.
  - assert (X : Ok false = Ok true) by (apply O1; apply opposed_sym, O2; reflexivity). discriminate.
Qed.
Lemma mul_inv s : is_mul s = true -> layer s <> 0 -> exists a b c, s = Mul a b c.
Proof. destruct s; cbn; intros; try discriminate; try lia; eauto. Qed.
Lemma associated_turn s t b : wf s -> wf t -> is_mul s = true -> is_mul t = true -> layer s = layer t -> layer s <> 0 -> associated_sibling s t = Ok b -> associated_sibling t s = Ok b.
Proof.
  intros Ws Wt Ms Mt L L0 E. destruct (mul_inv s Ms L0) as (a & b0 & c & ->). destruct (mul_inv t Mt ltac:(congruence)) as (a' & b' & c' & ->).
  unfold associated_sibling in *. rewrite N.eqb_sym. destruct (N.eqb _ _); cbn [and_then] in *; [|exact E]. cbn [child nth same bind] in *. unfold same in *. cbn [bind] in *. rewrite (script_eqb_sym a' a), (script_eqb_sym b' b0), (script_eqb_sym c' c). exact E.
Qed.
Lemma child_nf a b c : wf (Mul a b c) -> nf a /\ nf b.
Proof. intros W. destruct (wf_mul_inv a b c W) as (Wa & Wb & _ & [_ Ca] & [_ Cb] & _). split; split; auto. Qed.
Lemma crossed_turn s t b : wf s -> wf t -> is_mul s = true -> is_mul t = true -> layer s = layer t -> layer s <> 0 -> crossed_sibling s t = Ok b -> crossed_sibling t s = Ok b.
Proof.
  intros Ws Wt Ms Mt L L0 E. destruct (mul_inv s Ms L0) as (a & b0 & c & ->). destruct (mul_inv t Mt ltac:(congruence)) as (a' & b' & c' & ->). destruct (child_nf a b0 c Ws) as [Na Nb]. destruct (child_nf a' b' c' Wt) as [Na' Nb'].
  destruct (wf_mul_inv a b0 c Ws) as (_ & _ & _ & _ & _ & _ & Lb & _). destruct (wf_mul_inv a' b' c' Wt) as (_ & _ & _ & _ & _ & _ & Lb' & _).
  unfold crossed_sibling in *. rewrite <- L, N.eqb_sym. destruct (Nat.leb 2 (layer (Mul a b0 c))) eqn:L2; cbn [andb and_then] in *; [|exact E]. apply Nat.leb_le in L2. cbn [layer] in L, L2. destruct (N.eqb _ _); cbn [and_then] in *; [|exact E]. cbn [child nth bind] in *.
  destruct (opposed_sibling a a') as [x|] eqn:Ea; cbn [bind] in E; [|discriminate]. rewrite (opposed_turn a a' x Na Na') by (try exact Ea; lia). cbn [bind]. destruct x; cbn [and_then] in *; [|exact E]. apply opposed_turn; auto; lia.
Qed.

Section Det.
  Variable sc : list script.
  Variables fo fo' : list (script * list table).
  Variable inh : list (string * list string).
  Hypothesis F2 : Forall2 alike fo fo'.
  Hypothesis U : forall t t', In t (flat_map snd fo) -> In t' (flat_map snd fo) -> str (tscript t) = str (tscript t') -> t = t'.
  Hypothesis W : forall r ts t, In (r, ts) fo -> In t ts -> wf (tscript t) /\ layer (tscript t) = layer r.

  Lemma forest_perm : Permutation (flat_map snd fo) (flat_map snd fo').
  Proof. clear U W. induction F2 as [|e e' l l' [_ P] F IH]; [constructor|]. cbn [flat_map]. apply Permutation_app; [exact P|apply IH; exact F]. Qed.
  Lemma table_of_det s : table_of fo s = table_of fo' s.
  Proof.
    unfold table_of. apply find_perm.
    - eapply Permutation_trans; [apply Permutation_sym, Permutation_rev|]. eapply Permutation_trans; [apply forest_perm|apply Permutation_rev].
    - intros x y Hx Hy Ex Ey. apply in_rev in Hx, Hy. apply script_eqb_str in Ex, Ey. apply U; auto. congruence.
  Qed.
  Lemma rank_at_det i : rank_at sc fo i = rank_at sc fo' i.
  Proof. unfold rank_at. destruct (nth_error sc i) as [s|]; [|reflexivity]. rewrite table_of_det. reflexivity. Qed.

  Lemma mapM_alike {B} (f f' : script * list table -> res (list B)) r : (forall e ts' y, In e fo -> Permutation (snd e) ts' -> f e = Ok y -> exists y', f' (fst e, ts') = Ok y' /\ same_set y y') -> mapM f fo = Ok r -> exists r', mapM f' fo' = Ok r' /\ same_set (List.concat r) (List.concat r').
  Proof.
    intros H. apply (mapM_set alike).
    - intros e' He'. clear H U W. induction F2 as [|x y l l' A F IH]; [destruct He'|]. destruct He' as [<-|He']; [exists x; simpl; auto|]. destruct (IH F He') as (e & He & Q). exists e. simpl. auto.
    - intros e He. clear H U W. induction F2 as [|x y l l' A F IH]; [destruct He|]. destruct He as [<-|He]; [exists y; simpl; auto|]. destruct (IH F He) as (e' & He' & Q). exists e'. simpl. auto.
    - intros e [r' ts'] y He _ [Er P] Ey. cbn [fst snd] in *. subst r'. apply H; auto.
  Qed.

  Lemma contains_in_det ts ts' m : Permutation ts ts' -> contains_in sc ts = Ok m -> exists m', contains_in sc ts' = Ok m' /\ same_set m m'.
  Proof.
    intros P E. unfold contains_in in *. set (ps := map tscript (filter (fun t => paradigm (tscript t)) ts)) in *. set (ps' := map tscript (filter (fun t => paradigm (tscript t)) ts')) in *.
    assert (S : same_set ps ps') by (apply map_set, filter_set, perm_set, P). clearbody ps ps'. match type of E with context[do h <- ?m; _] => destruct m as [l|] eqn:El end; cbn [bind] in E; [|discriminate]. apply Ok_inj in E. subst m.
    through (@eq script) El l' El' Sl.
    - intros x Hx. exists x. split; [now apply S|reflexivity].
    - intros x Hx. exists x. split; [now apply S|reflexivity].
    - intros p p' y _ _ <- Ey. cbn beta in Ey |- *. destruct (idx sc p) as [i|]; cbn [bind] in *; [|discriminate]. destruct (ss p) as [x|]; cbn [bind] in *; [|discriminate]. destruct (idxs sc x) as [a|]; cbn [bind] in *; [|discriminate].
      destruct (mapM (fun k => script_in k p) ps) as [keep|] eqn:Ek; cbn [bind] in *; [|discriminate]. destruct (mapM_same _ _ _ _ S Ek) as (keep' & Ek' & _). rewrite Ek'. cbn [bind]. rewrite (kept _ _ _ Ek) in Ey. rewrite (kept _ _ _ Ek').
      destruct (idxs sc (filter _ ps)) as [b|] eqn:Eb; cbn [bind] in *; [|discriminate]. unfold idxs in Eb. destruct (mapM_same _ _ _ _ (filter_set _ _ _ S) Eb) as (b' & Eb' & Sb). unfold idxs. rewrite Eb'. cbn [bind]. apply Ok_inj in Ey. subst y. eexists. split; [reflexivity|].
      unfold pairs. apply map_set. intros e. rewrite !in_app_iff, (Sb e). tauto.
    - by_eq El'. cbn [bind]. eauto.
  Qed.
  Lemma contains_det m : compute_contains sc fo = Ok m -> exists m', compute_contains sc fo' = Ok m' /\ same_set m m'.
  Proof.
    unfold compute_contains. intros E. match type of E with context[do h <- ?m; _] => destruct m as [l|] eqn:El end; cbn [bind] in E; [|discriminate]. apply Ok_inj in E. subst m.
    destruct (mapM_alike (fun e => contains_in sc (snd e)) (fun e => contains_in sc (snd e)) l) as (l' & El' & S); [intros e ts' y _ P Ey; cbn [snd]; eapply contains_in_det; eauto|exact El|]. by_eq El'. cbn [bind]. eexists. split; [reflexivity|]. intros e. rewrite !in_app_iff, (S e). tauto.
  Qed.
  Lemma siblings_in_det rel ts ts' m : (forall x y b, In x ts -> In y ts -> is_mul (tscript x) = true -> is_mul (tscript y) = true -> rel (tscript x) (tscript y) = Ok b -> rel (tscript y) (tscript x) = Ok b) ->
    Permutation ts ts' -> siblings_in sc rel ts = Ok m -> exists m', siblings_in sc rel ts' = Ok m' /\ same_set m m'.
  Proof.
    intros Turn P E. unfold siblings_in in *. match type of E with context[do h <- ?m; _] => destruct m as [l|] eqn:El end; cbn [bind] in E; [|discriminate]. apply Ok_inj in E. subst m.
    destruct (couples_twisted (filter is_mul (map tscript ts)) (filter is_mul (map tscript ts'))) as [T1 T2]; [apply filter_perm, Permutation_map, P|].
    through (@twisted script) El l' El' Sl; [exact T1|exact T2| |by_eq El'; cbn [bind]; eauto].
    intros [a b] e' y He _ Q Ey. cbn [fst snd] in Ey. apply couples_filter_map in He as (x & z & He & <- & <- & Mx & Mz). assert (In x ts /\ In z ts) as [Hx Hz] by (apply (two_in x z ts), couples_two; auto).
    destruct (idx sc (tscript x)) as [i|] eqn:Ei; cbn [bind] in Ey; [|discriminate]. destruct (idx sc (tscript z)) as [j|] eqn:Ej; cbn [bind] in Ey; [|discriminate]. destruct (rel (tscript x) (tscript z)) as [v|] eqn:Ev; cbn [bind] in Ey; [|discriminate]. apply Ok_inj in Ey. subst y.
    destruct Q as [->| ->]; cbn [fst snd]; rewrite Ei, Ej; cbn [bind].
    - rewrite Ev. cbn [bind]. eexists. split; [reflexivity|]. intros e. tauto.
    - rewrite (Turn x z v Hx Hz Mx Mz Ev). cbn [bind]. eexists. split; [reflexivity|]. intros e. destruct v; [|tauto]. cbn [both In]. tauto.
  Qed.
  Lemma twins_in_det ts ts' m : Permutation ts ts' -> twins_in sc ts = Ok m -> exists m', twins_in sc ts' = Ok m' /\ same_set m m'.
  Proof.
    intros P E. unfold twins_in in *. assert (Pm : Permutation (filter is_mul (map tscript ts)) (filter is_mul (map tscript ts'))) by (apply filter_perm, Permutation_map, P). set (ms := filter is_mul (map tscript ts)) in *. set (ms' := filter is_mul (map tscript ts')) in *. clearbody ms ms'.
    destruct (mapM _ ms) as [tw|] eqn:Et in E; cbn [bind] in E; [|discriminate]. destruct (mapM_perm _ _ _ _ Pm Et) as (tw' & Et' & _). rewrite Et'. cbn [bind]. rewrite (kept _ _ _ Et) in E. rewrite (kept _ _ _ Et').
    match type of E with context[do h <- ?m; _] => destruct m as [l|] eqn:El end; cbn [bind] in E; [|discriminate]. apply Ok_inj in E. subst m.
    assert (S : forall g e, In e (permutations2 (filter g ms)) <-> In e (permutations2 (filter g ms'))).
    { intros g. assert (D : forall (l l' : list script) e, Permutation l l' -> In e (permutations2 l) -> In e (permutations2 l')).
      { clear. intros l l' [a b] P H. unfold permutations2 in *. apply in_flat_map in H as ([x y] & Hc & H). apply in_flat_map. cbn [In fst snd] in H. destruct (couples_perm _ _ x y P Hc) as [K|K]; [exists (x, y)|exists (y, x)]; (split; [exact K|]); cbn [In fst snd]; tauto. }
      intros e. split; apply D; apply filter_perm; [exact Pm|apply Permutation_sym; exact Pm]. }
    through (@eq (script * script)) El l' El' Sl; [| | |by_eq El'; cbn [bind]; eauto].
    - intros x Hx. exists x. split; [now apply S|reflexivity].
    - intros x Hx. exists x. split; [now apply S|reflexivity].
    - intros x x' y _ _ <- Ey. exists y. split; [exact Ey|]. intros e. tauto.
  Qed.
  Lemma siblings_det rel f m : (forall r ts ts' y, In (r, ts) fo -> layer r <> 0 -> Permutation ts ts' -> f ts = Ok y -> exists y', f ts' = Ok y' /\ same_set y y') ->
    siblings fo inh rel f = Ok m -> exists m', siblings fo' inh rel f = Ok m' /\ same_set m m'.
  Proof.
    intros H E. unfold siblings in *. match type of E with context[do h <- ?m; _] => destruct m as [l|] eqn:El end; cbn [bind] in E; [|discriminate]. apply Ok_inj in E. subst m.
    match goal with |- context[mapM ?g fo'] => destruct (mapM_alike g g l) as (l' & El' & S) end; [|exact El|by_eq El'; cbn [bind]; eauto].
    intros [r ts] ts' y He P Ey. cbn [fst snd] in *. destruct (inhibited inh r rel); cbn [orb] in *; [exists y; split; [exact Ey|intros e; tauto]|]. destruct (Nat.eqb_spec (layer r) 0) as [L|L]; [exists y; split; [exact Ey|intros e; tauto]|]. eapply H; eauto.
  Qed.
  Lemma row_of_det m m' i : same_set m m' -> row_of sc m i = row_of sc m' i.
  Proof.
    intros S. unfold row_of. apply filter_ext. intros j. apply eq_true_iff_eq. rewrite !existsb_exists. split; intros (e & He & B); exists e; (split; [now apply S|exact B]).
  Qed.
  Lemma meet_turn m i j : filter (fun k => memb Nat.eqb k (row_of sc m j)) (row_of sc m i) = filter (fun k => memb Nat.eqb k (row_of sc m i)) (row_of sc m j).
  Proof.
    unfold row_of. set (p := fun i j => existsb (fun e => Nat.eqb (fst e) i && Nat.eqb (snd e) j) m).
    assert (G : forall i j l, incl l (seq 0 (List.length sc)) -> filter (fun k => memb Nat.eqb k (filter (p j) (seq 0 (List.length sc)))) (filter (p i) l) = filter (fun k => p i k && p j k) l).
    { clear. intros i j l. induction l as [|k l IH]; intros I; cbn [filter]; [reflexivity|]. assert (I' : incl l (seq 0 (List.length sc))) by (intros x Hx; apply I; simpl; auto). specialize (IH I'). destruct (p i k); cbn [andb filter]; [|exact IH].
      assert (M : memb Nat.eqb k (filter (p j) (seq 0 (List.length sc))) = p j k).
      { apply eq_true_iff_eq. split.
        - intros M. apply existsb_exists in M as (z & Hz & Ez). apply Nat.eqb_eq in Ez. subst z. apply filter_In in Hz. tauto.
        - intros M. apply existsb_exists. exists k. split; [apply filter_In; split; [apply I; simpl; auto|exact M]|apply Nat.eqb_refl]. }
      rewrite M. destruct (p j k); [f_equal|]; exact IH. }
    fold (p i) (p j). rewrite (G i j), (G j i) by apply incl_refl. apply filter_ext. intros k. apply andb_comm.
  Qed.
  Lemma ranks_between_det m m' ts ts' y : same_set m m' -> Permutation ts ts' -> ranks_between sc fo m ts = Ok y -> exists y', ranks_between sc fo' m' ts' = Ok y' /\ same_set y y'.
  Proof.
    intros Sm P E. unfold ranks_between in *. match type of E with context[do h <- ?m; _] => destruct m as [l|] eqn:El end; cbn [bind] in E; [|discriminate]. apply Ok_inj in E. subst y. destruct (couples_twisted ts ts' P) as [T1 T2].
    through (@twisted table) El l' El' Sl; [exact T1|exact T2| |by_eq El'; cbn [bind]; eauto].
    intros [a b] e' y _ _ Q Ey. cbn [fst snd] in Ey. destruct (idx sc (tscript a)) as [i|] eqn:Ei; cbn [bind] in Ey; [|discriminate]. destruct (idx sc (tscript b)) as [j|] eqn:Ej; cbn [bind] in Ey; [|discriminate].
    rewrite (mapM_ext_in _ (rank_at sc fo')) in Ey by (intros x _; apply rank_at_det). rewrite (row_of_det m m' i Sm), (row_of_det m m' j Sm) in Ey.
    destruct Q as [->| ->]; cbn [fst snd]; rewrite Ei, Ej; cbn [bind]; [|rewrite (meet_turn m' j i)]; (destruct (mapM _ (filter _ _)) as [rs|] eqn:Er in Ey |- *; cbn [bind] in Ey |- *; [|discriminate]); (destruct (existsb _ rs); [discriminate|]); apply Ok_inj in Ey; subst y; eexists; (split; [reflexivity|]).
    - intros e. tauto.
    - intros e. rewrite !in_flat_map. split; intros (r & Hr & He); exists r; (split; [exact Hr|]); cbn [In] in *; tauto.
  Qed.
  Lemma ranks_of_det m m' l : same_set m m' -> forall stale, ranks_of sc fo m stale l = ranks_of sc fo' m' stale l.
  Proof.
    intros Sm. induction l as [|t l IH]; intros stale; cbn [ranks_of]; [reflexivity|]. destruct (idx sc t) as [i|]; cbn [bind]; [|reflexivity]. rewrite (row_of_det m m' i Sm). rewrite (mapM_ext_in (rank_at sc fo) (rank_at sc fo')) by (intros x _; apply rank_at_det).
    match goal with |- (do h <- ?m; _) = _ => destruct m as [rs|] end; cbn [bind]; [|reflexivity]. destruct (existsb _ rs); [reflexivity|]. rewrite (IH (Some rs)). reflexivity.
  Qed.
  Lemma table_rank_det m m' y : same_set m m' -> compute_table_rank sc fo m = Ok y -> exists y', compute_table_rank sc fo' m' = Ok y' /\ same_set y y'.
  Proof.
    intros Sm E. unfold compute_table_rank in *. match type of E with context[do h <- ?m; _] => destruct m as [l|] eqn:El end; cbn [bind] in E; [|discriminate].
    destruct (mapM_alike (fun e => ranks_between sc fo m (snd e)) (fun e => ranks_between sc fo' m' (snd e)) l) as (l' & El' & S); [intros e ts' z _ P Ez; cbn [snd]; eapply ranks_between_det; eauto|exact El|]. by_eq El'. cbn [bind]. rewrite <- (ranks_of_det m m' sc Sm). destruct (ranks_of sc fo m None sc) as [r|]; cbn [bind] in *; [|discriminate]. apply Ok_inj in E. subst y. eexists. split; [reflexivity|]. intros e. rewrite !in_app_iff, (S e). tauto.
  Qed.
  Definition equal_relations (l l' : list (string * matrix)) : Prop := Forall2 (fun a b => fst a = fst b /\ same_set (snd a) (snd b)) l l'.
  Lemma transposed_set m m' : same_set m m' -> same_set (transposed m) (transposed m').
  Proof. apply map_set. Qed.
  Lemma of_rank_set n l l' : same_set l l' -> same_set (of_rank n l) (of_rank n l').
  Proof. intros S. apply map_set, filter_set, S. Qed.
  Lemma relations_det rel : compute_relations sc fo inh = Ok rel -> exists rel', compute_relations sc fo' inh = Ok rel' /\ equal_relations rel rel'.
  Proof.
    unfold compute_relations. intros E.
    destruct (compute_contains sc fo) as [cm|] eqn:Ec; cbn [bind] in E; [|discriminate]. destruct (contains_det cm Ec) as (cm' & Ec' & Sc). rewrite Ec'. cbn [bind].
    destruct (compute_father sc 0) as [fs|]; cbn [bind] in *; [|discriminate]. destruct (compute_father sc 1) as [fa|]; cbn [bind] in *; [|discriminate]. destruct (compute_father sc 2) as [fm|]; cbn [bind] in *; [|discriminate].
    assert (Sib : forall rel f m, (forall s t b, wf s -> wf t -> is_mul s = true -> is_mul t = true -> layer s = layer t -> layer s <> 0 -> f s t = Ok b -> f t s = Ok b) -> siblings fo inh rel (siblings_in sc f) = Ok m -> exists m', siblings fo' inh rel (siblings_in sc f) = Ok m' /\ same_set m m').
    { intros r f m Turn. apply siblings_det. intros r0 ts ts' y He L0 P Ey. apply (siblings_in_det f ts ts' y); auto. intros a b v Ha Hb Ma Mb. destruct (W r0 ts a He Ha) as [Wa La]. destruct (W r0 ts b He Hb) as [Wb Lb]. apply Turn; auto; congruence. }
    assert (T : forall s t b, wf s -> wf t -> is_mul s = true -> is_mul t = true -> layer s = layer t -> layer s <> 0 -> opposed_sibling s t = Ok b -> opposed_sibling t s = Ok b).
    { intros s t b Ws Wt Ms Mt L L0. apply opposed_turn; auto; apply nf_notadd; auto; [destruct s|destruct t]; try discriminate; reflexivity. }
    destruct (siblings fo inh "opposed" _) as [op|] eqn:Eo in E; cbn [bind] in E; [|discriminate]. destruct (Sib _ _ _ T Eo) as (op' & Eo' & So). rewrite Eo'. cbn [bind].
    destruct (siblings fo inh "associated" _) as [ass|] eqn:Ea in E; cbn [bind] in E; [|discriminate]. destruct (Sib _ _ _ associated_turn Ea) as (ass' & Ea' & Sa). rewrite Ea'. cbn [bind].
    destruct (siblings fo inh "crossed" _) as [cr|] eqn:Er in E; cbn [bind] in E; [|discriminate]. destruct (Sib _ _ _ crossed_turn Er) as (cr' & Er' & Sr). rewrite Er'. cbn [bind].
    destruct (siblings fo inh "twin" _) as [tw|] eqn:Et in E; cbn [bind] in E; [|discriminate]. destruct (siblings_det "twin" (twins_in sc) tw) as (tw' & Et' & St); [intros r ts ts' y _ _ P; apply twins_in_det; exact P|exact Et|]. rewrite Et'. cbn [bind].
    destruct (compute_table_rank sc fo _) as [rk|] eqn:Ek in E; cbn [bind] in E; [|discriminate]. destruct (table_rank_det _ _ rk (transposed_set _ _ Sc) Ek) as (rk' & Ek' & Sk). rewrite Ek'. cbn [bind].
    apply Ok_inj in E. subst rel. eexists. split; [reflexivity|]. assert (Rf : forall {A} (l : list A), same_set l l) by (intros A l e; tauto).
    repeat (constructor; [split; [reflexivity|cbn [snd]; auto using transposed_set, of_rank_set]|]). constructor.
  Qed.
End Det.

(** * Dictionaries *)
Lemma object_det sc ro ro' fo fo' inh inh' rel rel' s r : equal_relations rel rel' -> object (Build_dictionary sc ro fo inh rel) s r = object (Build_dictionary sc ro' fo' inh' rel') s r.
Proof.
  intros F. unfold object. cbn [d_relations d_scripts]. assert (G : match get_key r rel, get_key r rel' with Some m, Some m' => same_set m m' | None, None => True | _, _ => False end).
  { unfold get_key. induction F as [|[k m] [k' m'] l l' [E S] F IH]; cbn [find option_map]; [exact Logic.I|]. cbn [fst snd] in *. subst k'. destruct (String.eqb k r); cbn [option_map snd]; [exact S|exact IH]. }
  destruct (get_key r rel) as [m|], (get_key r rel') as [m'|]; try contradiction; [|reflexivity]. destruct (idx sc s) as [i|]; cbn [bind]; [|reflexivity]. rewrite (row_of_det sc m m' i G). reflexivity.
Qed.
Section Whole.
  Variables so so' : list script -> list script.
  Hypothesis SO : set_order so.
  Hypothesis SO' : set_order so'.
  Lemma front_det paradigms rows : front so paradigms rows = front so' paradigms rows.
  Proof.
    unfold front, load. rewrite (mapM_ext_in (fun p => do s <- parse so p; Ok (p, s)) (fun p => do s <- parse so' p; Ok (p, s))); [reflexivity|]. intros p _. rewrite (parse_det so so' SO SO' p). reflexivity.
  Qed.
  Lemma make_back paradigms rows : make_dictionary so paradigms rows =
    do f <- front so paradigms rows;
    do forest <- build_tables so (fst (fst f)) (snd f);
    let scripts := filter (fun s => N.eqb (cardinal s) 1 || match table_of forest s with Some _ => true | None => false end) (snd f) in
    do _ <- mapM (idx scripts) (fst (fst f));
    do rel <- compute_relations scripts forest (snd (fst f));
    Ok {| d_scripts := scripts; d_root_scripts := fst (fst f); d_forest := forest; d_inhibitions := snd (fst f); d_relations := rel |}.
  Proof.
    unfold make_dictionary, front. destruct (load so paradigms rows) as [st|]; cbn [bind]; [|reflexivity]. destruct (cover _ _) as [c|]; cbn [bind]; [|reflexivity]. destruct (outside _ _) as [o|]; cbn [bind]; [|reflexivity]. destruct (ignore _ _) as [st'|]; cbn [bind]; reflexivity.
  Qed.
End Whole.
(** No two paradigms of the same length, one in the other. *)
Definition no_rivals (so : list script -> list script) (paradigms : list string) : Prop :=
  forall p q s t, In p paradigms -> In q paradigms -> parse so p = Ok s -> parse so q = Ok t -> cardinal s <> 1%N -> cardinal s = cardinal t -> included s t -> str s = str t.
Lemma make_det so so' paradigms rows d : set_order so -> set_order so' -> tidy so paradigms -> no_rivals so paradigms -> make_dictionary so paradigms rows = Ok d ->
  exists d', make_dictionary so' paradigms rows = Ok d' /\ d_scripts d' = d_scripts d /\ d_root_scripts d' = d_root_scripts d /\ d_inhibitions d' = d_inhibitions d /\ Forall2 alike (d_forest d) (d_forest d') /\
    (forall s rel, object d' s rel = object d s rel) /\ forall s, table_of (d_forest d') s = table_of (d_forest d) s.
Proof.
  intros SO SO' Td Nr M. destruct (make_front so SO _ _ _ M) as (all & Fr & An & Co). rewrite make_back. rewrite <- (front_det so so' SO SO'), Fr. cbn [bind fst snd].
  destruct (place_all so _ _ _ _ An Td) as [Fa Na]. pose proof An as (Wall & Es & Eb & Wr & Dj & _ & Er & _).
  assert (Nroots : Forall nf (d_root_scripts d)) by (apply Forall_forall; intros r Hr; exact (place_root so _ _ _ _ Co Td r Hr)).
  destruct (build_det so so' SO SO' (d_root_scripts d) all (d_forest d) Nroots Fa Na) as (fo' & Eb' & F2); [|exact Eb|].
  { intros s x Hs Hx Cs Nsx C I. pose proof Co as (_ & _ & _ & G & _). destruct (G s Hs) as (p & v & Hp & Ep & [T|[C1 _]]); [|contradiction]. destruct (G x Hx) as (q & v' & Hq & Eq & [T'|[C1 _]]); [|congruence].
    rewrite Forall_forall in Wall. pose proof (parse_constructible so SO p v Ep) as Kv. pose proof (parse_constructible so SO q v' Eq) as Kv'. apply constructible_wf in Kv, Kv'; auto.
    assert (X : str v = str v').
    { destruct (eq_attributes s v (Wall s Hs) Kv T) as [(_ & _ & A & _) _]. destruct (eq_attributes x v' (Wall x Hx) Kv' T') as [(_ & _ & A' & _) _]. apply (Nr p q v v' Hp Hq Ep Eq); [congruence|congruence|].
      apply (inside_trans v s v'); [apply same_text; auto; congruence|]. apply (inside_trans s x v' I). apply same_text; auto. }
    apply Nsx. apply (nodup_inj str all); auto. congruence. }
  rewrite Eb'. cbn [bind].
  assert (U : forall t t', In t (flat_map snd (d_forest d)) -> In t' (flat_map snd (d_forest d)) -> str (tscript t) = str (tscript t') -> t = t').
  { intros t t' H H' E. apply in_flat_map in H as ([r ts] & He & Ht). apply in_flat_map in H' as ([r' ts'] & He' & Ht'). apply (unique_table so SO _ _ _ _ An r ts r' ts' t t' He He' Ht Ht' E). }
  assert (W : forall r ts t, In (r, ts) (d_forest d) -> In t ts -> wf (tscript t) /\ layer (tscript t) = layer r).
  { intros r ts t He Ht. destruct (forest_table so SO _ _ _ _ An r ts t He Ht) as [Wt It]. split; [exact Wt|exact (proj1 It)]. }
  assert (T : forall s, table_of fo' s = table_of (d_forest d) s) by (intros s; symmetry; apply table_of_det; auto).
  assert (Fs : filter (fun s => N.eqb (cardinal s) 1 || match table_of fo' s with Some _ => true | None => false end) all = d_scripts d).
  { rewrite Es. apply filter_ext. intros s. rewrite T. reflexivity. }
  cbv zeta. rewrite Fs. destruct An as (_ & _ & _ & _ & _ & [is Ei] & _). rewrite Ei. cbn [bind]. destruct (relations_det (d_scripts d) (d_forest d) fo' (d_inhibitions d) F2 U W (d_relations d) Er) as (rel' & Er' & S). rewrite Er'. cbn [bind].
  eexists. split; [reflexivity|]. cbn [d_scripts d_root_scripts d_inhibitions d_forest]. repeat (split; [reflexivity || assumption|]). split; [|exact T].
  intros s r. destruct d as [sc ro fo inh rel]. cbn [d_scripts d_root_scripts d_inhibitions d_forest d_relations] in *. symmetry. apply object_det. exact S.
Qed.
