(** The place of the tables of a dictionary. *)
From Coq Require Import List String Ascii Bool NArith Arith Lia Permutation Sorted.
From Verif Require Import Base Script ScriptParser SortProofs ScriptWf ScriptStrProofs ScriptOrderProofs ScriptSpec ScriptCtorProofs ScriptSeqProofs ScriptMoreProofs ScriptAlgProofs ScriptEqProofs Tables TablesSpec TablesProofs TablesGridProofs TablesAllProofs Dictionary DictionarySpec DictTableProofs DictLoadProofs DictRelProofs DictSibProofs DictTopProofs DictAcceptProofs.
Import ListNotations.

(** * The smallest table *)
Lemma smallest_least l e : smallest l = Some e -> Forall (fun e => nf (tscript (fst e))) l ->
  In e l /\ forall e', In e' l -> str (tscript (fst e')) = str (tscript (fst e)) \/ lt (tscript (fst e)) (tscript (fst e')) = true.
Proof.
  intros H F. split; [apply smallest_in; exact H|]. revert H.
  assert (G : forall (l : list (table * bool)) m e, Forall (fun e => nf (tscript (fst e))) l -> (forall x, m = Some x -> nf (tscript (fst x))) -> fold_left (fun m e => match m with None => Some e | Some m => if lt (tscript (fst e)) (tscript (fst m)) then Some e else Some m end) l m = Some e ->
    nf (tscript (fst e)) /\ forall e', In e' l \/ m = Some e' -> str (tscript (fst e')) = str (tscript (fst e)) \/ lt (tscript (fst e)) (tscript (fst e')) = true).
  { clear. induction l as [|x l IH]; intros m e F M H; cbn [fold_left] in H; [split; [apply M; exact H|]; intros e' [[]|E]; rewrite H in E; injection E as <-; auto|].
    apply Forall_cons_iff in F as [Fx F]. destruct m as [m|].
    - specialize (M m eq_refl). destruct (lt (tscript (fst x)) (tscript (fst m))) eqn:L.
      + destruct (IH (Some x) e F) as [Ne X]; [intros y E; injection E as <-; exact Fx|exact H|]. split; [exact Ne|]. intros e' [[<-|He]|E]; [apply X; auto|apply X; auto|]. injection E as <-. destruct (X x (or_intror eq_refl)) as [Y|Y].
        * right. rewrite (lt_eqb (tscript (fst e)) (tscript (fst m)) (tscript (fst x)) (tscript (fst m))); auto; [apply script_eqb_str; congruence|apply script_eqb_refl].
        * right. exact (lt_trans _ _ _ Ne Fx M Y L).
      + destruct (IH (Some m) e F) as [Ne X]; [intros y E; injection E as <-; exact M|exact H|]. split; [exact Ne|]. intros e' [[<-|He]|E]; [|apply X; auto|injection E as <-; apply X; auto].
        destruct (script_eqb (tscript (fst m)) (tscript (fst x))) eqn:Q.
        * apply script_eqb_str in Q. destruct (X m (or_intror eq_refl)) as [Y|Y]; [left; congruence|right]. rewrite (lt_eqb _ (tscript (fst x)) (tscript (fst e)) (tscript (fst m))); auto; [apply script_eqb_refl|apply script_eqb_str; congruence].
        * destruct (lt_total _ _ M Fx Q) as [Y|Y]; [|congruence]. right. destruct (X m (or_intror eq_refl)) as [Z|Z]; [|exact (lt_trans _ _ _ Ne M Fx Z Y)]. rewrite (lt_eqb _ (tscript (fst x)) (tscript (fst m)) (tscript (fst x))); auto; [apply script_eqb_str; congruence|apply script_eqb_refl].
    - destruct (IH (Some x) e F) as [Ne X]; [intros y E; injection E as <-; exact Fx|exact H|]. split; [exact Ne|]. intros e' [[<-|He]|E]; [apply X; auto|apply X; auto|discriminate]. }
  intros H e' He. apply (G l None e F); [discriminate|exact H|auto].
Qed.
Lemma smallest_none l : smallest l = None -> l = [].
Proof.
  destruct l as [|x l]; [reflexivity|]. unfold smallest. cbn [fold_left]. assert (G : forall (l : list (table * bool)) x, fold_left (fun m e => match m with None => Some e | Some m => if lt (tscript (fst e)) (tscript (fst m)) then Some e else Some m end) l (Some x) <> None :> option (table * bool)).
  { clear. induction l as [|y l IH]; intros x; cbn [fold_left]; [discriminate|]. destruct (lt _ _); apply IH. }
  intros H. exfalso. exact (G l x H).
Qed.
Lemma candidates_all defined s l t r : candidates defined s = Ok l -> In t defined -> accept_script t s = Ok (true, r) -> In (t, r) l.
Proof.
  unfold candidates. destruct (mapM _ defined) as [m|] eqn:E; cbn [bind]; [|discriminate]. intros H Ht A. apply Ok_inj in H. subst l. apply in_map_iff. exists (t, (true, r)). split; [reflexivity|]. apply filter_In. split; [|reflexivity].
  destruct (Forall2_In_l (mapM_F2 _ _ _ E) t Ht) as (y & Hy & Ey). rewrite A in Ey. cbn [bind] in Ey. apply Ok_inj in Ey. subst y. exact Hy.
Qed.

(** * The order of the tables *)
Lemma define_origin l : forall defined ts, define_tables defined l = Ok ts -> incl defined ts /\ forall t, In t ts -> In t defined \/ In (tscript t) l /\ table_class (tscript t) = Ok (tkind t).
Proof.
  induction l as [|s l IH]; intros defined ts E; cbn [define_tables] in E; [apply Ok_inj in E; subst; split; [apply incl_refl|auto]|].
  destruct (candidates defined s) as [c|]; cbn [bind] in E; [|discriminate]. destruct (smallest c) as [[p r]|].
  - destruct (mk_table s (Some p) r) as [t|] eqn:Et; cbn [bind] in E; [|discriminate]. destruct (mk_table_spec _ _ _ _ Et) as (k & Ek & ->). destruct (IH _ _ E) as [I O]. split; [intros x Hx; apply I; apply in_or_app; auto|].
    intros t Ht. destruct (O t Ht) as [H|[H K]]; [|right; split; [simpl; auto|exact K]]. apply in_app_or in H as [H|[<-|[]]]; [auto|right]. simpl. auto.
  - destruct (IH _ _ E) as [I O]. split; [exact I|]. intros t Ht. destruct (O t Ht) as [H|[H K]]; [auto|right; split; [simpl; auto|exact K]].
Qed.
Definition decreasing (l : list script) : Prop := StronglySorted (fun a b => (cardinal b <= cardinal a)%N) l.
Lemma define_at l : decreasing l -> NoDup (map str l) -> forall defined ts, define_tables defined l = Ok ts -> forall s, In s l ->
  exists ts1 c, incl defined ts1 /\ incl ts1 ts /\ (forall q, In q ts -> (cardinal s < cardinal (tscript q))%N -> In q ts1) /\ candidates ts1 s = Ok c /\
    match smallest c with
    | None => forall t, In t ts -> tscript t = s -> In t defined
    | Some (p, r) => exists t, mk_table s (Some p) r = Ok t /\ In t ts
    end.
Proof.
  induction l as [|s0 l IH]; intros Dl N defined ts E s Hs; [destruct Hs|]. cbn [define_tables] in E. destruct (candidates defined s0) as [c|] eqn:Ec; cbn [bind] in E; [|discriminate].
  apply StronglySorted_inv in Dl as [Dl F]. rewrite Forall_forall in F. cbn [map] in N. apply NoDup_cons_iff in N as [N0 N].
  destruct (smallest c) as [[p r]|] eqn:Em.
  - destruct (mk_table s0 (Some p) r) as [t0|] eqn:Et; cbn [bind] in E; [|discriminate]. destruct (mk_table_spec _ _ _ _ Et) as (k & Ek & T0). destruct (define_origin _ _ _ E) as [I O]. destruct Hs as [<-|Hs].
    + exists defined, c. split; [apply incl_refl|]. split; [intros x Hx; apply I; apply in_or_app; auto|]. split; [|split; [exact Ec|]].
      * intros q Hq Cq. destruct (O q Hq) as [H|[H _]]; [|specialize (F _ H); lia]. apply in_app_or in H as [H|[<-|[]]]; [exact H|]. subst t0. cbn [tscript] in Cq. lia.
      * rewrite Em. exists t0. split; [exact Et|]. apply I, in_or_app. simpl. auto.
    + destruct (IH Dl N _ _ E s Hs) as (ts1 & c1 & I1 & I2 & B & C & M). exists ts1, c1. split; [intros x Hx; apply I1; apply in_or_app; auto|]. split; [exact I2|]. split; [exact B|]. split; [exact C|]. destruct (smallest c1) as [[p1 r1]|]; [exact M|].
      intros t Ht Es. specialize (M t Ht Es). apply in_app_or in M as [M|[<-|[]]]; [exact M|]. exfalso. subst t0. cbn [tscript] in Es. subst s0. apply N0. now apply in_map.
  - destruct (define_origin _ _ _ E) as [I O]. destruct Hs as [<-|Hs].
    + exists defined, c. split; [apply incl_refl|]. split; [exact I|]. split; [|split; [exact Ec|]].
      * intros q Hq Cq. destruct (O q Hq) as [H|[H _]]; [exact H|]. specialize (F _ H). lia.
      * rewrite Em. intros t Ht Es. destruct (O t Ht) as [H|[H _]]; [exact H|]. exfalso. apply N0. rewrite <- Es. now apply in_map.
    + destruct (IH Dl N _ _ E s Hs) as (ts1 & c1 & I1 & I2 & B & C & M). exists ts1, c1. auto.
Qed.
Lemma by_length_decreasing l : decreasing (by_length l).
Proof.
  unfold by_length, decreasing. pose proof (sort_sorted (fun a b => N.ltb (cardinal b) (cardinal a)) (fun _ => True)) as S.
  assert (W : weak_sorted (fun a b => N.ltb (cardinal b) (cardinal a)) (sort (fun a b => N.ltb (cardinal b) (cardinal a)) l)).
  { apply S; [| | |apply Forall_forall; auto]; intros *; rewrite ?N.ltb_lt, ?N.ltb_ge, ?N.ltb_irrefl; auto; lia. }
  clear S. induction W as [|x l' W IH F]; constructor; auto. eapply Forall_impl; [|exact F]. intros y. rewrite N.ltb_ge. auto.
Qed.
Lemma dedup_same l : NoDup (map str l) -> forall s, In s (dedup script_eqb l) <-> In s l.
Proof.
  intros N s. split; [apply dedup_in|]. intros H. destruct (dedup_complete script_eqb script_eqb_refl l s H) as (y & Hy & E). apply script_eqb_str in E. pose proof (dedup_in _ _ _ Hy) as Hy'. rewrite (nodup_inj str l s y N H Hy'); auto.
Qed.

Section Root.
  Variable so : list script -> list script.
  Hypothesis SO : set_order so.
  Variables (r : script) (ps : list script) (ts : list table).
  Hypothesis Wr : nf r.
  Hypothesis Wps : Forall nf ps.
  Hypothesis Plural : forall s, In s ps -> cardinal s <> 1%N.
  Hypothesis N : NoDup (map str ps).
  Hypothesis E : define_root so r ps = Ok ts.
  (** The tables which are made before that of [s]: the root and all the larger ones. *)
  Definition before (s : script) (q : table) : Prop := tparent q = None \/ (cardinal s < cardinal (tscript q))%N.

  Lemma root_at : exists t0 l cells, mk_table r None false = Ok t0 /\ ss r = Ok cells /\ ts = (l ++ map (cell_of t0) cells)%list /\ define_tables [t0] (by_length (so (filter (fun s => negb (script_eqb s r)) (dedup script_eqb ps)))) = Ok l.
  Proof.
    unfold define_root in E. destruct (mk_table r None false) as [t0|] eqn:E0; cbn [bind] in E; [|discriminate]. destruct (ss r) as [cells|] eqn:Ec; cbn [bind] in E; [|discriminate]. match type of E with context[do h <- ?m; _] => destruct m as [l|] eqn:El end; cbn [bind] in E; [|discriminate]. apply Ok_inj in E. exists t0, l, cells. auto.
  Qed.
  Lemma queue_in s : In s (by_length (so (filter (fun s => negb (script_eqb s r)) (dedup script_eqb ps)))) <-> In s ps /\ str s <> str r.
  Proof.
    set (q := filter _ _). assert (P : Permutation (by_length (so q)) q) by (eapply Permutation_trans; [apply sort_perm|apply SO]).
    transitivity (In s q); [split; apply Permutation_in; [exact P|apply Permutation_sym; exact P]|]. unfold q. rewrite filter_In, (dedup_same ps N), negb_true_iff. rewrite <- script_eqb_str. destruct (script_eqb s r); split; intros [H1 H2]; split; auto; congruence.
  Qed.
  Lemma queue_nodup : NoDup (map str (by_length (so (filter (fun s => negb (script_eqb s r)) (dedup script_eqb ps))))).
  Proof.
    set (q := filter _ _). assert (P : Permutation (by_length (so q)) q) by (eapply Permutation_trans; [apply sort_perm|apply SO]).
    eapply Permutation_NoDup; [apply Permutation_map, Permutation_sym, P|]. apply NoDup_filter_map, dedup_nodup.
  Qed.
  Lemma root_kinds t : In t ts -> table_class (tscript t) = Ok (tkind t).
  Proof.
    destruct root_at as (t0 & l & cells & E0 & Ec & -> & El). destruct (mk_table_spec _ _ _ _ E0) as (k & Ek & T0). intros H. apply in_app_or in H as [H|H].
    - destruct (define_origin _ _ _ El) as [_ O]. destruct (O t H) as [[<-|[]]|[_ K]]; [subst t0; exact Ek|exact K].
    - apply in_map_iff in H as (x & <- & Hx). cbn [cell_of tscript tkind]. destruct (ss_sing r cells x (proj1 Wr) Ec Hx) as (_ & C & _). unfold table_class. rewrite C. reflexivity.
  Qed.
  (** Every paradigm: what becomes of it. *)
  Lemma root_place s : In s ps -> str s <> str r ->
    (exists t p b, In t ts /\ t = Tab (tkind t) s (Some p) b /\ In p ts /\ tkind t <> KCell /\ accept_script p s = Ok (true, b) /\
       forall q b', In q ts -> before s q -> accept_script q s = Ok (true, b') -> str (tscript q) = str (tscript p) \/ lt (tscript p) (tscript q) = true) \/
    ((forall t, In t ts -> str (tscript t) <> str s) /\ forall q b, In q ts -> before s q -> accept_script q s <> Ok (true, b)).
  Proof.
    intros Hs Ns. destruct root_at as (t0 & l & cells & E0 & Ec & -> & El). destruct (mk_table_spec _ _ _ _ E0) as (k & Ek & T0).
    pose proof (proj2 (queue_in s) (conj Hs Ns)) as Hq. set (qu := by_length _) in *.
    assert (Dq : decreasing qu) by apply by_length_decreasing.
    destruct (define_at qu Dq queue_nodup _ _ El s Hq) as (ts1 & c & I1 & I2 & B & C & M). destruct (define_origin _ _ _ El) as [_ O].
    assert (Cs : (1 < cardinal s)%N) by (rewrite Forall_forall in Wps; pose proof (plural_two s (proj1 (Wps s Hs)) (Plural s Hs)); lia).
    assert (Nf : forall t, In t l -> nf (tscript t)).
    { intros t Ht. destruct (O t Ht) as [[<-|[]]|[H _]]; [subst t0; exact Wr|]. apply queue_in in H as [H _]. rewrite Forall_forall in Wps. auto. }
    assert (Bf : forall q, In q (l ++ map (cell_of t0) cells)%list -> before s q -> In q ts1).
    { intros q H Bq. apply in_app_or in H as [H|H].
      - destruct Bq as [Bq|Bq]; [|auto]. destruct (define_tables_spec qu) with (defined := [t0]) (ts := l) as (more & El' & F & _); auto.
        + apply Forall_forall. intros y Hy. apply queue_in in Hy as [Hy _]. rewrite Forall_forall in Wps. apply (proj1 (Wps y Hy)).
        + intros y Hy. apply queue_in in Hy as [Hy _]. auto.
        + apply queue_nodup.
        + constructor; [subst t0; apply Wr|constructor].
        + rewrite El' in H. destruct H as [<-|H]; [apply I1; simpl; auto|]. rewrite Forall_forall in F. destruct (F q H) as (_ & _ & p & X & _). congruence.
      - apply in_map_iff in H as (x & <- & Hx). destruct Bq as [Bq|Bq]; [discriminate|]. cbn [cell_of tscript] in Bq. destruct (ss_sing r cells x (proj1 Wr) Ec Hx) as (_ & Cx & _). lia. }
    destruct (smallest c) as [[p b]|] eqn:Em.
    - left. destruct M as (t & Et & Ht). destruct (mk_table_spec _ _ _ _ Et) as (k' & Ek' & Tt).
      assert (Fc : Forall (fun e => nf (tscript (fst e))) c) by (apply Forall_forall; intros [y by_] Hy; destruct (candidates_in _ _ _ _ _ C Hy) as [Hy' _]; apply Nf, I2, Hy').
      destruct (smallest_least _ _ Em Fc) as [Hp Least]. destruct (candidates_in _ _ _ _ _ C Hp) as [Hp' A]. exists t, p, b. split; [apply in_or_app; auto|]. split; [subst t; reflexivity|]. split; [apply in_or_app; left; apply I2, Hp'|].
      split; [subst t; cbn [tkind]; intros ->; apply (Plural s Hs); apply (class_cell s KCell Ek'); reflexivity|]. split; [exact A|]. intros q b' Hq' Bq Aq. apply (Least (q, b')). apply (candidates_all _ _ _ _ _ C (Bf q Hq' Bq) Aq).
    - right. apply smallest_none in Em. subst c. split.
      + intros t H Et. apply in_app_or in H as [H|H].
        * destruct (O t H) as [[<-|[]]|[H' _]]; [subst t0; cbn [tscript] in Et; congruence|]. assert (tscript t = s) by (apply queue_in in H' as [H' _]; apply (nodup_inj str ps); auto). specialize (M t H H0) as [<-|[]]. subst t0. cbn [tscript] in *. congruence.
        * apply in_map_iff in H as (x & <- & Hx). cbn [cell_of tscript] in Et. destruct (ss_sing r cells x (proj1 Wr) Ec Hx) as (Wx & Cx & _). rewrite Forall_forall in Wps. destruct (eq_attributes x s Wx (proj1 (Wps s Hs)) Et) as [(_ & _ & A & _) _]. lia.
      + intros q b Hq' Bq Aq. pose proof (candidates_all _ _ _ _ _ C (Bf q Hq' Bq) Aq) as X. destruct X.
  Qed.
End Root.

(** * Which paradigms go to which root *)
Lemma assign_out roots scripts m : assign roots scripts = Ok m -> NoDup (map str scripts) -> NoDup (map (fun e => str (snd e)) m) /\
  forall s, In s scripts -> cardinal s <> 1%N -> exists r x l, In (r, s) m /\ ss s = Ok (x :: l) /\ owner roots x = Some r.
Proof.
  revert m. induction scripts as [|s0 l IH]; intros m E Nd; cbn [assign] in E; [apply Ok_inj in E; subst; split; [constructor|intros s []]|]. cbn [map] in Nd. apply NoDup_cons_iff in Nd as [N0 Nd].
  destruct (N.eqb_spec (cardinal s0) 1) as [C|C]; [destruct (IH m E Nd) as [N1 H]; split; [exact N1|]; intros s [<-|Hs] Cs; [contradiction|auto]|].
  destruct (ss s0) as [x|] eqn:Es; cbn [bind] in E; [|discriminate]. destruct x as [|x l0]; [discriminate|]. destruct (owner roots x) as [r0|] eqn:Eo; [|discriminate].
  destruct (assign roots l) as [m'|] eqn:Em; cbn [bind] in E; [|discriminate]. apply Ok_inj in E. subst m. destruct (IH m' eq_refl Nd) as [N1 H]. split.
  - cbn [map snd]. constructor; [|exact N1]. intros X. apply in_map_iff in X as ([r s] & X & Hs). cbn [snd] in X. apply N0. rewrite <- X. apply in_map. apply (assign_in _ _ _ Em _ _ Hs).
  - intros s [<-|Hs] Cs; [exists r0, x, l0; simpl; auto|]. destruct (H s Hs Cs) as (r & y & l1 & A & B & D). exists r, y, l1. simpl. auto.
Qed.
Lemma build_place so roots scripts forest : Forall wf roots -> Forall wf scripts -> ForallOrdPairs disjoint roots -> NoDup (map str scripts) -> build_tables so roots scripts = Ok forest ->
  forall r ts, In (r, ts) forest -> exists ps, define_root so r ps = Ok ts /\ incl ps scripts /\ (forall s, In s ps -> cardinal s <> 1%N) /\ NoDup (map str ps) /\
    forall s, In s scripts -> cardinal s <> 1%N -> inside s r -> In s ps.
Proof.
  intros Wr Ws Dj Nd E r ts He. unfold build_tables in E. destruct (mapM _ roots) as [ls|] eqn:E1 in E; cbn [bind] in E; [|discriminate]. destruct (assign ls scripts) as [m|] eqn:Em; cbn [bind] in E; [|discriminate].
  destruct (mapM_in _ _ _ _ E He) as (r' & Hr & Er). cbn beta in Er. destruct (define_root so r' _) as [l|] eqn:El in Er; cbn [bind] in Er; [|discriminate]. apply Ok_inj in Er. injection Er as -> ->.
  exists (map snd (filter (fun e => script_eqb (fst e) r) m)). split; [exact El|]. destruct (assign_out _ _ _ Em Nd) as [Nm Out]. rewrite Forall_forall in Wr, Ws.
  assert (I : forall s, In s (map snd (filter (fun e => script_eqb (fst e) r) m)) -> In s scripts /\ cardinal s <> 1%N).
  { intros s Hs. apply in_map_iff in Hs as ([r' s'] & <- & Hs). apply filter_In in Hs as [Hs _]. exact (assign_in _ _ _ Em _ _ Hs). }
  split; [intros s Hs; apply I, Hs|]. split; [intros s Hs; apply I, Hs|]. split.
  - rewrite map_map. apply NoDup_filter_map. exact Nm.
  - intros s Hs Cs Is. destruct (Out s Hs Cs) as (r' & x & l0 & A & B & O). apply in_map_iff. exists (r', s). split; [reflexivity|]. apply filter_In. split; [exact A|]. cbn [fst].
    unfold owner in O. destruct (find _ (rev ls)) as [[r2 lr]|] eqn:Ef; [|discriminate]. cbn [option_map fst] in O. injection O as ->. apply find_some in Ef as [Hl Mx]. apply in_rev in Hl. cbn [snd] in Mx.
    destruct (mapM_in _ _ _ _ E1 Hl) as (r3 & Hr3 & E3). cbn beta in E3. destruct (ss r3) as [l3|] eqn:S3; cbn [bind] in E3; [|discriminate]. apply Ok_inj in E3. injection E3 as -> ->.
    apply memb_text in Mx as (y & Hy & Ty). pose proof (Ws s Hs) as Wf. pose proof (ss_sing s _ x Wf B (or_introl eq_refl)) as Sx. destruct (some_word x (proj1 Sx)) as [w Hw].
    assert (Rw : means r w) by (apply Is; apply (ss_word s _ x w Wf B (or_introl eq_refl) Hw)). assert (Rw' : means r' w) by (apply (ss_word r' lr y w (Wr r' Hr3) S3 Hy); apply (same_text x y); [apply Sx|apply (ss_sing r' lr y (Wr r' Hr3) S3 Hy)|congruence|exact Hw]).
    rewrite (disjoint_one roots r' r w Dj Hr3 Hr Rw' Rw). apply script_eqb_refl.
Qed.

Section Place.
  Variable so : list script -> list script.
  Hypothesis SO : set_order so.
  Variables (paradigms : list string) (rows : list (string * string * string)) (d : dictionary) (all : list script).
  Hypothesis An : anatomy so paradigms rows d all.
  Hypothesis Co : contents so paradigms rows d all.
  Hypothesis Td : tidy so paradigms.

  Lemma place_all : Forall nf all /\ NoDup (map str all).
  Proof. destruct An as (_ & _ & _ & _ & _ & _ & _ & _ & Ti & _). destruct (Ti Td) as (_ & F & N). auto. Qed.
  Lemma place_root r : In r (d_root_scripts d) -> nf r.
  Proof. intros H. destruct Co as (Ro & _). apply Ro; auto. Qed.
  Lemma place_ps r ts : In (r, ts) (d_forest d) -> exists ps, define_root so r ps = Ok ts /\ incl ps all /\ Forall nf ps /\ (forall s, In s ps -> cardinal s <> 1%N) /\ NoDup (map str ps) /\
    (forall s, In s all -> cardinal s <> 1%N -> included s r -> In s ps) /\ nf r /\ In r (d_root_scripts d).
  Proof.
    intros He. destruct place_all as [F N]. destruct An as (W & _ & B & Wr & Dj & _). destruct (build_place so _ _ _ Wr W Dj N B r ts He) as (ps & E & I & P & Np & C).
    assert (Hr : In r (d_root_scripts d)) by (apply (forest_tree so SO _ _ _ _ An r ts He)). exists ps. split; [exact E|]. split; [exact I|]. split; [apply Forall_forall; intros s Hs; rewrite Forall_forall in F; auto|]. split; [exact P|]. split; [exact Np|]. split; [exact C|]. split; [apply place_root|]; exact Hr.
  Qed.
  Lemma table_kind r ts t : In (r, ts) (d_forest d) -> In t ts -> table_class (tscript t) = Ok (tkind t).
  Proof. intros He Ht. destruct (place_ps r ts He) as (ps & E & _ & _ & _ & _ & _ & Nr & _). eapply root_kinds; eauto. Qed.
  Lemma table_place r ts t p : In (r, ts) (d_forest d) -> In t ts -> tkind t <> KCell -> tparent t = Some p ->
    In p ts /\ accept_script p (tscript t) = Ok (true, tregular t) /\
    forall q b, In q ts -> before (tscript t) q -> accept_script q (tscript t) = Ok (true, b) -> q = p \/ lt (tscript p) (tscript q) = true.
  Proof.
    intros He Ht K P. destruct (place_ps r ts He) as (ps & E & I & F & Pl & Np & C & Nr & Hr). pose proof (distinct_tables so SO _ _ _ _ An r ts He) as Nt.
    assert (Hs : In (tscript t) ps /\ str (tscript t) <> str r).
    { assert (Wps : Forall wf ps) by (eapply Forall_impl; [|exact F]; intros a Ha; apply Ha). destruct (define_root_spec so SO r ps ts (proj1 Nr) Wps Pl E) as (t0 & more & cells & T). destruct (tree_root _ _ _ _ _ _ T) as (k0 & _ & Et0). pose proof (proj2 (tree_in _ _ _ _ _ _ T t0) (or_introl eq_refl)) as Ht0. pose proof Ht as Ht'. apply (tree_in _ _ _ _ _ _ T) in Ht as [->|[Ht|(x & _ & ->)]].
      - subst t0. discriminate.
      - pose proof T as (_ & _ & _ & Fm & _). rewrite Forall_forall in Fm. split; [apply (Fm t Ht)|]. intros X. assert (t = t0) by (apply (nodup_inj (fun t => str (tscript t)) ts); auto; subst t0; exact X). subst t t0. discriminate.
      - cbn in K. congruence. }
    destruct Hs as [Hs Ns]. destruct (root_place so SO r ps ts Nr F Pl Np E (tscript t) Hs Ns) as [(t' & p' & b & Ht' & Et' & Hp & K' & A & Least)|[No _]]; [|exfalso; apply (No t Ht); reflexivity].
    assert (t = t') by (apply (nodup_inj (fun t => str (tscript t)) ts); auto; rewrite Et'; reflexivity). subst t'. rewrite Et' in P. cbn [tparent] in P. injection P as ->. split; [exact Hp|].
    assert (Eb : tregular t = b) by (rewrite Et'; reflexivity). rewrite Eb. split; [exact A|]. intros q b' Hq Bq Aq. destruct (Least q b' Hq Bq Aq) as [X|X]; [left|right; exact X]. apply (nodup_inj (fun t => str (tscript t)) ts); auto.
  Qed.
  Lemma table_refused s : In s all -> cardinal s <> 1%N -> (forall r ts t, In (r, ts) (d_forest d) -> In t ts -> str (tscript t) <> str s) ->
    forall r ts q b, In (r, ts) (d_forest d) -> In q ts -> before s q -> accept_script q s <> Ok (true, b).
  Proof.
    intros Ha Cs No r ts q b He Hq Bq A. destruct (place_ps r ts He) as (ps & E & I & F & Pl & Np & C & Nr & Hr). destruct place_all as [Fa _]. rewrite Forall_forall in Fa. destruct (forest_table so SO _ _ _ _ An r ts q He Hq) as [Wq Iq].
    assert (Hs : In s ps) by (apply C; auto; apply (inside_trans s (tscript q) r); [eapply accept_inside; [exact Wq|apply (Fa s Ha)|exact A]|exact Iq]).
    assert (Ns : str s <> str r).
    { assert (Wps : Forall wf ps) by (eapply Forall_impl; [|exact F]; intros a Hx; apply Hx). destruct (define_root_spec so SO r ps ts (proj1 Nr) Wps Pl E) as (t0 & more & cells & T). destruct (tree_root _ _ _ _ _ _ T) as (k0 & _ & Et0). pose proof (proj2 (tree_in _ _ _ _ _ _ T t0) (or_introl eq_refl)) as Ht0. intros X. apply (No r ts t0 He Ht0). subst t0. auto. }
    destruct (root_place so SO r ps ts Nr F Pl Np E s Hs Ns) as [(t' & p' & b' & Ht' & Et' & _)|[_ Re]]; [|exact (Re q b Hq Bq A)]. apply (No r ts t' He Ht'). rewrite Et'. reflexivity.
  Qed.
End Place.
