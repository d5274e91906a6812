(** [from_list] on whole lists: round trip, order, errors, change of the lexemes. *)
From Coq Require Import List String Ascii Bool NArith Arith Permutation Lia.
From Verif Require Import Base SortProofs Script Commons Usl OrderTheory Sfun SfunProofs.
Import ListNotations.
Local Open Scope string_scope.

Section Facts.
  Variable X : Type.
  Notation sfun := (sfun X).
  Notation entry := (entry X).
  Notation lst := (lst X). Notation pre := (pre X). Notation tailed := (tailed X). Notation heads := (heads X). Notation bare := (bare X).
  Notation valid := (valid X). Notation pvalid := (pvalid X). Notation cvalid := (cvalid X). Notation short := (short X).

  (** ** The list of a process is read in its order *)
  Lemma add_actant_last r e (acts : list (string * list entry)) es : ~ In r (map fst acts) -> add_actant r e (acts ++ [(r, es)])%list = (acts ++ [(r, es ++ [e])])%list.
  Proof.
    induction acts as [|[s fs] acts IH]; cbn.
    - intros _. now rewrite String.eqb_refl.
    - intros H. destruct (String.eqb_spec r s) as [->|]; [elim H; now left|]. f_equal. apply IH. tauto.
  Qed.
  Lemma proc_scan_more r : In r ACTANTS -> forall es, (forall e s, In e es -> In s (fst e) -> ins s ACTANTS = false) ->
    forall x v acts fs l, ~ In r (map fst acts) ->
    proc_scan {| p_actor := x; p_valence := v; p_actants := acts ++ [(r, fs)] |} (pre [r] es ++ l) =
    proc_scan {| p_actor := x; p_valence := v; p_actants := acts ++ [(r, (fs ++ es)%list)] |} l.
  Proof.
    intros Hr. induction es as [|[r1 x1] es IH]; intros H x v acts fs l N; [now rewrite app_nil_r|].
    cbn [pre SfunProofs.pre map app proc_scan fst snd]. rewrite proc_step_actant; auto. 2:{ intros s Hs. apply (H (r1, x1) s); auto. now left. }
    cbn [bind p_actor p_valence p_actants]. rewrite add_actant_last by auto. fold pre.
    change (map (fun e : list string * option X => ((r :: fst e)%list, snd e)) es) with (pre [r] es).
    rewrite IH; auto. 2:{ intros; eapply H; [right|]; eauto. } now rewrite <- app_assoc.
  Qed.
  Lemma proc_scan_block r : In r ACTANTS -> forall es, es <> [] -> (forall e s, In e es -> In s (fst e) -> ins s ACTANTS = false) ->
    forall x v acts l, ~ In r (map fst acts) ->
    proc_scan {| p_actor := x; p_valence := v; p_actants := acts |} (pre [r] es ++ l) =
    proc_scan {| p_actor := x; p_valence := v; p_actants := acts ++ [(r, es)] |} l.
  Proof.
    intros Hr [|[r1 x1] es] Ne H x v acts l N; [easy|].
    cbn [pre SfunProofs.pre map app proc_scan fst snd]. rewrite proc_step_actant; auto. 2:{ intros s Hs. apply (H (r1, x1) s); auto. now left. }
    cbn [bind p_actor p_valence p_actants]. rewrite add_actant_new by auto.
    change (map (fun e : list string * option X => ((r :: fst e)%list, snd e)) es) with (pre [r] es).
    rewrite proc_scan_more; auto. intros; eapply H; [right|]; eauto.
  Qed.
  Lemma proc_scan_blocks x v acts' : forall acts, Forall (fun p : string * sfun => In (fst p) ACTANTS /\ valid KD (snd p)) acts ->
    NoDup (map fst acts' ++ map fst acts) ->
    proc_scan {| p_actor := x; p_valence := v; p_actants := acts' |} (List.concat (map (fun p => pre [fst p] (lst (snd p))) acts)) =
    Ok {| p_actor := x; p_valence := v; p_actants := acts' ++ map (fun p => (fst p, lst (snd p))) acts |}.
  Proof.
    intros acts. revert acts'. induction acts as [|[r g] acts IH]; intros acts' F N; [cbn; now rewrite app_nil_r|].
    apply Forall_cons_iff in F. destruct F as [[Hr Vg] F]. cbn [map fst snd List.concat] in *.
    rewrite proc_scan_block; auto.
    - rewrite IH; auto; [now rewrite <- app_assoc|]. rewrite map_app. cbn. now rewrite <- app_assoc.
    - now apply lst_nonempty in Vg.
    - intros [r1 x1] s He Hs. apply inner_not_actant. pose proof (lst_inner _ _ _ _ _ Vg He) as I. rewrite Forall_forall in I. auto.
    - apply NoDup_remove_2 in N. intros H. apply N, in_app_iff. now left.
  Qed.
  Lemma proc_exact x v acts fuel : pvalid (Proc x v acts) -> short (S fuel) (lst (Proc x v acts)) ->
    proc_from fuel (lst (Proc x v acts)) = Ok (Proc x v acts).
  Proof.
    cbn [SfunProofs.pvalid]. intros (V & N & F) S. unfold proc_from. rewrite lst_proc in *. cbn [proc_scan]. unfold proc_step at 1. cbn [fst].
    rewrite (proj2 (ins_In _ _) V). cbn [p_actor proc_init bind p_actants snd]. rewrite proc_scan_blocks by auto. cbn [bind p_actants app p_valence p_actor].
    assert (E : mapM (fun p => do f <- dep_from fuel (snd p); Ok (fst p, f)) (map (fun p => (fst p, lst (snd p))) acts) = Ok acts); [|now rewrite E].
    apply mapM_Forall2. unfold short in S. apply Forall_cons_iff in S. destruct S as [_ S]. clear N.
    induction acts as [|[r g] acts IH]; constructor; cbn [fst snd] in *; apply Forall_cons_iff in F; cbn [map List.concat] in S; apply Forall_app in S.
    - pose proof (from_perm X KD g (proj2 (proj1 F)) (lst g) fuel (Permutation_refl _)) as E. cbn [from] in E. cbn [snd fst]. rewrite E; [reflexivity|].
      apply short_pre in S as S1 || (destruct S as [S1 _]; now apply short_pre in S1).
    - apply IH; tauto.
  Qed.

  (** ** [from_list] *)
  Lemma short_fuel (l : list entry) : short (fuel_for l) l.
  Proof.
    unfold SfunProofs.short, fuel_for. induction l as [|e l IH]; constructor.
    - cbn. lia.
    - eapply Forall_impl; [|exact IH]. intros e' He. unfold maxl in *. cbn [map fold_right]. cbn beta in He. lia.
  Qed.
  Lemma heads_const a (l : list entry) : (forall e, In e l -> heads a e = true) -> mapM head_of l = Ok (map (fun _ => a) l).
  Proof.
    intros H. apply mapM_ok. intros e He. apply H in He. unfold head_of. unfold SfunProofs.heads in He. destruct (fst e); [discriminate|]. apply String.eqb_eq in He. now subst.
  Qed.
  Lemma from_list_single a (l : list entry) : l <> [] -> ins a VALENCES = false -> (forall e, In e l -> heads a e = true) ->
    from_list l = if String.eqb a DEPENDANT_QUALITY then do f <- dep_from (fuel_for l) (children_of l); Ok (CDependant, f)
          else if String.eqb a INDEPENDANT_QUALITY then do f <- indep_from (fuel_for l) (children_of l); Ok (CIndependant, f)
          else Err ValueError.
  Proof.
    intros Ne Ha H. unfold from_list. destruct l as [|e l]; [easy|]. set (m := e :: l) in *. rewrite (heads_const a) by auto. cbn [bind].
    assert (E : filter (fun a => ins a VALENCES) (map (fun _ => a) m) = []).
    { apply filter_false. intros x Hx. apply in_map_iff in Hx. now destruct Hx as (? & <- & _). }
    rewrite E. cbn [List.length]. rewrite (dedup_const a); [reflexivity|discriminate|]. intros x Hx. apply in_map_iff in Hx. now destruct Hx as (? & <- & _).
  Qed.
  Lemma pre_heads a l e : In e (pre [a] l) -> heads a e = true.
  Proof. intros H. apply pre_in in H. destruct H as (r & E & _). unfold SfunProofs.heads. rewrite E. apply String.eqb_refl. Qed.
  Lemma single_ok k a f l : valid k f -> Permutation l (pre [a] (lst f)) ->
    l <> [] /\ (forall e, In e l -> heads a e = true) /\ from X k (fuel_for l) (children_of l) = Ok f.
  Proof.
    intros V P. split; [|split].
    - intros ->. apply Permutation_nil in P. pose proof (lst_nonempty _ _ _ V). now destruct (lst f).
    - intros e H. apply (Permutation_in _ P) in H. now apply pre_heads in H.
    - apply from_perm; auto.
      + rewrite <- (tailed_pre X a (lst f)). now apply Permutation_map.
      + pose proof (short_fuel l) as S. unfold children_of, SfunProofs.short in *. rewrite Forall_forall in *.
        intros e He. apply in_map_iff in He. destruct He as ([r x] & <- & He). apply S in He. cbn [fst] in *. destruct r; cbn [tl List.length] in *; lia.
  Qed.
  Lemma valence_count (l : list entry) rs : mapM head_of l = Ok rs -> List.length (filter (fun a => ins a VALENCES) rs) = List.length (filter (isval X) l).
  Proof.
    intros H. apply mapM_inv in H. induction H as [|e a l rs E F IH]; [reflexivity|]. cbn [filter].
    replace (isval X e) with (ins a VALENCES) by (unfold head_of in E; unfold isval; destruct (fst e); [discriminate|]; now injection E as ->).
    destruct (ins a VALENCES); cbn [List.length]; lia.
  Qed.
  Lemma from_list_process (l : list entry) : Forall (proc_ok X) l -> List.length (filter (isval X) l) = 1 ->
    from_list l = do f <- proc_from (fuel_for l) l; Ok (CProcess, f).
  Proof.
    intros OK N. unfold from_list. destruct l as [|e l]; [discriminate|]. set (m := e :: l) in *.
    assert (E : exists rs, mapM head_of m = Ok rs).
    { exists (map (fun e => hd "" (fst e)) m). apply mapM_ok. intros e' He. rewrite Forall_forall in OK. destruct (OK _ He) as (a & r & E & _). destruct e' as [r' x']. cbn [fst] in E. subst r'. reflexivity. }
    destruct E as [rs E]. rewrite E. cbn [bind]. rewrite (valence_count _ _ E), N. reflexivity.
  Qed.
  Lemma process_facts x v acts l : pvalid (Proc x v acts) -> Permutation l (lst (Proc x v acts)) -> Forall (proc_ok X) l /\ List.length (filter (isval X) l) = 1.
  Proof.
    intros PV P. split; [eapply Permutation_Forall; [apply Permutation_sym, P|]; now apply proc_list_ok|].
    cbn [SfunProofs.pvalid] in PV. destruct PV as (V & N & F). rewrite lst_proc in P.
    rewrite (Permutation_length (filter_perm _ _ _ P)). cbn [filter]. rewrite filter_isval_acts.
    - unfold isval. cbn [fst]. now rewrite (proj2 (ins_In _ _) V).
    - eapply Forall_impl; [|exact F]. now intros p [? _].
  Qed.
  Definition same_actants (f f' : sfun) : Prop :=
    f' = f \/ exists x v acts acts', f = Proc x v acts /\ f' = Proc x v acts' /\ Permutation acts' acts.
  Lemma from_list_perm c f l : cvalid c f -> Permutation l (as_list c f) -> exists f', from_list l = Ok (c, f') /\ same_actants f f'.
  Proof.
    intros V P. rewrite as_list_lst in P. destruct c; cbn [SfunProofs.cvalid context_prefix] in *.
    - destruct f as [| | |x v acts]; try solve [destruct V]. rewrite pre_nil in P. destruct (process_facts _ _ _ _ V P) as [OK N].
      rewrite from_list_process by auto. destruct (proc_perm X x v acts V l (fuel_for l) P) as (acts' & E & P').
      { eapply Forall_impl; [|apply short_fuel]. cbn. intros. lia. }
      rewrite E. exists (Proc x v acts'). split; [reflexivity|]. right. eauto 8.
    - destruct (single_ok _ _ _ _ V P) as (Ne & H & E). rewrite (from_list_single DEPENDANT_QUALITY) by auto. cbn [from] in E. cbn [String.eqb].
      rewrite String.eqb_refl, E. exists f. split; [reflexivity|now left].
    - destruct (single_ok _ _ _ _ V P) as (Ne & H & E). rewrite (from_list_single INDEPENDANT_QUALITY) by auto. cbn [from] in E.
      replace (String.eqb INDEPENDANT_QUALITY DEPENDANT_QUALITY) with false by reflexivity.
      rewrite String.eqb_refl, E. exists f. split; [reflexivity|now left].
  Qed.
  Lemma from_list_exact c f : cvalid c f -> from_list (as_list c f) = Ok (c, f).
  Proof.
    intros V. destruct c.
    - rewrite as_list_lst. cbn [SfunProofs.cvalid context_prefix] in *. rewrite pre_nil. destruct f as [| | |x v acts]; try solve [destruct V].
      destruct (process_facts _ _ _ _ V (Permutation_refl _)) as [OK N]. rewrite from_list_process by auto. rewrite proc_exact; auto.
      eapply Forall_impl; [|apply short_fuel]. cbn. intros. lia.
    - destruct (from_list_perm _ _ _ V (Permutation_refl _)) as (f' & E & S). rewrite E. cbn in V. destruct S as [->|(x & v & acts & acts' & -> & _)]; [reflexivity|destruct V].
    - destruct (from_list_perm _ _ _ V (Permutation_refl _)) as (f' & E & S). rewrite E. cbn in V. destruct S as [->|(x & v & acts & acts' & -> & _)]; [reflexivity|destruct V].
  Qed.
  Lemma from_list_inv l c f : from_list l = Ok (c, f) -> cvalid c f /\ Permutation (lexemes X (as_list c f)) (lexemes X l).
  Proof.
    unfold from_list. destruct l as [|e0 l0]; [discriminate|]. set (l := e0 :: l0) in *. intros H. run H as rs E.
    rewrite as_list_lst, lexemes_pre.
    destruct (List.length (filter (fun a => ins a VALENCES) rs)) as [|[|]]; [|run H as g Eg; injection H as <- <-; now apply proc_inv in Eg|discriminate].
    assert (C : lexemes X (children_of l) = lexemes X l) by (unfold lexemes, children_of; now rewrite map_map).
    destruct (dedup String.eqb rs) as [|r [|]]; try discriminate.
    destruct (String.eqb r DEPENDANT_QUALITY).
    - run H as g Eg. injection H as <- <-. apply (from_inv X _ KD) in Eg. now rewrite C in Eg.
    - destruct (String.eqb r INDEPENDANT_QUALITY); [|discriminate]. run H as g Eg. injection H as <- <-. apply (from_inv X _ KI) in Eg. now rewrite C in Eg.
  Qed.

  (** ** Errors *)
  Definition expected (e : exn) : Prop := e = ValueError \/ e = IndexError.
  Lemma bind_err {A B} (a : res A) (f : A -> res B) e : bind a f = Err e -> a = Err e \/ exists x, a = Ok x /\ f x = Err e.
  Proof. destruct a; cbn; eauto. intros [= ->]. now left. Qed.
  Lemma junction_err (l : list entry) e : junction_parts l = Err e -> expected e.
  Proof.
    unfold junction_parts, expected. intros H. apply bind_err in H. destruct H as [H|(hs & _ & H)].
    - apply mapM_err in H. destruct H as (x & _ & H). unfold head_of in H. destruct (fst x); [injection H as <-; auto|discriminate].
    - destruct (filter _ _) as [|lk [|]]; try (injection H as <-; auto). apply bind_err in H. destruct H as [H|(ixs & _ & H)].
      + apply mapM_err in H. destruct H as (x & _ & H). unfold indexed in H. destruct (fst x) as [|? [|b ?]]; try (injection H as <-; auto).
        destruct (index_of b JUNCTION_INDEX); [discriminate|injection H as <-; auto].
      + apply bind_err in H. destruct H as [H|(us & _ & H)]; [|discriminate]. apply mapM_err in H. destruct H as (x & _ & H).
        destruct (Nat.ltb _ x); [injection H as <-; auto|]. destruct (Nat.eqb x _); [injection H as <-; auto|discriminate].
  Qed.
  Lemma dep_scan_err l : forall (st : dep_state X) e, dep_scan st l = Err e -> e = ValueError.
  Proof.
    induction l as [|a l IH]; intros st e H; cbn [dep_scan] in H; [discriminate|]. apply bind_err in H. destruct H as [H|(s & _ & H)]; [|eauto].
    unfold dep_step in H. destruct (fst a) as [|b r].
    - destruct (d_actor _ st); [now injection H as <-|discriminate].
    - destruct (ins b JUNCTION_SCRIPTS); [discriminate|]. destruct (d_jun _ st); [now injection H as <-|].
      destruct (String.eqb b INDEPENDANT_QUALITY); [discriminate|]. destruct (String.eqb b DEPENDANT_QUALITY); [discriminate|]. now injection H as <-.
  Qed.
  Lemma dep_scan_short l n : forall (st st' : dep_state X), dep_scan st l = Ok st' -> short (S n) l -> short n (d_dep _ st) -> short n (d_indep _ st) ->
    short n (d_dep _ st') /\ short n (d_indep _ st').
  Proof.
    induction l as [|a l IH]; intros st st' H S S1 S2; cbn [dep_scan] in H; [injection H as <-; auto|]. run H as s1 E1.
    unfold SfunProofs.short in S. apply Forall_cons_iff in S. destruct S as [Sa S]. apply (IH _ _ H S); unfold dep_step in E1; destruct a as [[|b r] x]; cbn [fst snd List.length] in *;
      (destruct (d_actor _ st); [discriminate|]; injection E1 as <-; auto) ||
      (destruct (ins b JUNCTION_SCRIPTS); [injection E1 as <-; auto|]; destruct (d_jun _ st); [discriminate|];
       destruct (String.eqb b INDEPENDANT_QUALITY); [injection E1 as <-|destruct (String.eqb b DEPENDANT_QUALITY); [injection E1 as <-|discriminate]];
       cbn [d_dep d_indep]; auto; apply Forall_app; split; auto; constructor; [cbn; lia|constructor]).
  Qed.
  Lemma from_err fuel : forall k l e, 0 < fuel -> short fuel l -> from X k fuel l = Err e -> expected e.
  Proof.
    induction fuel as [|n IH]; intros k l e F S H; [lia|].
    assert (Junc : (do p <- junction_parts l; do cs <- mapM (from X k n) (snd p); mk_jun (fst p) cs) = Err e -> expected e).
    { clear H. intros H. apply bind_err in H. destruct H as [H|([link gs] & Ep & H)]; [now apply junction_err in H|]. cbn [fst snd] in H.
      apply junction_inv in Ep. destruct Ep as (_ & Nl & _ & L2 & P).
      apply bind_err in H. destruct H as [H|(cs & _ & H)].
      - apply mapM_err in H. destruct H as (g & Hg & H).
        assert (Q : forall e, In e l -> List.length (skipn 2 (fst e)) < n).
        { intros a Ha. unfold SfunProofs.short in S. rewrite Forall_forall in L2, S. specialize (L2 _ Ha). specialize (S _ Ha). cbn beta in *. rewrite skipn_length.
          unfold role in *. lia. }
        eapply IH; [| |exact H].
        + destruct l as [|a l]; [easy|]. specialize (Q a (or_introl eq_refl)). lia.
        + apply Forall_forall. intros a Ha. assert (Hr : In a (map (rest2 X) l)) by (eapply Permutation_in; [exact P|]; apply in_concat; eauto).
          apply in_map_iff in Hr. destruct Hr as (b & <- & Hb). apply Q in Hb. exact Hb.
      - unfold mk_jun in H. destruct (Nat.ltb _ _); [injection H as <-; now right|discriminate]. }
    destruct k; cbn [from] in *.
    - cbn [dep_from] in H. apply bind_err in H. destruct H as [H|(st & Es & H)]; [apply dep_scan_err in H; now left|].
      destruct (d_jun _ st); [auto|]. destruct (dep_scan_short l n _ _ Es S) as [Sd Si]; [constructor|constructor|].
      apply bind_err in H. destruct H as [H|(d & _ & H)].
      + unfold opt_from in H. destruct (d_dep _ st) as [|a m] eqn:Ed; [discriminate|]. apply bind_err in H. destruct H as [H|(g & _ & H)]; [|discriminate].
        apply (IH KD) in H; auto. unfold SfunProofs.short in Sd. apply Forall_cons_iff in Sd. destruct Sd. lia.
      + apply bind_err in H. destruct H as [H|(i & _ & H)]; [|discriminate].
        unfold opt_from in H. destruct (d_indep _ st) as [|a m] eqn:Ed; [discriminate|]. apply bind_err in H. destruct H as [H|(g & _ & H)]; [|discriminate].
        apply (IH KI) in H; auto. unfold SfunProofs.short in Si. apply Forall_cons_iff in Si. destruct Si. lia.
    - destruct l as [|[[|a r] x] [|e' l]]; try (apply Junc; exact H). discriminate H.
  Qed.
  Lemma proc_scan_err l : forall (st : proc_state X) e, proc_scan st l = Err e -> e = ValueError \/ e = IndexError /\ exists x, In x l /\ fst x = [].
  Proof.
    induction l as [|a l IH]; intros st e H; cbn [proc_scan] in H; [discriminate|]. apply bind_err in H.
    destruct H as [H|(s & _ & H)]; [|apply IH in H; destruct H as [H|(H & x & Hx & E)]; [auto|right; split; auto; exists x; split; auto; now right]].
    unfold proc_step in H. destruct (fst a) as [|b r] eqn:Ea.
    - right. injection H as <-. split; auto. exists a. split; auto. now left.
    - left. destruct (ins b VALENCES); [destruct r; [destruct (p_actor _ st)|]; try discriminate H; now injection H as <-|].
      destruct (ins b ACTANTS); [|now injection H as <-]. destruct (List.length _) as [|[|]]; try discriminate; now injection H as <-.
  Qed.
  Lemma from_list_err (l : list entry) e : from_list l = Err e -> expected e.
  Proof.
    unfold from_list. destruct l as [|e0 l0]; [intros [= <-]; now left|]. set (l := e0 :: l0) in *. intros H. apply bind_err in H. destruct H as [H|(rs & _ & H)].
    { apply mapM_err in H. destruct H as (x & _ & H). unfold head_of in H. destruct (fst x); [injection H as <-; now right|discriminate]. }
    assert (Sc : short (fuel_for l) (children_of l)).
    { pose proof (short_fuel l) as S. unfold children_of, SfunProofs.short in *. rewrite Forall_forall in *.
      intros a He. apply in_map_iff in He. destruct He as ([r x] & <- & He). apply S in He. cbn [fst] in *. destruct r; cbn [tl List.length] in *; lia. }
    destruct (List.length (filter (fun a => ins a VALENCES) rs)) as [|[|]]; [| |injection H as <-; now left].
    - destruct (dedup String.eqb rs) as [|r [|]]; try (injection H as <-; now left). destruct (String.eqb r DEPENDANT_QUALITY).
      + apply bind_err in H. destruct H as [H|(? & _ & H)]; [|discriminate]. apply (from_err _ KD) in H; auto. unfold fuel_for. lia.
      + destruct (String.eqb r INDEPENDANT_QUALITY); [|injection H as <-; now left].
        apply bind_err in H. destruct H as [H|(? & _ & H)]; [|discriminate]. apply (from_err _ KI) in H; auto. unfold fuel_for. lia.
    - apply bind_err in H. destruct H as [H|(? & _ & H)]; [|discriminate]. unfold proc_from in H. apply bind_err in H. destruct H as [H|(st & Es & H)].
      { apply proc_scan_err in H. unfold expected. tauto. }
      apply bind_err in H. destruct H as [H|(acts & _ & H)]; [|destruct (p_valence _ st); [discriminate|injection H as <-; now left]].
      apply mapM_err in H. destruct H as ([r es] & Hr & H). cbn [fst snd] in H. apply bind_err in H. destruct H as [H|(? & _ & H)]; [|discriminate].
      destruct (proc_scan_inv _ _ _ _ Es (pinv_nil X) Logic.I) as (_ & _ & _ & Q).
      assert (S' : Forall (fun p => short (fuel_for l) (snd p)) (p_actants _ st)).
      { apply Q; [|constructor]. eapply Forall_impl; [|apply (short_fuel l)]. cbn beta. intros. lia. }
      rewrite Forall_forall in S'. apply S' in Hr. cbn [snd] in Hr. apply (from_err _ KD) in H; auto. unfold fuel_for. lia.
  Qed.

  (** *** Without junctions *)
  Definition junction_free (l : list entry) : Prop := forall e s, In e l -> In s (fst e) -> ~ In s JUNCTION_SCRIPTS.
  Definition clash (a b : role) : Prop := exists p q, a = (p ++ [INDEPENDANT_QUALITY])%list /\ b = (p ++ INDEPENDANT_QUALITY :: q)%list.
  Definition no_clash (l : list entry) : Prop := ForallOrdPairs (fun e e' => ~ clash (fst e) (fst e') /\ ~ clash (fst e') (fst e)) l.
  Lemma FOP_filter {A} (R : A -> A -> Prop) p l : ForallOrdPairs R l -> ForallOrdPairs R (filter p l).
  Proof.
    induction 1 as [|a l Ha F IH]; cbn; [constructor|]. destruct (p a); auto. constructor; auto.
    rewrite Forall_forall in *. intros x Hx. apply filter_In in Hx. now apply Ha.
  Qed.
  Lemma FOP_map_in {A B} (f : A -> B) (R : A -> A -> Prop) (S : B -> B -> Prop) l : (forall a b, In a l -> In b l -> R a b -> S (f a) (f b)) ->
    ForallOrdPairs R l -> ForallOrdPairs S (map f l).
  Proof.
    intros H F. induction F as [|a l Ha F IH]; cbn; [constructor|]. constructor.
    - rewrite Forall_forall in *. intros y Hy. apply in_map_iff in Hy. destruct Hy as (x & <- & Hx). apply H; [now left|now right|auto].
    - apply IH. intros; apply H; auto; now right.
  Qed.
  Definition below (a : string) (l : list entry) : list entry := map tailed (filter (heads a) l).
  Lemma heads_inv a (e : entry) : heads a e = true -> fst e = a :: fst (tailed e).
  Proof. unfold SfunProofs.heads, SfunProofs.tailed. destruct (fst e) as [|b r] eqn:E; [discriminate|]. cbn. intros H. apply String.eqb_eq in H. now subst. Qed.
  Lemma below_free a l : junction_free l -> junction_free (below a l).
  Proof.
    intros H e s He Hs. apply in_map_iff in He. destruct He as (e0 & <- & He). apply filter_In in He. destruct He as [He Hh].
    apply heads_inv in Hh. apply (H e0 s He). rewrite Hh. now right.
  Qed.
  Lemma below_clash a l : no_clash l -> no_clash (below a l).
  Proof.
    intros H. unfold no_clash, below. apply (FOP_map_in tailed _ _ _) with (2 := FOP_filter _ (heads a) _ H).
    intros e e' He He'. apply filter_In in He, He'. destruct He as [_ He], He' as [_ He']. apply heads_inv in He, He'. rewrite He, He'.
    assert (Q : forall u v, clash u v -> clash (a :: u) (a :: v)) by (intros u v (p & q & -> & ->); exists (a :: p), q; auto).
    intros [H1 H2]. split; intros C; apply Q in C; auto.
  Qed.
  Lemma below_indep l : no_clash l -> ForallOrdPairs (fun e e' => fst e <> [] /\ fst e' <> []) (below INDEPENDANT_QUALITY l).
  Proof.
    intros H. unfold below. apply (FOP_map_in tailed _ _ _) with (2 := FOP_filter _ (heads INDEPENDANT_QUALITY) _ H).
    intros e e' He He'. apply filter_In in He, He'. destruct He as [_ He], He' as [_ He']. apply heads_inv in He, He'. rewrite He, He'.
    intros [H1 H2]. split; intros E.
    - apply H1. exists [], (fst (tailed e')). split; [cbn [app]; f_equal; exact E|reflexivity].
    - apply H2. exists [], (fst (tailed e)). split; [cbn [app]; f_equal; exact E|reflexivity].
  Qed.
  Lemma no_bare_two l : ForallOrdPairs (fun e e' : entry => fst e <> [] /\ fst e' <> []) l -> 2 <= List.length l -> forall e, In e l -> fst e <> [].
  Proof.
    intros H L. destruct l as [|a [|b l]]; cbn in L; try lia. inversion H as [|? ? Ha F]; subst. rewrite Forall_forall in Ha.
    intros e [<-|He]; [apply (Ha b); now left|]. now apply (Ha e).
  Qed.
  Lemma mapM_head (l : list entry) : (forall e, In e l -> fst e <> []) -> exists hs, mapM head_of l = Ok hs /\ (forall h, In h hs -> exists e, In e l /\ In h (fst e)).
  Proof.
    induction l as [|e l IH]; intros H; [exists []; split; [reflexivity|intros ? []]|].
    destruct IH as (hs & E & Hh); [intros; apply H; now right|]. destruct (fst e) as [|a r] eqn:Ee; [now elim (H e (or_introl eq_refl))|].
    exists (a :: hs). split.
    - cbn. unfold head_of at 1. rewrite Ee. cbn. fold (mapM (@head_of X)). now rewrite E.
    - intros h [<-|Hi]; [exists e; rewrite Ee; split; now left|]. destruct (Hh _ Hi) as (e' & ? & ?). exists e'. split; auto. now right.
  Qed.
  Lemma indep_err_free n l e : junction_free l -> ForallOrdPairs (fun e e' => fst e <> [] /\ fst e' <> []) l ->
    indep_from (S n) l = Err e -> e = ValueError.
  Proof.
    intros J F H.
    assert (Q : (forall e, In e l -> fst e <> []) -> e = ValueError).
    { intros Nb. rewrite indep_from_junction in H by auto. unfold junction_parts in H.
      destruct (mapM_head l Nb) as (hs & E & Hh). rewrite E in H. cbn [bind] in H.
      rewrite filter_false in H; [now injection H as <-|]. intros x Hx. apply dedup_in in Hx. destruct (Hh _ Hx) as (e' & He & Hi). apply ins_out. eapply J; eauto. }
    destruct l as [|[[|a r] x] [|e' l]].
    - apply Q. intros ? [].
    - discriminate H.
    - apply Q, no_bare_two; [auto|cbn; lia].
    - apply Q. intros e0 [<-|[]]. discriminate.
    - apply Q, no_bare_two; [auto|cbn; lia].
  Qed.
  Lemma dep_scan_free l : forall (st st' : dep_state X), dep_scan st l = Ok st' -> junction_free l ->
    d_jun _ st' = d_jun _ st /\ (d_jun _ st = false -> d_dep _ st' = d_dep _ st ++ below DEPENDANT_QUALITY l /\ d_indep _ st' = d_indep _ st ++ below INDEPENDANT_QUALITY l)%list.
  Proof.
    induction l as [|e l IH]; intros st st' H J; cbn [dep_scan] in H.
    - injection H as <-. split; auto. intros _. cbn. now rewrite !app_nil_r.
    - run H as s1 E1. assert (J' : junction_free l) by (intros a s Ha; apply J; now right). destruct (IH _ _ H J') as [I1 I2]. clear IH.
      destruct e as [[|b r] x]; unfold dep_step in E1; cbn [fst snd] in E1.
      + destruct (d_actor _ st); [discriminate|]. injection E1 as <-. cbn in I1, I2. auto.
      + rewrite (proj2 (ins_out b JUNCTION_SCRIPTS)) in E1 by (apply (J (b :: r, x) b); now left). destruct (d_jun _ st) eqn:Ej; [discriminate|].
        destruct (String.eqb_spec b INDEPENDANT_QUALITY) as [->|Hb]; [|destruct (String.eqb_spec b DEPENDANT_QUALITY) as [->|]; [|discriminate]]; injection E1 as <-; cbn [d_jun d_dep d_indep] in *;
          split; auto; intros _; destruct (I2 eq_refl) as [-> ->]; rewrite <- !app_assoc; split; reflexivity.
  Qed.
  Lemma dep_err_free n : forall l e, short n l -> junction_free l -> no_clash l -> 0 < n -> dep_from n l = Err e -> e = ValueError.
  Proof.
    induction n as [|n IH]; intros l e S J C N H; [lia|]. cbn [dep_from] in H. apply bind_err in H. destruct H as [H|(st & Es & H)]; [now apply dep_scan_err in H|].
    destruct (dep_scan_short l n _ _ Es S) as [Sd Si]; [constructor|constructor|].
    destruct (dep_scan_free _ _ _ Es J) as [Ej Q]. cbn [dep_init d_jun] in Ej. rewrite Ej in H. destruct (Q eq_refl) as [Ed Ei]. cbn [dep_init d_dep d_indep app] in Ed, Ei.
    apply bind_err in H. destruct H as [H|(d & _ & H)].
    - unfold opt_from in H. destruct (d_dep _ st) as [|a m] eqn:E0; [discriminate|]. apply bind_err in H. destruct H as [H|(g & _ & H)]; [|discriminate].
      apply IH in H; auto.
      + rewrite Ed. now apply below_free.
      + rewrite Ed. now apply below_clash.
      + unfold SfunProofs.short in Sd. apply Forall_cons_iff in Sd. destruct Sd. lia.
    - apply bind_err in H. destruct H as [H|(i & _ & H)]; [|discriminate].
      unfold opt_from in H. destruct (d_indep _ st) as [|a m] eqn:E0; [discriminate|]. apply bind_err in H. destruct H as [H|(g & _ & H)]; [|discriminate].
      unfold SfunProofs.short in Si. destruct n as [|n]; [apply Forall_cons_iff in Si; destruct Si; lia|].
      apply indep_err_free in H; auto; rewrite Ei; [now apply below_free|now apply below_indep].
  Qed.
  Lemma proc_scan_groups l : forall (st st' : proc_state X), proc_scan st l = Ok st' ->
    forall r, group_at X r (p_actants _ st') = (group_at X r (p_actants _ st) ++ if ins r ACTANTS then below r l else [])%list.
  Proof.
    induction l as [|e l IH]; intros st st' H r; cbn [proc_scan] in H.
    - injection H as <-. unfold below. cbn [filter map]. destruct (ins r ACTANTS); now rewrite app_nil_r.
    - run H as s1 E1. rewrite (IH _ _ H). clear IH H. destruct e as [[|b t] x]; unfold proc_step in E1; cbn [fst snd] in E1; [discriminate|].
      unfold below. cbn [filter]. destruct (ins b VALENCES) eqn:Eb.
      + destruct t; [|discriminate]. destruct (p_actor _ st); [discriminate|]. injection E1 as <-. cbn [p_actants]. f_equal. destruct (ins r ACTANTS) eqn:Er; [|reflexivity].
        unfold SfunProofs.heads at 2. cbn [fst]. destruct (String.eqb_spec b r) as [->|]; [|reflexivity]. apply ins_In in Er. apply actant_not_valence in Er. congruence.
      + destruct (ins b ACTANTS) eqn:Eb'; [|discriminate]. destruct (List.length _) as [|[|]]; try discriminate. injection E1 as <-. cbn [p_actants]. rewrite add_actant_group, <- app_assoc. f_equal.
        unfold SfunProofs.heads at 2. cbn [fst]. rewrite (String.eqb_sym b r). destruct (String.eqb_spec r b) as [->|]; [|reflexivity]. rewrite Eb'. reflexivity.
  Qed.
  Lemma from_list_err_free (l : list entry) e : junction_free l -> no_clash l -> (forall a, In a l -> fst a <> []) -> from_list l = Err e -> e = ValueError.
  Proof.
    intros J C N. unfold from_list. destruct l as [|e0 l0]; [now intros [= <-]|]. set (l := e0 :: l0) in *. intros H.
    destruct (mapM_head l N) as (rs & Er & Hrs). rewrite Er in H. cbn [bind] in H.
    assert (Sc : short (fuel_for l) (children_of l)).
    { pose proof (short_fuel l) as S. unfold children_of, SfunProofs.short in *. rewrite Forall_forall in *.
      intros a He. apply in_map_iff in He. destruct He as ([r x] & <- & He). apply S in He. cbn [fst] in *. destruct r; cbn [tl List.length] in *; lia. }
    destruct (List.length (filter (fun a => ins a VALENCES) rs)) as [|[|]] eqn:Ev; [| |now injection H as <-].
    - destruct (dedup String.eqb rs) as [|r [|]] eqn:Ed; try (now injection H as <-).
      assert (Hh : forall a, In a l -> heads r a = true).
      { intros a Ha. assert (Hr : exists h, In h rs /\ heads h a = true).
        { apply mapM_inv in Er. clear -Er Ha. induction Er as [|b h m hs E F IH]; [destruct Ha|]. destruct Ha as [->|Ha].
          - exists h. split; [now left|]. unfold head_of in E. unfold SfunProofs.heads. destruct (fst a); [discriminate|]. injection E as ->. apply String.eqb_refl.
          - destruct (IH Ha) as (h' & ? & ?). exists h'. split; auto. now right. }
        destruct Hr as (h & Hi & E). pose proof (proj2 (dedup_nodup_str rs) h) as Q. rewrite Ed in Q. apply Q in Hi. destruct Hi as [->|[]]. exact E. }
      assert (Eb : children_of l = below r l) by (unfold below; now rewrite filter_true).
      destruct (String.eqb r DEPENDANT_QUALITY).
      + apply bind_err in H. destruct H as [H|(? & _ & H)]; [|discriminate]. apply dep_err_free in H; auto.
        * rewrite Eb. now apply below_free. * rewrite Eb. now apply below_clash. * unfold fuel_for. lia.
      + destruct (String.eqb_spec r INDEPENDANT_QUALITY) as [->|]; [|now injection H as <-].
        apply bind_err in H. destruct H as [H|(? & _ & H)]; [|discriminate]. apply indep_err_free in H; auto.
        * rewrite Eb. now apply below_free. * rewrite Eb. now apply below_indep.
    - apply bind_err in H. destruct H as [H|(? & _ & H)]; [|discriminate]. unfold proc_from in H. apply bind_err in H. destruct H as [H|(st & Es & H)].
      { apply proc_scan_err in H. destruct H as [H|(_ & x & Hx & E)]; [auto|]. now elim (N x Hx). }
      apply bind_err in H. destruct H as [H|(acts & _ & H)]; [|destruct (p_valence _ st); [discriminate|now injection H as <-]].
      apply mapM_err in H. destruct H as ([r es] & Hr & H). cbn [fst snd] in H. apply bind_err in H. destruct H as [H|(? & _ & H)]; [|discriminate].
      destruct (proc_scan_inv _ _ _ _ Es (pinv_nil X) Logic.I) as (I & _ & _ & Q).
      assert (S' : Forall (fun p => short (fuel_for l) (snd p)) (p_actants _ st)).
      { apply Q; [|constructor]. eapply Forall_impl; [|apply (short_fuel l)]. cbn beta. intros. lia. }
      assert (Ha : In r ACTANTS) by (destruct I as [_ I]; rewrite Forall_forall in I; apply (I _ Hr)).
      rewrite Forall_forall in S'. pose proof (S' _ Hr) as S1. cbn [snd] in S1. apply (pinv_group _ _ _ _ I) in Hr. destruct Hr as [-> _].
      rewrite (proc_scan_groups _ _ _ Es r), (proj2 (ins_In _ _) Ha) in *. cbn [group_at proc_init p_actants app] in *.
      apply dep_err_free in H; auto. * now apply below_free. * now apply below_clash. * unfold fuel_for. lia.
  Qed.
End Facts.
