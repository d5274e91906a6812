(** The whole factorisation: words, outcome, packing. *)
From Coq Require Import List String Bool NArith Arith Lia Permutation.
From Verif Require Import Base Script ScriptParser SortProofs ScriptWf ScriptStrProofs ScriptOrderProofs ScriptSpec ScriptCtorProofs ScriptSeqProofs ScriptMoreProofs ScriptAlgProofs ScriptEqProofs ScriptErrProofs TablesProofs Factor FactorBoxProofs FactorProofs.
Import ListNotations.

Lemma flat_map_FScript l : flat_map fwords (map FScript l) = map wordof l.
Proof. induction l; cbn [map flat_map fwords app]; auto. now rewrite IHl. Qed.
Lemma shaped_FScript n l : Forall (sing n) l -> all_shaped (map FScript l) n.
Proof. intros F. apply all_shaped_Forall, Forall_map. exact F. Qed.

Lemma all_shaped_cons f fs n : shaped f n -> all_shaped fs n -> all_shaped (f :: fs) n.
Proof. split; auto. Qed.

Lemma word_dec (u v : word) : {u = v} + {u <> v}.
Proof. decide equality. decide equality. decide equality. Qed.

Section So.
  Variable so : list script -> list script.
  Hypothesis SO : set_order so.

  Definition after (sub : list script -> res (list fact)) (fuel : nat) (seqs p0 p1 p2 : list script) (cs : list coord) : res (list fact) :=
    let scripts := places (combine cs seqs) in
    do facto <- choose (relations (map fst scripts));
    do done <- mapM (fun f => get f scripts) facto;
    let remaining := isort (so (filter (fun s => negb (memb script_eqb s done)) (dedup script_eqb seqs))) in
    do a <- sub (side so c0 p0 facto); do b <- sub (side so c1 p1 facto); do c <- sub (side so c2 p2 facto);
    match remaining with
    | [] => Ok [FTuple a b c]
    | _ => do l <- factor_with so sub fuel remaining; Ok (FTuple a b c :: l)
    end.

  Lemma factor_step sub fuel n seqs : Forall (sing (S n)) seqs -> 2 <= List.length seqs ->
    exists p0 p1 p2 cs, placed n seqs p0 p1 p2 cs /\ factor_with so sub (S fuel) seqs = after sub fuel seqs p0 p1 p2 cs.
  Proof.
    intros F L. destruct (step_places so SO n seqs F) as (parts & E & _ & X); [intros ->; simpl in L; lia|]. cbv zeta in X. destruct X as (cs & Ec & P).
    exists (axis so (map part0 parts)), (axis so (map part1 parts)), (axis so (map part2 parts)), cs. split; auto.
    destruct seqs as [|s [|t r]]; [simpl in L; lia|simpl in L; lia|]. cbn [factor_with].
    assert (Ls : Nat.eqb (layer s) 0 = false) by (apply Forall_cons_iff in F; destruct F as [(_ & _ & ->) _]; reflexivity). rewrite Ls, E. cbn [bind]. rewrite Ec. reflexivity.
  Qed.
  Lemma factor_one sub fuel n s : sing n s -> factor_with so sub fuel [s] = Ok [FScript s].
  Proof. intros S. destruct fuel; cbn [factor_with]; destruct (Nat.eqb (layer s) 0); reflexivity. Qed.
  Lemma factor_zero sub fuel seqs : Forall (sing 0) seqs -> seqs <> [] -> factor_with so sub fuel seqs = Ok (map FScript seqs).
  Proof. intros F N. destruct seqs as [|s r]; [easy|]. apply Forall_cons_iff in F. destruct F as [(_ & _ & L) _]. destruct fuel; cbn [factor_with]; rewrite L; reflexivity. Qed.
  Lemma factored_scripts n seqs : Forall (sing n) seqs -> seqs <> [] -> NoDup (map wordof seqs) -> factored n seqs (map FScript seqs).
  Proof.
    intros F N D. split; [destruct seqs; [easy|discriminate]|]. split; [apply shaped_FScript; auto|]. rewrite flat_map_FScript. split; auto. tauto.
  Qed.

  Section Sub.
    Variable sub : list script -> res (list fact).
    Variable n : nat.
    Hypothesis Sub : forall l fs, Forall (sing n) l -> l <> [] -> NoDup (map wordof l) -> sub l = Ok fs -> factored n l fs.

    Lemma factor_with_ok fuel : forall seqs fs, Forall (sing (S n)) seqs -> seqs <> [] -> factor_with so sub fuel seqs = Ok fs -> factored (S n) seqs fs.
    Proof.
      induction fuel as [|fuel IH]; intros seqs fs F NE E.
      - destruct seqs as [|s [|t r]]; [easy| |].
        + rewrite (factor_one _ _ (S n)) in E by (apply Forall_cons_iff in F; tauto). injection E as <-. apply (factored_scripts (S n) [s]); auto. repeat constructor; simpl; auto.
        + cbn [factor_with] in E. apply Forall_cons_iff in F. destruct F as [(_ & _ & L) _]. rewrite L in E. discriminate.
      - destruct seqs as [|s [|t r]] eqn:Es; [easy| |].
        { rewrite (factor_one _ _ (S n)) in E by (apply Forall_cons_iff in F; tauto). injection E as <-. apply (factored_scripts (S n) [s]); auto. repeat constructor; simpl; auto. }
        rewrite <- Es in *. assert (L2 : 2 <= List.length seqs) by (rewrite Es; simpl; lia). clear s t r Es.
        destruct (factor_step sub fuel n seqs F L2) as (p0 & p1 & p2 & cs & P & X). rewrite X in E. clear X. unfold after in E.
        set (keys := map fst (places (combine cs seqs))) in *. pose proof (keys_nodup seqs cs) as Nk. fold keys in Nk.
        destruct (choose (relations keys)) as [facto|] eqn:Ef; [|discriminate]. cbn [bind] in E.
        destruct (choose_ok keys facto Nk Ef) as (Nf & Nd & If & Bx).
        destruct (done_ok n seqs p0 p1 p2 cs F P facto If) as (done & Ed & Fd & Wd). rewrite Ed in E. cbn [bind] in E.
        pose proof (remaining_ok so SO n seqs p0 p1 p2 cs F P facto If done Fd Wd Nf) as R. cbv zeta in R. set (rem := isort _) in *. destruct R as (Fr & Nr & Lr & Wr).
        assert (In0 : forall f, In f facto -> inside p0 p1 p2 f) by (intros f Hf; apply (keys_inside n seqs p0 p1 p2 cs P f (If f Hf))).
        pose proof (pl_low _ _ _ _ _ _ P) as Low. pose proof (pl0 _ _ _ _ _ _ P) as P0. pose proof (pl1 _ _ _ _ _ _ P) as P1. pose proof (pl2 _ _ _ _ _ _ P) as P2.
        pose proof (side_ok so SO n seqs cs facto If c0 p0 P0 (fun f Hf => proj1 (In0 f Hf)) Nf) as S0. cbv zeta in S0.
        pose proof (side_ok so SO n seqs cs facto If c1 p1 P1 (fun f Hf => proj1 (proj2 (In0 f Hf))) Nf) as S1. cbv zeta in S1.
        pose proof (side_ok so SO n seqs cs facto If c2 p2 P2 (fun f Hf => proj2 (proj2 (In0 f Hf))) Nf) as S2. cbv zeta in S2.
        set (s0 := side so c0 p0 facto) in *. set (s1 := side so c1 p1 facto) in *. set (s2 := side so c2 p2 facto) in *.
        destruct S0 as (F0 & N0 & NE0 & W0), S1 as (F1 & N1 & NE1 & W1), S2 as (F2 & N2 & NE2 & W2).
        destruct (sub s0) as [a|] eqn:Ea; [|discriminate]. cbn [bind] in E. destruct (sub s1) as [b|] eqn:Eb; [|discriminate]. cbn [bind] in E.
        destruct (sub s2) as [c|] eqn:Ec; [|discriminate]. cbn [bind] in E.
        destruct (Sub _ _ F0 NE0 N0 Ea) as (Na & Sa & Da & Wa). destruct (Sub _ _ F1 NE1 N1 Eb) as (Nb & Sb & Db & Wb). destruct (Sub _ _ F2 NE2 N2 Ec) as (Nc & Sc & Dc & Wc).
        assert (NEw : forall l fs, l <> [] -> (forall w, In w (flat_map fwords fs) <-> In w (map wordof l)) -> flat_map fwords fs <> []).
        { intros l f Hl W Hf. destruct l as [|x l]; [easy|]. rewrite Hf in W. apply (W (wordof x)). simpl. auto. }
        pose proof (NEw s0 a NE0 Wa) as NWa. pose proof (NEw s1 b NE1 Wb) as NWb. pose proof (NEw s2 c NE2 Wc) as NWc.
        destruct (product_box n seqs p0 p1 p2 cs P facto If Bx (flat_map fwords a) (flat_map fwords b) (flat_map fwords c)) as (Np & Wp);
          try (intros w; rewrite ?Wa, ?Wb, ?Wc; auto; fail); auto.
        assert (T : shaped (FTuple a b c) (S n)) by (cbn [shaped]; unfold all_shaped in *; auto 10).
        assert (Wf : forall w, (exists f, In f facto /\ w = at_place p0 p1 p2 f) -> In w (map wordof seqs)).
        { intros w (f & Hf & ->). destruct (keys_inside n seqs p0 p1 p2 cs P f (If f Hf)) as (_ & s & Hs & <-). apply in_map. auto. }
        destruct rem as [|x rem'] eqn:Er.
        + injection E as <-. split; [discriminate|]. split; [apply all_shaped_cons; [auto|exact Logic.I]|]. cbn [flat_map fwords]. rewrite app_nil_r. split; auto. intros w. rewrite Wp. split; auto.
          intros Hw. destruct (in_dec word_dec w (map wordof done)) as [Y|Y]; [apply Wd; auto|].
          elim (proj2 (Wr w)). rewrite <- Wd. auto.
        + destruct (factor_with so sub fuel (x :: rem')) as [l|] eqn:El; [|discriminate]. cbn [bind] in E. injection E as <-.
          destruct (IH _ _ Fr ltac:(discriminate) El) as (_ & Sl & Dl & Wl). split; [discriminate|]. split; [apply all_shaped_cons; auto|]. cbn [flat_map fwords]. split.
          * apply NoDup_app_iff. split; auto. split; auto. intros w H1 H2. rewrite Wp in H1. rewrite Wl, Wr in H2. tauto.
          * intros w. rewrite in_app_iff, Wp, Wl, Wr. split; [intros [H|H]; [auto|tauto]|]. intros Hw.
            destruct (in_dec word_dec w (map wordof done)) as [Y|Y]; [left; apply Wd; auto|].
            right. split; auto. rewrite <- Wd. auto.
    Qed.
  End Sub.

  Lemma factor_at_ok n : forall depth seqs fs, n <= depth -> Forall (sing n) seqs -> seqs <> [] -> (n = 0 -> NoDup (map wordof seqs)) ->
    factor_at so depth seqs = Ok fs -> factored n seqs fs.
  Proof.
    induction n as [|n IH]; intros depth seqs fs Ld F NE D E.
    - assert (X : factor_at so depth seqs = Ok (map FScript seqs)) by (destruct depth; cbn [factor_at]; apply factor_zero; auto).
      rewrite X in E. injection E as <-. apply factored_scripts; auto.
    - destruct depth as [|depth]; [lia|]. cbn [factor_at] in E. eapply factor_with_ok; [|exact F|exact NE|exact E]. intros l fs' Fl Nl Dl El. apply (IH depth); auto. lia.
  Qed.

  (** * Outcome *)
  Section Sub2.
    Variable sub : list script -> res (list fact).
    Variable n : nat.
    Hypothesis Sub : forall l e, Forall (sing n) l -> l <> [] -> sub l = Err e -> e = KeyError.
    Lemma factor_with_err fuel : forall seqs e, Forall (sing (S n)) seqs -> seqs <> [] -> List.length seqs <= fuel -> factor_with so sub fuel seqs = Err e -> e = KeyError.
    Proof.
      induction fuel as [|fuel IH]; intros seqs e F NE Lf E; [destruct seqs; [easy|simpl in Lf; lia]|].
      destruct seqs as [|s [|t r]] eqn:Es; [easy| |].
      { rewrite (factor_one _ _ (S n)) in E by (apply Forall_cons_iff in F; tauto). discriminate. }
      rewrite <- Es in *. assert (L2 : 2 <= List.length seqs) by (rewrite Es; simpl; lia). clear s t r Es.
      destruct (factor_step sub fuel n seqs F L2) as (p0 & p1 & p2 & cs & P & X). rewrite X in E. clear X. unfold after in E.
      set (keys := map fst (places (combine cs seqs))) in *. pose proof (keys_nodup seqs cs) as Nk. fold keys in Nk.
      assert (Kn : keys <> []).
      { destruct seqs as [|s r]; [simpl in L2; lia|]. destruct (seqs_keys n (s :: r) p0 p1 p2 cs P s (or_introl eq_refl)) as (k & Hk & _). fold keys in Hk. intros Y. rewrite Y in Hk. easy. }
      destruct (choose (relations keys)) as [facto|e'] eqn:Ef; cbn [bind] in E; [|apply choose_err in Ef; auto; congruence].
      destruct (choose_ok keys facto Nk Ef) as (Nf & Nd & If & Bx).
      destruct (done_ok n seqs p0 p1 p2 cs F P facto If) as (done & Ed & Fd & Wd). rewrite Ed in E. cbn [bind] in E.
      pose proof (remaining_ok so SO n seqs p0 p1 p2 cs F P facto If done Fd Wd Nf) as R. cbv zeta in R. set (rem := isort _) in *. destruct R as (Fr & Nr & Lr & Wr).
      assert (In0 : forall f, In f facto -> inside p0 p1 p2 f) by (intros f Hf; apply (keys_inside n seqs p0 p1 p2 cs P f (If f Hf))).
      pose proof (pl_low _ _ _ _ _ _ P) as Low. pose proof (pl0 _ _ _ _ _ _ P) as P0. pose proof (pl1 _ _ _ _ _ _ P) as P1. pose proof (pl2 _ _ _ _ _ _ P) as P2.
      destruct (side_ok so SO n seqs cs facto If c0 p0 P0 (fun f Hf => proj1 (In0 f Hf)) Nf) as (F0 & _ & NE0 & _).
      destruct (side_ok so SO n seqs cs facto If c1 p1 P1 (fun f Hf => proj1 (proj2 (In0 f Hf))) Nf) as (F1 & _ & NE1 & _).
      destruct (side_ok so SO n seqs cs facto If c2 p2 P2 (fun f Hf => proj2 (proj2 (In0 f Hf))) Nf) as (F2 & _ & NE2 & _).
      destruct (sub (side so c0 p0 facto)) as [a|] eqn:Ea; cbn [bind] in E; [|injection E as ->; exact (Sub _ _ F0 NE0 Ea)].
      destruct (sub (side so c1 p1 facto)) as [b|] eqn:Eb; cbn [bind] in E; [|injection E as ->; exact (Sub _ _ F1 NE1 Eb)].
      destruct (sub (side so c2 p2 facto)) as [c|] eqn:Ec; cbn [bind] in E; [|injection E as ->; exact (Sub _ _ F2 NE2 Ec)].
      destruct rem as [|x rem'] eqn:Er; [discriminate|].
      destruct (factor_with so sub fuel (x :: rem')) as [l|e'] eqn:El; cbn [bind] in E; [discriminate|]. injection E as ->. apply (IH (x :: rem') e); auto; [discriminate|lia].
    Qed.
  End Sub2.
  Lemma factor_at_err n : forall depth seqs e, n <= depth -> Forall (sing n) seqs -> seqs <> [] -> factor_at so depth seqs = Err e -> e = KeyError.
  Proof.
    induction n as [|n IH]; intros depth seqs e Ld F NE E.
    - assert (X : factor_at so depth seqs = Ok (map FScript seqs)) by (destruct depth; cbn [factor_at]; apply factor_zero; auto). congruence.
    - destruct depth as [|depth]; [lia|]. cbn [factor_at] in E. eapply factor_with_err; [|exact F|exact NE| |exact E]; [|lia]. intros l e' Fl Nl El. eapply IH; [|exact Fl|exact Nl|exact El]. lia.
  Qed.

  (** * Packing *)
  Definition sum_of (l : list script) : res script := match l with [x] => Ok x | _ => mk_add so l end.

  Lemma flatten_plain cs : (forall c, In c cs -> is_add c = false) -> flatten cs = dedup script_eqb cs.
  Proof.
    intros H. unfold flatten. assert (X : filter is_add cs = []). { clear -H. induction cs as [|c cs IH]; auto. cbn [filter]. rewrite H by (simpl; auto). apply IH. intros; apply H; simpl; auto. }
    assert (Y : flat_map add_children cs = []). { clear -H. induction cs as [|c cs IH]; auto. cbn [flat_map]. rewrite IH by (intros; apply H; simpl; auto). specialize (H c (or_introl eq_refl)). destruct c; auto; discriminate. }
    rewrite X, Y, app_nil_r. f_equal. clear. induction cs; [reflexivity|]. change (a :: filter (fun c => negb (memb script_eqb c [])) cs = a :: cs). now rewrite IHcs.
  Qed.
  Lemma dedup_aux_id seen l : ForallOrdPairs (fun x y => script_eqb x y = false) l -> (forall x, In x l -> memb script_eqb x seen = false) -> dedup_aux script_eqb seen l = l.
  Proof.
    intros D. revert seen. induction D as [|x l Hx D IH]; intros seen H; cbn [dedup_aux]; auto. rewrite H by (simpl; auto). f_equal. apply IH.
    intros y Hy. cbn [memb existsb]. rewrite Forall_forall in Hx. unfold script_eqb in *. rewrite String.eqb_sym, Hx by auto. apply H. simpl. auto.
  Qed.
  Lemma same_text_words a b : nf a -> nf b -> script_eqb a b = true -> forall w, In w (words a) <-> In w (words b).
  Proof.
    intros Na Nb E w. rewrite !words_means. apply String.eqb_eq in E. apply (eq_attributes a b); auto using nf_wf.
  Qed.
  Lemma sum_cardinal l : (forall c, In c l -> wf c) -> sumN (map cardinal l) = N.of_nat (List.length (flat_map words l)).
  Proof.
    induction l as [|c l IH]; intros W; [reflexivity|]. cbn [map sumN fold_right flat_map]. unfold sumN in IH. rewrite IH by (intros; apply W; simpl; auto).
    rewrite app_length, <- (length_words c) by (apply W; simpl; auto). lia.
  Qed.

  Lemma sum_spec n l : l <> [] -> (forall c, In c l -> wf c /\ is_add c = false /\ layer c = n) -> NoDup (flat_map words l) ->
    match sum_of l with
    | Ok r => wf r /\ layer r = n /\ (forall x, r <> Add [x]) /\ Permutation (words r) (flat_map words l)
    | Err e => e = TooManySingularSequences /\ (MAX_SINGULAR_SEQUENCES < N.of_nat (List.length (flat_map words l)))%N
    end.
  Proof.
    intros NE H D. destruct l as [|x [|y l]]; [easy| |].
    - destruct (H x (or_introl eq_refl)) as (W & A & L). cbn [sum_of flat_map]. rewrite app_nil_r. repeat split; auto. intros z ->. discriminate.
    - set (cs := x :: y :: l) in *. cbn [sum_of]. change (sum_of cs) with (mk_add so cs).
      assert (Nf : Forall nf cs) by (apply Forall_forall; intros c Hc; apply nf_notadd; apply H; auto).
      assert (Dd : ForallOrdPairs (fun x y => script_eqb x y = false) cs).
      { clearbody cs. clear -D Nf H. induction cs as [|c cs IH]; [constructor|]. cbn [flat_map] in D. apply NoDup_app_iff in D. destruct D as (D1 & D2 & D3).
        apply Forall_cons_iff in Nf. destruct Nf as [Nc Nf]. constructor; [|apply IH; auto; intros; apply H; simpl; auto]. apply Forall_forall. intros d Hd.
        destruct (script_eqb c d) eqn:E; auto. rewrite Forall_forall in Nf. pose proof (same_text_words c d Nc (Nf d Hd) E) as X.
        destruct (words c) as [|w r] eqn:Ew; [elim (words_nonempty c); auto using nf_wf|]. elim (D3 w); [simpl; auto|]. apply in_flat_map. exists d. split; auto. apply X. simpl. auto. }
      assert (Fl : flatten cs = cs) by (rewrite flatten_plain by (intros c Hc; apply H; auto); apply dedup_aux_id; auto).
      assert (W : forall r, mk_add so cs = Ok r -> wf r) by (intros r; apply mk_add_wf; auto; intros c Hc; apply H; auto).
      assert (U : mk_add so cs = if N.ltb MAX_SINGULAR_SEQUENCES (N.of_nat (List.length (flat_map words cs))) then Err TooManySingularSequences else Ok (Add (isort (so cs)))).
      { unfold mk_add. assert (Ef : forallb (fun c => Nat.eqb (layer c) (layer x)) cs = true).
        { apply forallb_forall. intros c Hc. apply Nat.eqb_eq. destruct (H c Hc) as (_ & _ & ->). destruct (H x (or_introl eq_refl)) as (_ & _ & ->). reflexivity. }
        unfold cs in Ef |- *. rewrite Ef. fold cs. rewrite Fl. cbn [negb]. pose proof (SO cs) as Ps.
        assert (Sz : sumN (map cardinal (so cs)) = N.of_nat (List.length (flat_map words cs))).
        { rewrite (sumN_perm _ _ (Permutation_map cardinal Ps)). apply sum_cardinal. intros c Hc. apply H. auto. }
        destruct (so cs) as [|z zs] eqn:Ez; [apply Permutation_nil in Ps; discriminate|]. rewrite Sz. reflexivity. }
      rewrite U in *. destruct (N.ltb MAX_SINGULAR_SEQUENCES (N.of_nat (List.length (flat_map words cs)))) eqn:Lt; [apply N.ltb_lt in Lt; auto|].
      assert (Pi : Permutation (isort (so cs)) cs) by (eapply perm_trans; [apply isort_perm|apply SO]).
      split; auto. split; [|split].
      + destruct (isort (so cs)) as [|c r] eqn:Es; [apply Permutation_nil in Pi; discriminate|]. cbn [layer]. apply (H c). apply (Permutation_in _ Pi). simpl. auto.
      + intros z E. injection E as E. rewrite E in Pi. apply Permutation_length in Pi. discriminate.
      + cbn [words]. apply Permutation_flat_map. auto.
  Qed.

  Fixpoint pack_all (l : list fact) : res (list script) :=
    match l with
    | [] => Ok []
    | f :: l => do x <- pack1 so f; do y <- pack_all l; Ok (x :: y)
    end.
  Lemma pack1_tuple a b c : pack1 so (FTuple a b c) =
    do a <- pack_all a; do a <- sum_of a; do b <- pack_all b; do b <- sum_of b; do c <- pack_all c; do c <- sum_of c; mk_mul_l [a; b; c].
  Proof.
    reflexivity.
  Qed.
  Lemma pack_all_mapM l : pack_all l = mapM (pack1 so) l.
  Proof. induction l; cbn [pack_all mapM]; auto. Qed.

  Definition packs (f : fact) : Prop := forall n, shaped f n -> NoDup (fwords f) ->
    match pack1 so f with
    | Ok r => wf r /\ is_add r = false /\ layer r = n /\ Permutation (words r) (fwords f)
    | Err e => e = TooManySingularSequences /\ (MAX_SINGULAR_SEQUENCES < N.of_nat (List.length (fwords f)))%N
    end.
  Definition pack_sum (fs : list fact) : res script := do l <- pack_all fs; sum_of l.

  Lemma pack_list n fs : Forall packs fs -> fs <> [] -> all_shaped fs n -> NoDup (flat_map fwords fs) ->
    match pack_sum fs with
    | Ok r => wf r /\ layer r = n /\ (forall x, r <> Add [x]) /\ Permutation (words r) (flat_map fwords fs)
    | Err e => e = TooManySingularSequences /\ (MAX_SINGULAR_SEQUENCES < N.of_nat (List.length (flat_map fwords fs)))%N
    end.
  Proof.
    intros Pk NE Sh D.
    assert (X : match pack_all fs with
      | Ok l => (forall c, In c l -> wf c /\ is_add c = false /\ layer c = n) /\ Permutation (flat_map words l) (flat_map fwords fs) /\ (fs <> [] -> l <> [])
      | Err e => e = TooManySingularSequences /\ (MAX_SINGULAR_SEQUENCES < N.of_nat (List.length (flat_map fwords fs)))%N end).
    { clear NE. induction Pk as [|f fs Pf Pk IH]; [repeat split; auto; easy|]. destruct Sh as [Sf Sh]. fold (all_shaped fs n) in Sh.
      cbn [flat_map] in D |- *. apply NoDup_app_iff in D. destruct D as (D1 & D2 & _). rewrite app_length. specialize (Pf n Sf D1). specialize (IH Sh D2).
      cbn [pack_all]. destruct (pack1 so f) as [r|e]; cbn [bind]; [|split; [tauto|lia]]. destruct (pack_all fs) as [l|e]; cbn [bind]; [|split; [tauto|lia]].
      destruct Pf as (W & A & L & Pm), IH as (Hl & Pl & _). split; [intros c [<-|Hc]; auto|]. split; [cbn [flat_map]; apply Permutation_app; auto|discriminate]. }
    unfold pack_sum. destruct (pack_all fs) as [l|e]; cbn [bind]; [|exact X]. destruct X as (Hl & Pl & NEl).
    assert (Dl : NoDup (flat_map words l)) by (eapply Permutation_NoDup; [apply Permutation_sym, Pl|auto]).
    pose proof (sum_spec n l (NEl NE) Hl Dl) as S. rewrite (Permutation_length Pl) in S. destruct (sum_of l) as [r|e]; [|exact S].
    destruct S as (W & L & A & Pm). repeat split; auto. eapply perm_trans; eauto.
  Qed.

  Lemma product3_length_factors {A} (la lb lc : list A) : la <> [] -> lb <> [] -> lc <> [] ->
    List.length la <= List.length (product3 la lb lc) /\ List.length lb <= List.length (product3 la lb lc) /\ List.length lc <= List.length (product3 la lb lc).
  Proof.
    intros Ha Hb Hc. rewrite length_product3. destruct la; [easy|]. destruct lb; [easy|]. destruct lc; [easy|]. cbn [List.length]. nia.
  Qed.

  Lemma NoDup_map_inv' {A B} (f : A -> B) l : NoDup (map f l) -> NoDup l.
  Proof. apply NoDup_map_inv. Qed.
  Lemma product3_NoDup_inv {A} (la lb lc : list A) : la <> [] -> lb <> [] -> lc <> [] -> NoDup (product3 la lb lc) -> NoDup la /\ NoDup lb /\ NoDup lc.
  Proof. intros Ha Hb Hc H. apply NoDup_product3 in H; auto. Qed.

  Lemma fwords_nonempty f : forall n, shaped f n -> fwords f <> [].
  Proof.
    induction f as [s|a b c IHa IHb IHc] using fact_ind'; intros n Sh; [discriminate|]. destruct n as [|n]; [easy|]. cbn [shaped] in Sh. destruct Sh as (_ & Na & Nb & Nc & Sa & Sb & Sc).
    assert (X : forall l, Forall (fun f => forall n, shaped f n -> fwords f <> []) l -> l <> [] -> all_shaped l n -> flat_map fwords l <> []).
    { intros l Fl Nl Sl. destruct l as [|f l]; [easy|]. apply Forall_cons_iff in Fl. destruct Sl as [Sf _]. cbn [flat_map]. intros E. apply app_eq_nil in E. destruct Fl as [Fl _]. now apply (Fl n Sf). }
    cbn [fwords]. intros E. apply map_eq_nil in E. apply (f_equal (@List.length _)) in E. rewrite length_product3 in E.
    pose proof (X a IHa Na Sa). pose proof (X b IHb Nb Sb). pose proof (X c IHc Nc Sc).
    destruct (flat_map fwords a); [easy|]. destruct (flat_map fwords b); [easy|]. destruct (flat_map fwords c); [easy|]. cbn [List.length] in E. nia.
  Qed.
  Lemma flat_nonempty l n : l <> [] -> all_shaped l n -> flat_map fwords l <> [].
  Proof. intros Nl Sl. destruct l as [|f l]; [easy|]. destruct Sl as [Sf _]. cbn [flat_map]. intros E. apply app_eq_nil in E. now apply (fwords_nonempty f n Sf). Qed.

  Lemma pack1_sum a b c : pack1 so (FTuple a b c) = do a <- pack_sum a; do b <- pack_sum b; do c <- pack_sum c; mk_mul_l [a; b; c].
  Proof.
    rewrite pack1_tuple. unfold pack_sum. destruct (pack_all a) as [la|]; cbn [bind]; auto. destruct (sum_of la); cbn [bind]; auto.
    destruct (pack_all b) as [lb|]; cbn [bind]; auto. destruct (sum_of lb); cbn [bind]; auto.
    destruct (pack_all c) as [lc|]; cbn [bind]; auto.
  Qed.
  Lemma pack1_ok f : packs f.
  Proof.
    induction f as [s|a b c IHa IHb IHc] using fact_ind'; intros n Sh D.
    - cbn [shaped fwords pack1] in *. destruct Sh as (Nf & C1 & L). split; [apply nf_wf; auto|]. split; [apply nf_singular_notadd; auto|]. split; auto.
      rewrite words_single by auto using nf_wf. auto.
    - destruct n as [|n]; [easy|]. cbn [shaped] in Sh. destruct Sh as (Low & Na & Nb & Nc & Sa & Sb & Sc). fold (all_shaped a n) in Sa. fold (all_shaped b n) in Sb. fold (all_shaped c n) in Sc.
      cbn [fwords] in D |- *. rewrite map_length. apply NoDup_map_inv in D.
      pose proof (flat_nonempty a n Na Sa) as Wa. pose proof (flat_nonempty b n Nb Sb) as Wb. pose proof (flat_nonempty c n Nc Sc) as Wc.
      destruct (product3_NoDup_inv _ _ _ Wa Wb Wc D) as (Da & Db & Dc).
      destruct (product3_length_factors _ _ _ Wa Wb Wc) as (La & Lb & Lc).
      pose proof (pack_list n a IHa Na Sa Da) as Xa. pose proof (pack_list n b IHb Nb Sb Db) as Xb. pose proof (pack_list n c IHc Nc Sc Dc) as Xc.
      rewrite pack1_sum. destruct (pack_sum a) as [ra|]; cbn [bind]; [|split; [tauto|lia]]. destruct (pack_sum b) as [rb|]; cbn [bind]; [|split; [tauto|lia]].
      destruct (pack_sum c) as [rc|]; cbn [bind]; [|split; [tauto|lia]].
      destruct Xa as (Fa & Ya & _ & Pa), Xb as (Fb & Yb & _ & Pb), Xc as (Fc & Yc & _ & Pc).
      destruct (mk_mul_l [ra; rb; rc]) as [r|e] eqn:Er.
      + destruct (mk3_words ra rb rc r Fa Fb Fc Er) as (Wr & Lr & _ & _ & Xr). split; auto. split; [|split].
        * apply mk_mul_l_inv in Er. destruct Er as (? & ? & ? & -> & _). reflexivity.
        * congruence.
        * rewrite Xr. apply Permutation_map. apply product3_perm; auto.
      + pose proof (mk_mul_l_result [ra; rb; rc]) as R. rewrite Er in R. destruct R as [[E _]|[[E _]|[[(c1 & d1 & Hc & Hd & E) _]|[[E Ee]|[(c1 & Hc & E) _]]]]].
        * intros c1 [<-|[<-|[<-|[]]]]; auto.
        * discriminate.
        * simpl in E. lia.
        * simpl in Hc, Hd. intuition (subst; congruence).
        * split; auto. cbn [map prodN fold_right] in E. rewrite length_product3, <- (Permutation_length Pa), <- (Permutation_length Pb), <- (Permutation_length Pc), !Nat2N.inj_mul, !length_words by auto. lia.
        * simpl in Hc. intuition (subst; lia).
  Qed.
  Lemma pack_ok n fs : fs <> [] -> all_shaped fs n -> NoDup (flat_map fwords fs) ->
    match pack_factorisation so fs with
    | Ok r => wf r /\ layer r = n /\ (forall x, r <> Add [x]) /\ Permutation (words r) (flat_map fwords fs)
    | Err e => e = TooManySingularSequences /\ (MAX_SINGULAR_SEQUENCES < N.of_nat (List.length (flat_map fwords fs)))%N
    end.
  Proof.
    intros NE Sh D. assert (X : pack_factorisation so fs = pack_sum fs) by (unfold pack_factorisation, pack_sum; rewrite <- pack_all_mapM; reflexivity).
    rewrite X. apply pack_list; auto. apply Forall_forall. intros f _. apply pack1_ok.
  Qed.
End So.
