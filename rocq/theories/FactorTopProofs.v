(** The calls to [factorize] with a script or a list of scripts. *)
From Coq Require Import List String Bool NArith Arith Lia Permutation.
From Verif Require Import Base SortProofs Script ScriptParser ScriptWf ScriptStrProofs ScriptOrderProofs ScriptSpec ScriptCtorProofs
  ScriptSeqProofs ScriptMoreProofs ScriptAlgProofs ScriptEqProofs TablesProofs Factor FactorBoxProofs FactorProofs FactorAllProofs FactorSpec FactorTotalProofs.
Import ListNotations.

Lemma exactly_words r n W : wf r -> layer r = n -> NoDup (words r) -> (forall w, In w (words r) <-> W w) -> exactly r n W.
Proof.
  intros Wf L D H. split; auto. split; [intros w; rewrite <- words_means; auto|]. split; [apply words_nodup; auto|].
  exists (words r). split; [split; auto|]. symmetry. apply length_words. auto.
Qed.

Section So.
  Variable so : list script -> list script.
  Hypothesis SO : set_order so.

  Definition good (n : nat) (W : word -> Prop) (x : res script) : Prop :=
    match x with
    | Ok r => wf r /\ exactly r n W
    | Err e => (e = KeyError /\ ~ easy n W) \/ (e = TooManySingularSequences /\ too_many W)
    end.
  Lemma good_ext n W W' x : (forall w, W w <-> W' w) -> good n W x -> good n W' x.
  Proof.
    intros H. destruct x as [r|e]; cbn [good].
    - intros (Wf & L & M & D & ws & (N & I) & C). split; auto. split; auto. split; [intros w; rewrite M; auto|]. split; auto.
      exists ws. split; [split; [auto|intros w; rewrite I; auto]|auto].
    - intros [(-> & E)|(-> & ws & N & I & C)]; [left; split; auto; intros E'; apply E; eapply easy_ext; [apply H|auto]|right; split; auto].
      exists ws. split; auto. split; auto. intros w Hw. apply H. auto.
  Qed.

  (** The sum of singular sequences, some given twice. *)
  Lemma sum_dup n cs : Forall (sing n) cs -> cs <> [] -> good n (fun w => In w (map wordof cs)) (mk_add so cs).
  Proof.
    intros F NE. set (ds := dedup script_eqb cs).
    assert (Na : forall c, In c cs -> wf c /\ is_add c = false /\ layer c = n).
    { intros c Hc. rewrite Forall_forall in F. destruct (F c Hc) as (Nf & C1 & L). split; [apply nf_wf; auto|]. split; auto. apply nf_singular_notadd; auto. }
    assert (Id : incl ds cs) by (intros c Hc; apply (dedup_in script_eqb); auto).
    assert (Fd : Forall (sing n) ds) by (apply Forall_forall; intros c Hc; rewrite Forall_forall in F; auto).
    assert (Dd : ForallOrdPairs (fun x y => script_eqb x y = false) ds) by (apply dedup_distinct; intros; unfold script_eqb; apply String.eqb_sym).
    assert (Wd : flat_map words ds = map wordof ds).
    { clear -Fd. induction Fd as [|c l (Nf & C1 & L) _ IH]; auto. cbn [flat_map map]. rewrite words_single, IH by auto using nf_wf. reflexivity. }
    assert (Nd : NoDup (map wordof ds)).
    { clear -Fd Dd. induction Dd as [|c l Hc _ IH]; [constructor|]. apply Forall_cons_iff in Fd. destruct Fd as [Fc Fl]. cbn [map]. constructor; auto.
      intros Hi. apply in_map_iff in Hi. destruct Hi as (d & Ed & Hd). rewrite Forall_forall in Hc, Fl. specialize (Hc d Hd).
      assert (X : script_eqb c d = true) by (apply (sing_word n); auto). congruence. }
    assert (Sw : forall w, In w (map wordof ds) <-> In w (map wordof cs)).
    { intros w. rewrite !in_map_iff. split; intros (c & <- & Hc).
      - exists c. auto.
      - destruct (dedup_complete script_eqb (fun x => String.eqb_refl _) cs c Hc) as (d & Hd & Ed). exists d. split; auto.
        rewrite Forall_forall in F. apply (sing_word n) in Ed; auto. }
    destruct cs as [|x cs']; [easy|]. set (cs := x :: cs') in *.
    assert (Fl : flatten cs = ds) by (apply flatten_plain; intros c Hc; apply Na; auto).
    assert (W : forall r, mk_add so cs = Ok r -> wf r) by (intros r; apply mk_add_wf; auto; intros c Hc; apply Na; auto).
    assert (U : mk_add so cs = if N.ltb MAX_SINGULAR_SEQUENCES (N.of_nat (List.length (flat_map words ds))) then Err TooManySingularSequences else Ok (Add (isort (so ds)))).
    { unfold mk_add. assert (Ef : forallb (fun c => Nat.eqb (layer c) (layer x)) cs = true).
      { apply forallb_forall. intros c Hc. apply Nat.eqb_eq. destruct (Na c Hc) as (_ & _ & ->). destruct (Na x (or_introl eq_refl)) as (_ & _ & ->). reflexivity. }
      unfold cs in Ef |- *. rewrite Ef. fold cs. rewrite Fl. cbn [negb]. pose proof (SO ds) as Ps.
      assert (Sz : sumN (map cardinal (so ds)) = N.of_nat (List.length (flat_map words ds))).
      { rewrite (sumN_perm _ _ (Permutation_map cardinal Ps)). apply sum_cardinal. intros c Hc. apply Na. auto. }
      destruct (so ds) as [|z zs] eqn:Ez; [apply Permutation_nil in Ps; unfold ds, cs in Ps; cbn in Ps; discriminate|]. rewrite Sz. reflexivity. }
    rewrite U in *. rewrite Wd in *. destruct (N.ltb MAX_SINGULAR_SEQUENCES (N.of_nat (List.length (map wordof ds)))) eqn:Lt.
    - apply N.ltb_lt in Lt. right. split; auto. exists (map wordof ds). split; auto. split; auto. intros w Hw. apply Sw. auto.
    - assert (Pi : Permutation (isort (so ds)) ds) by (eapply perm_trans; [apply isort_perm|apply SO]).
      assert (Pw : Permutation (words (Add (isort (so ds)))) (map wordof ds)) by (cbn [words]; rewrite <- Wd; apply Permutation_flat_map; auto).
      split; auto. apply exactly_words; auto.
      + destruct (isort (so ds)) as [|c r] eqn:Es; [apply Permutation_nil in Pi; unfold ds, cs in Pi; cbn in Pi; discriminate|]. cbn [layer]. apply (Na c). apply Id. apply (Permutation_in _ Pi). simpl. auto.
      + eapply Permutation_NoDup; [apply Permutation_sym, Pw|auto].
      + intros w. rewrite <- Sw. split; apply Permutation_in; auto using Permutation_sym.
  Qed.

  Definition factor_pack (seqs : list script) : res script := do l <- factor so seqs; pack_factorisation so l.
  Lemma mapM_pack seqs : mapM (pack1 so) (map FScript seqs) = Ok seqs.
  Proof. induction seqs as [|s r IH]; cbn [map mapM]; auto. cbn [pack1 bind]. rewrite IH. reflexivity. Qed.

  Lemma core n seqs : n <= MAX_LAYER -> Forall (sing n) seqs -> seqs <> [] -> good n (fun w => In w (map wordof seqs)) (factor_pack seqs).
  Proof.
    intros Ln F NE. unfold factor_pack, factor. destruct n as [|n].
    - assert (X : factor_at so MAX_LAYER seqs = Ok (map FScript seqs)) by (apply factor_zero; auto). rewrite X. cbn [bind].
      unfold pack_factorisation. rewrite mapM_pack. cbn [bind]. destruct seqs as [|x [|y r]]; [easy| |apply sum_dup; auto].
      apply Forall_cons_iff in F. destruct F as [(Nf & C1 & L) _]. split; [apply nf_wf; auto|]. apply exactly_words; auto using nf_wf; rewrite words_single by auto using nf_wf.
      + constructor; [easy|constructor].
      + reflexivity.
    - destruct (factor_at so MAX_LAYER seqs) as [fs|e] eqn:E; cbn [bind].
      + assert (X : factored (S n) seqs fs) by (apply (factor_at_ok so SO (S n) MAX_LAYER); auto; discriminate).
        destruct X as (N & Sh & D & I). pose proof (pack_ok so SO (S n) fs N Sh D) as Pk. destruct (pack_factorisation so fs) as [r|e].
        * destruct Pk as (W & L & _ & P). split; auto. apply exactly_words; auto; [eapply Permutation_NoDup; [apply Permutation_sym, P|auto]|].
          intros w. rewrite <- I. split; apply Permutation_in; auto using Permutation_sym.
        * destruct Pk as (-> & C). right. split; auto. exists (flat_map fwords fs). split; auto. split; auto. intros w. apply I.
      + left. split; [eapply (factor_at_err so SO (S n)); [exact Ln|exact F|exact NE|exact E]|].
        intros Ea. destruct (factor_at_easy so SO (S n) MAX_LAYER seqs Ln F NE Ea) as (fs & Ef). congruence.
  Qed.

  (** * One script *)
  Lemma one_script promoted s : wf s -> good (layer s) (means s) (factorize so promoted (inl s)).
  Proof.
    intros W. unfold factorize.
    assert (D : (exists x, s = Add [x] /\ cardinal x = 1%N) \/ exists l, ss s = Ok l /\ Forall (sing (layer s)) l).
    { assert (D0 : nf s \/ exists x, s = Add [x]).
      { destruct s as [| | |[|x [|y cs]]]; try (left; split; auto; discriminate). right; eauto. }
      destruct D0 as [Nf|(x & ->)]; [right; destruct (ss_spec _ Nf) as (l & E & F & _); eauto|].
      destruct (wf_add_in _ x W (or_introl eq_refl)) as (Wx & Ax & _).
      destruct (paradigm (Add [x])) eqn:P.
      - right. destruct (ss_spec x (nf_notadd _ Wx Ax)) as (l & E & F & _). exists (isort (l ++ [])). rewrite ss_add, P. cbn [ss_all]. rewrite E. cbn [bind]. split; auto.
        apply Forall_forall. intros y Hy. apply (Permutation_in _ (isort_perm _)) in Hy. rewrite app_nil_r in Hy. rewrite Forall_forall in F. apply F; auto.
      - left. exists x. split; auto. assert (C : cardinal (Add [x]) = 1%N) by (apply cardinal_paradigm; auto). cbn [cardinal map sumN fold_right] in C. lia. }
    destruct D as [(x & -> & C)|(l & E & F)].
    - assert (P : paradigm (Add [x]) = false) by (destruct (wf_add_in _ x W (or_introl eq_refl)) as (Wx & Ax & _); apply cardinal_paradigm; auto; cbn [cardinal map sumN fold_right]; rewrite C; reflexivity).
      assert (Fc : factor so [Add [x]] = Ok [FScript (Add [x])]) by (unfold factor, MAX_LAYER; cbn [factor_at factor_with List.length]; destruct (Nat.eqb (layer (Add [x])) 0); reflexivity).
      rewrite ss_add, P. cbn [bind]. rewrite Fc. cbn. split; auto. apply exactly_words; auto; [|intros w; apply words_means].
      assert (C1 : cardinal (Add [x]) = 1%N) by (cbn [cardinal map sumN fold_right]; rewrite C; reflexivity).
      rewrite words_single by auto. constructor; [easy|constructor].
    - rewrite E. cbn [bind]. pose proof (ss_words s l W E) as P.
      apply (good_ext _ (fun w => In w (map wordof l))).
      + intros w. rewrite <- words_means. split; apply Permutation_in; auto using Permutation_sym.
      + apply core; auto; [apply nf_layer_le; auto|]. intros ->. apply Permutation_nil in P. apply (words_nonempty s); auto.
  Qed.

  (** * A list of scripts *)
  Lemma promote_sing m M x : sing m x -> m <= M -> M <= MAX_LAYER -> exists y, promote x M = Ok y /\ sing M y /\ wordof y = lifted M (wordof x).
  Proof.
    intros Sx Lm LM. pose proof Sx as (Nf & C & L). destruct (Nat.eq_dec m M) as [<-|Ne].
    - exists x. unfold promote. rewrite L, Nat.sub_diag. split; [reflexivity|]. split; auto. unfold lifted. rewrite (sing_length m) by auto. rewrite Nat.sub_diag. simpl. now rewrite app_nil_r.
    - destruct (promote_n_spec (M - m) x (nf_wf _ Nf)) as (r & E & W & Lr & Cr & Mr); [lia|]. exists r. unfold promote. rewrite L. split; auto.
      assert (Na : is_add r = false).
      { destruct (M - m) as [|k] eqn:Ek; [lia|]. clear -E. revert x E. assert (G : forall k x, is_add x = false -> promote_n k x = Ok r -> is_add r = false).
        { clear. induction k as [|k IH]; intros x A E; cbn [promote_n] in E; [congruence|]. destruct (mk_mul_l [x]) as [y|] eqn:Ey; [|discriminate]. cbn [bind] in E.
          apply (IH y); auto. apply mk_mul_l_inv in Ey. destruct Ey as (? & ? & ? & -> & _). reflexivity. }
        intros x E. cbn [promote_n] in E. destruct (mk_mul_l [x]) as [y|] eqn:Ey; [|discriminate]. cbn [bind] in E. apply (G k y); auto.
        apply mk_mul_l_inv in Ey. destruct Ey as (? & ? & ? & -> & _). reflexivity. }
      assert (LL : layer r = M) by lia. split; [split; [apply nf_notadd; auto|split; [congruence|auto]]|].
      assert (X : means r (wordof r)) by (apply wordof_means; auto; congruence). apply Mr in X. destruct X as (u & Hu & X).
      apply wordof_means in Hu; auto using nf_wf. subst u. rewrite X. unfold lifted. rewrite (sing_length m) by auto. rewrite L. do 2 f_equal. f_equal. f_equal. lia.
  Qed.

  Lemma maxl_top (l : list script) M : top_layer l M -> maxl (map layer l) = M.
  Proof.
    intros ((x & Hx & E) & H). subst M. assert (G : forall l : list nat, (forall y, In y l -> y <= maxl l)).
    { clear. induction l as [|z l IH]; cbn [maxl fold_right]; intros y Hy; [easy|]. destruct Hy as [<-|Hy]; [lia|]. specialize (IH y Hy). unfold maxl in IH. lia. }
    assert (G2 : forall l : list nat, forall b, (forall y, In y l -> y <= b) -> maxl l <= b).
    { clear. induction l as [|z l IH]; cbn [maxl fold_right]; intros b Hb; [lia|]. specialize (IH b). pose proof (Hb z (or_introl eq_refl)). unfold maxl in IH.
      assert (fold_right Nat.max 0 l <= b) by (apply IH; intros; apply Hb; simpl; auto). lia. }
    apply Nat.le_antisymm; [apply G2; intros y Hy; apply in_map_iff in Hy; destruct Hy as (z & <- & Hz); auto|apply G, in_map; auto].
  Qed.

  Lemma ss_list l : (forall x, In x l -> nf x) -> exists ls, mapM ss l = Ok ls /\
    (forall y, In y (List.concat ls) -> exists x, In x l /\ sing (layer x) y) /\
    (forall x, In x l -> exists y, In y (List.concat ls) /\ layer y = layer x) /\
    (forall n w, (exists y, In y (List.concat ls) /\ w = lifted n (wordof y)) <-> gathered l n w).
  Proof.
    induction l as [|x l IH]; intros N.
    - exists []. cbn. split; auto. split; [easy|]. split; [easy|]. intros n w. split; [intros (? & [] & _)|intros (? & ? & [] & _)].
    - destruct IH as (ls & E & F & T & G); [intros; apply N; simpl; auto|]. pose proof (N x (or_introl eq_refl)) as Nx.
      destruct (ss_spec x Nx) as (k & Ek & Fk & Ck & Mk & _). exists (k :: ls). cbn [mapM]. rewrite Ek. cbn [bind]. rewrite E. split; [reflexivity|].
      rewrite Forall_forall in Fk. cbn [List.concat]. split; [|split].
      + intros y Hy. apply in_app_or in Hy. destruct Hy as [Hy|Hy]; [exists x; simpl; auto|]. destruct (F y Hy) as (z & Hz & S). exists z. simpl; auto.
      + intros z [<-|Hz].
        * destruct k as [|y k]; [exfalso; destruct (means_inhabited x (nf_wf _ Nx)) as [w Hw]; apply Mk in Hw; destruct Hw as (? & [] & _)|].
          exists y. split; [simpl; auto|]. apply (Fk y). simpl. auto.
        * destruct (T z Hz) as (y & Hy & L). exists y. split; auto. apply in_or_app; auto.
      + intros n w. split.
        * intros (y & Hy & ->). apply in_app_or in Hy. destruct Hy as [Hy|Hy].
          -- exists x, (wordof y). split; [simpl; auto|]. split; auto. apply Mk. exists y. split; auto. destruct (Fk y Hy) as (Ny & Cy & _). apply wordof_means; auto using nf_wf.
          -- destruct (proj1 (G n _) (ex_intro _ y (conj Hy eq_refl))) as (z & u & Hz & Hu & Eu). exists z, u. split; [simpl; auto|]. auto.
        * intros (z & u & [<-|Hz] & Hu & ->).
          -- apply Mk in Hu. destruct Hu as (y & Hy & Hu). exists y. split; [apply in_or_app; auto|]. destruct (Fk y Hy) as (Ny & Cy & _). apply wordof_means in Hu; auto using nf_wf. congruence.
          -- destruct (proj2 (G n (lifted n u)) (ex_intro _ z (ex_intro _ u (conj Hz (conj Hu eq_refl))))) as (y & Hy & Ey). exists y. split; [apply in_or_app; auto|auto].
  Qed.

  Lemma script_list promoted l M : (forall x, In x l -> nf x) -> top_layer l M -> (promoted = false -> forall x, In x l -> layer x = M) ->
    good M (gathered l M) (factorize so promoted (inr l)).
  Proof.
    intros N T Pr. destruct (ss_list l N) as (ls & E & F & T' & G). unfold factorize. rewrite E. cbn [bind].
    set (seqs := List.concat ls) in *. cbv zeta.
    assert (LM : M <= MAX_LAYER). { destruct T as ((x & Hx & <-) & _). apply nf_layer_le. apply nf_wf. auto. }
    assert (NE : seqs <> []). { destruct T as ((x & Hx & _) & _). destruct (T' x Hx) as (y & Hy & _). intros Z. rewrite Z in Hy. easy. }
    assert (X : exists qs, (if promoted then match seqs with [] => Err ValueError | _ => mapM (fun s => promote s (maxl (map layer seqs))) seqs end else Ok seqs) = Ok qs /\
                Forall (sing M) qs /\ map wordof qs = map (fun y => lifted M (wordof y)) seqs).
    { destruct promoted.
      - assert (MM : maxl (map layer seqs) = M).
        { apply maxl_top. destruct T as ((x & Hx & Lx) & H). split.
          - destruct (T' x Hx) as (y & Hy & Ly). exists y. split; auto. congruence.
          - intros y Hy. destruct (F y Hy) as (z & Hz & (_ & _ & ->)). auto. }
        rewrite MM. replace (match seqs with [] => Err ValueError | _ => mapM (fun s => promote s M) seqs end) with (mapM (fun s => promote s M) seqs) by (destruct seqs; [easy|reflexivity]).
        assert (Fs : forall y, In y seqs -> exists m, m <= M /\ sing m y) by (intros y Hy; destruct (F y Hy) as (z & Hz & S); exists (layer z); split; auto; apply T; auto).
        clear -Fs LM. induction seqs as [|y seqs IH]; [exists []; auto|]. destruct (Fs y (or_introl eq_refl)) as (m & Lm & S).
        destruct (promote_sing m M y S Lm LM) as (q & Eq & Sq & Wq). destruct IH as (qs & Eqs & Fq & Wqs); [intros; apply Fs; simpl; auto|].
        exists (q :: qs). cbn [mapM]. rewrite Eq. cbn [bind]. rewrite Eqs. split; auto. split; [constructor; auto|]. cbn [map]. congruence.
      - exists seqs. split; auto. assert (Fs : Forall (sing M) seqs). { apply Forall_forall. intros y Hy. destruct (F y Hy) as (z & Hz & S). rewrite (Pr eq_refl z Hz) in S. auto. }
        split; auto. apply map_ext_in. intros y Hy. rewrite Forall_forall in Fs. unfold lifted. rewrite (sing_length M) by auto. rewrite Nat.sub_diag. simpl. now rewrite app_nil_r. }
    destruct X as (qs & -> & Fq & Wq). cbn [bind]. apply (good_ext _ (fun w => In w (map wordof qs))).
    - intros w. rewrite <- G, Wq, in_map_iff. split; intros (y & A & B); exists y; auto.
    - apply core; auto. intros ->. destruct seqs; [easy|discriminate].
  Qed.
End So.
