(** Meaning of what the constructors return, and which exceptions parsing can raise. *)
From Coq Require Import List String Ascii Bool NArith Arith Lia Sorted Permutation.
From Verif Require Import Base Script ScriptParser ScriptGrammar ScriptGrammarProofs SortProofs ScriptWf ScriptStrProofs ScriptOrderProofs ScriptSpec ScriptCtorProofs ScriptParseProofs ScriptSeqProofs ScriptMoreProofs ScriptAlgProofs ScriptEqProofs.
Import ListNotations.
Local Open Scope string_scope.

Lemma mk_mul_l_means cs s w : (forall c, In c cs -> wf c) -> mk_mul_l cs = Ok s ->
  let d := Null (layer (hd (Null 0) cs)) in
  (means s w <-> exists u v t, means (nth 0 cs d) u /\ means (nth 1 cs d) v /\ means (nth 2 cs d) t /\
     w = (u ++ v ++ t)%list).
Proof.
  intros F E d. apply mk_mul_l_inv in E.
  destruct E as (a & b & c & -> & [NE _] & Ea & Eb & Ec & _).
  assert (Wd : wf d).
  { simpl. destruct cs as [|x cs]; [congruence|]. simpl. apply nf_layer_le. apply F. left; auto. }
  assert (G : forall i, wf (nth i cs d)).
  { intros i. destruct (nth_in_or_default i cs d) as [Hi| -> ]; auto. }
  assert (K : forall i v, means (nullify (unwrap (nth i cs d))) v <-> means (nth i cs d) v).
  { intros i v. rewrite means_nullify; [apply means_unwrap|].
    specialize (G i). destruct (nth i cs d) as [| | |[|x [|y l]]]; auto.
    apply (wf_add_in _ x G (or_introl eq_refl)). }
  cbn [means]. fold d in Ea, Eb, Ec. rewrite Ea, Eb, Ec.
  split; intros (u & v & t & Hu & Hv & Ht & ->); exists u, v, t;
    rewrite (K 0), (K 1), (K 2) in *; auto.
Qed.

Lemma mk_add_means so cs s w : set_order so -> (forall c, In c cs -> nf c) -> mk_add so cs = Ok s ->
  (means s w <-> exists c, In c cs /\ means c w).
Proof.
  intros SO F E. destruct (mk_add_terms _ _ _ SO F E) as (l & -> & W & _ & T).
  rewrite means_add. split.
  - intros (x & Hx & M). destruct (wf_add_in _ _ W Hx) as (Wx & _).
    destruct (proj1 (T (norm x)) (in_map norm _ _ Hx)) as (c & Hc & K). exists c. split; auto.
    pose proof (nf_wf _ (F c Hc)) as Wc.
    destruct K as [[A D]|(d & Hd & D)].
    + apply means_norm; auto. rewrite D. apply means_norm; auto.
    + destruct c as [| | |ds]; simpl in Hd; try tauto. apply means_add. exists d. split; auto.
      destruct (wf_add_in _ _ Wc Hd) as (Wd & _).
      apply means_norm; auto. rewrite D. apply means_norm; auto.
  - intros (c & Hc & M). pose proof (nf_wf _ (F c Hc)) as Wc.
    assert (K : exists t, wf t /\ means t w /\ in_terms cs (norm t)).
    { destruct (is_add c) eqn:A.
      - destruct c as [| | |ds]; try discriminate. apply means_add in M. destruct M as (d & Hd & M).
        destruct (wf_add_in _ _ Wc Hd) as (Wd & _). exists d. split; auto. split; auto.
        exists (Add ds). split; auto. right. exists d. auto.
      - exists c. split; auto. split; auto. exists c. auto. }
    destruct K as (t & Wt & Mt & K). apply T in K. apply in_map_iff in K. destruct K as (x & E' & Hx).
    destruct (wf_add_in _ _ W Hx) as (Wx & _).
    exists x. split; auto. apply means_norm; auto. rewrite E'. apply means_norm; auto.
Qed.

Lemma mk_add_total so cs n : set_order so -> (forall c, In c cs -> nf c /\ layer c = n) -> cs <> [] ->
  (exists s, mk_add so cs = Ok s /\ layer s = n) \/ mk_add so cs = Err TooManySingularSequences.
Proof.
  intros SO F NE.
  destruct (mk_add so cs) as [s|e] eqn:E.
  - left. exists s. split; auto.
    assert (Fw : forall c, In c cs -> wf c) by (intros; apply nf_wf; apply (F c H)).
    pose proof (mk_add_wf _ _ _ SO Fw E) as W.
    apply mk_add_inv in E. destruct E as (c0 & r & Ecs & L & NE' & C & ->).
    destruct (isort (so (flatten cs))) as [|x l] eqn:El; [simpl in W; tauto|].
    assert (Hx : In x (flatten cs)).
    { apply (Permutation_in _ (SO _)). apply (Permutation_in _ (isort_perm _)). rewrite El. left; auto. }
    destruct (flatten_in _ _ Fw Hx) as (_ & _ & c & Hc & Lc). simpl. rewrite Lc. apply (F c Hc).
  - right. unfold mk_add in E. destruct cs as [|c0 r]; [congruence|].
    assert (B : forallb (fun c => Nat.eqb (layer c) (layer c0)) (c0 :: r) = true).
    { apply forallb_forall. intros c Hc. apply Nat.eqb_eq.
      destruct (F c Hc) as [_ ->], (F c0 (or_introl eq_refl)) as [_ ->]. auto. }
    rewrite B in E. cbn [negb] in E.
    destruct (so (flatten (c0 :: r))) as [|y l] eqn:Es.
    + exfalso.
      assert (Z : flatten (c0 :: r) = []).
      { apply Permutation_nil. rewrite <- Es. apply SO. }
      destruct (F c0 (or_introl eq_refl)) as [N0 _].
      assert (K : exists m, in_terms (c0 :: r) m).
      { destruct (is_add c0) eqn:A.
        - destruct c0 as [| | |[|d ds]]; try discriminate; [destruct N0 as [W _]; simpl in W; tauto|].
          exists (norm d), (Add (d :: ds)). split; [left; auto|]. right. exists d. simpl; auto.
        - exists (norm c0), c0. simpl; auto. }
      destruct K as (m & K). apply flatten_norm in K; [|intros c Hc; apply (F c Hc)].
      destruct K as (x & Hx & _). rewrite Z in Hx. destruct Hx.
    + destruct (N.ltb MAX_SINGULAR_SEQUENCES _); congruence.
Qed.

Lemma Forall2_len {A B} (R : A -> B -> Prop) l l' : Forall2 R l l' -> List.length l = List.length l'.
Proof. induction 1; simpl; auto. Qed.

Definition tok_ok (t : token) : Prop :=
  match t with
  | TRemAdd k => In k ["O"; "M"; "F"; "I"]
  | TRemMul k => exists s, mk_mul_char k = Ok s /\ layer s = 1
  | _ => True
  end.

Lemma token_of_ok c t : token_of c = Some t -> tok_ok t.
Proof.
  assert (K : forall c, match token_of c with Some t => tok_ok t | None => True end).
  { intros [[] [] [] [] [] [] [] []]; vm_compute; auto 10; eexists; split; reflexivity. }
  intros E. specialize (K c). rewrite E in K. auto.
Qed.

Lemma lex_ok s : Forall tok_ok (lex s).
Proof.
  assert (K : forall n s, String.length s <= n -> Forall tok_ok (lex s)).
  { clear s. induction n as [|n IH]; intros [|c r] L; simpl in L; try lia; try constructor.
    cbn [lex]. destruct (token_of c) as [t|] eqn:E.
    - constructor; [eapply token_of_ok; eauto|apply IH; lia].
    - destruct (Ascii.eqb_spec c "w"%char) as [->|]; [|apply IH; lia].
      destruct r as [|d r']; [constructor|]. destruct (is_woae d) eqn:D; [|apply IH; lia].
      constructor; [|apply IH; simpl in L; lia].
      revert D. clear. destruct d as [[] [] [] [] [] [] [] []]; vm_compute; intros D; try discriminate;
        eexists; split; reflexivity. }
  apply (K (String.length s)); auto.
Qed.

Definition eval_fine (so : list script -> list script) (n : nat) (r : res script) : Prop :=
  (exists s, r = Ok s /\ layer s = n) \/ r = Err TooManySingularSequences.

Lemma mul_fine so n (l : list (list tree)) : S n <= MAX_LAYER -> set_order so ->
  1 <= List.length l <= 3 -> Forall (fun ts => eval_fine so n (eval_sum so (eval so) ts)) l ->
  eval_fine so (S n) (eval so (TrMul (S n) l)).
Proof.
  intros L SO Len F. rewrite eval_mul.
  destruct (mapM (eval_sum so (eval so)) l) as [rs|e] eqn:E; cbn [bind].
  - apply mapM_inv in E.
    assert (G : forall c, In c rs -> wf c /\ layer c = n).
    { clear Len. revert F. induction E as [|ts y l rs Ht E IH]; intros F c []; inversion F; subst.
      - split.
        + apply constructible_wf. apply (eval_sum_constructible so SO ts); auto.
          apply Forall_forall. intros; eapply eval_constructible; eauto.
        + destruct H2 as [(s & E1 & E2)|E1]; congruence.
      - apply IH; auto. }
    apply Forall2_len in E. rewrite E in Len.
    pose proof (mk_mul_l_result rs (fun c Hc => proj1 (G c Hc))) as R.
    destruct (mk_mul_l rs) as [s|e] eqn:Em.
    + left. exists s. split; auto. apply mk_mul_l_inv in Em.
      destruct Em as (a & b & c & -> & _ & Ea & _). cbn [layer].
      rewrite Ea, layer_nullify, layer_unwrap. f_equal.
      destruct rs as [|x rs]; [simpl in Len; lia|]. simpl. apply (G x). left; auto.
    + right. f_equal.
      destruct R as [[-> _]|[[R _]|[[(c & d & Hc & Hd & R) _]|[[_ R]|[(c & Hc & R) _]]]]]; auto;
        try (simpl in Len; lia); exfalso.
      * apply R. destruct (G c Hc) as [_ ->], (G d Hd) as [_ ->]. auto.
      * destruct (G c Hc) as [_ X]. lia.
  - right. f_equal. revert F e E. clear. induction l as [|ts l IH]; intros F e E; [discriminate|].
    inversion F; subst. simpl in E. destruct H1 as [(s & E1 & _)|E1]; rewrite E1 in E; simpl in E.
    + destruct (mapM (eval_sum so (eval so)) l) as [|e'] eqn:El; simpl in E; [discriminate|].
      injection E as <-. eauto.
    + congruence.
Qed.

Lemma sum_fine so n ts : set_order so -> ts <> [] -> Forall (fun t => eval_fine so n (eval so t)) ts ->
  eval_fine so n (eval_sum so (eval so) ts).
Proof.
  intros SO NE F. unfold eval_sum.
  destruct (mapM (eval so) ts) as [rs|e] eqn:E; cbn [bind].
  - apply mapM_inv in E.
    assert (G : forall c, In c rs -> nf c /\ layer c = n).
    { clear NE. revert F. induction E as [|t y ts rs Ht E IH]; intros F c []; inversion F; subst.
      - split; [eapply eval_nf; eauto|]. destruct H2 as [(s & E1 & E2)|E1]; congruence.
      - apply IH; auto. }
    apply mk_add_total; auto.
    + intros c Hc. apply G. apply in_rev; auto.
    + intros X. apply Forall2_len in E. apply (f_equal (@List.length _)) in X. rewrite rev_length in X.
      simpl in X. rewrite X in E. destruct ts; [congruence|discriminate].
  - right. f_equal. revert F e E. clear. induction ts as [|t ts IH]; intros F e E; [discriminate|].
    inversion F; subst. simpl in E. destruct H1 as [(s & E1 & _)|E1]; rewrite E1 in E; simpl in E.
    + destruct (mapM (eval so) ts) as [|e'] eqn:El; simpl in E; [discriminate|].
      injection E as <-. eauto.
    + congruence.
Qed.

Lemma derived_fine so : set_order so ->
  (forall n w t, d_script n w t -> Forall tok_ok w -> eval_fine so n (eval so t)) /\
  (forall n w ts, d_sum n w ts -> Forall tok_ok w -> ts <> [] /\ Forall (fun t => eval_fine so n (eval so t)) ts).
Proof.
  intros SO. apply d_mutind.
  - intros x _. left. destruct x as [[]|]; eexists; split; reflexivity.
  - intros k H. inversion H as [|? ? Hk _]; subst. simpl in Hk.
    destruct Hk as [<-|[<-|[<-|[<-|[]]]]]; apply mk_add_total; auto; try discriminate;
      intros c Hc; simpl in Hc; repeat (destruct Hc as [<-|Hc]); try tauto; (split; [apply nf_notadd; auto|auto]);
      simpl; auto; unfold MAX_LAYER; lia.
  - intros k H. inversion H as [|? ? Hk _]; subst. destruct Hk as (s & Es & Ls). left. exists s. auto.
  - intros n w1 a1 L D1 IH1 H. apply Forall_app in H. destruct H as [H1 _].
    destruct (IH1 H1). apply mul_fine; [auto|auto|simpl; lia|].
    repeat (apply Forall_cons; [apply sum_fine; auto|]); apply Forall_nil.
  - intros n w1 a1 w2 a2 L D1 IH1 D2 IH2 H. apply Forall_app in H. destruct H as [H1 H].
    apply Forall_app in H. destruct H as [H2 _].
    destruct (IH1 H1), (IH2 H2). apply mul_fine; [auto|auto|simpl; lia|].
    repeat (apply Forall_cons; [apply sum_fine; auto|]); apply Forall_nil.
  - intros n w1 a1 w2 a2 w3 a3 L D1 IH1 D2 IH2 D3 IH3 H. apply Forall_app in H. destruct H as [H1 H].
    apply Forall_app in H. destruct H as [H2 H]. apply Forall_app in H. destruct H as [H3 _].
    destruct (IH1 H1), (IH2 H2), (IH3 H3). apply mul_fine; [auto|auto|simpl; lia|].
    repeat (apply Forall_cons; [apply sum_fine; auto|]); apply Forall_nil.
  - intros n w t D IH H. split; [discriminate|]. constructor; auto.
  - intros n w t w' ts D IH D' IH' H. apply Forall_app in H. destruct H as [H1 H].
    inversion H; subst. destruct (IH' H4). split; [discriminate|]. constructor; auto.
Qed.

Lemma parse_errors so t : set_order so ->
  match parse so t with
  | Ok s => exists n ts, d_sum n (lex t) ts /\ layer s = n
  | Err e => (e = CannotParse /\ forall ts, ~ d_term (lex t) ts) \/
             (e = TooManySingularSequences /\ exists ts, d_term (lex t) ts)
  end.
Proof.
  intros SO. unfold parse. destruct (parse_tree (lex t)) as [ts|] eqn:D.
  - apply parse_tree_iff in D. pose proof D as [n Dn].
    destruct (proj2 (derived_fine so SO) n _ _ Dn (lex_ok t)) as [NE F].
    assert (G : eval_fine so n (eval_term so ts)).
    { destruct ts as [|x [|y ts]]; [congruence| |].
      - inversion F; auto.
      - apply (sum_fine so n (x :: y :: ts)); auto. }
    destruct G as [(s & -> & L)| -> ]; simpl; eauto.
  - left. split; auto. intros ts H. apply parse_tree_iff in H. congruence.
Qed.
