(** Parsing a printed script gives the script back; what the parser accepts. *)
From Coq Require Import List String Bool NArith Arith Lia Sorted Permutation.
From Verif Require Import Base Script ScriptParser SortProofs ScriptWf ScriptStrProofs ScriptOrderProofs ScriptSpec ScriptCtorProofs.
Import ListNotations.
Local Open Scope string_scope.

Lemma map_norm_nodup l : wf (Add l) -> NoDup (map norm l).
Proof.
  intros W. apply distinct_norm_nodup.
  - intros x Hx. apply (wf_add_in _ _ W Hx).
  - pose proof W as W'. simpl in W'. destruct W' as (_ & _ & _ & _ & S & _).
    clear W. unfold sorted_lt in S. induction S as [|x l S IH Hx]; constructor; auto.
    eapply Forall_impl; [|exact Hx]. intros y Hy. apply lt_neq; auto.
Qed.

Lemma norm_eq_add x y : nf x -> nf y -> norm x = norm y -> is_add x = is_add y.
Proof.
  intros Nx Ny E.
  destruct (is_add x) eqn:Ax, (is_add y) eqn:Ay; auto; exfalso.
  - destruct x; try discriminate.
    assert (X : script_eqb y (Add cs) = true) by (apply script_eqb_norm; auto using nf_wf).
    rewrite nf_add_neq in X; auto using nf_wf. discriminate.
  - destruct y; try discriminate.
    assert (X : script_eqb x (Add cs) = true) by (apply script_eqb_norm; auto using nf_wf).
    rewrite nf_add_neq in X; auto using nf_wf. discriminate.
Qed.

(** A sum whose terms are those of a well formed sum can be built. *)
Lemma mk_add_of_terms so cs l : set_order so -> cs <> [] -> (forall c, In c cs -> nf c) ->
  (forall c, In c cs -> layer c = layer (Add l)) -> wf (Add l) ->
  (forall n, in_terms cs n <-> In n (map norm l)) ->
  exists l', mk_add so cs = Ok (Add l') /\ wf (Add l') /\ map norm l' = map norm l.
Proof.
  intros SO NE F L W T.
  assert (Fw : forall c, In c cs -> wf c) by (intros; apply F; auto).
  assert (PF : Permutation (map norm (flatten cs)) (map norm l)).
  { apply NoDup_Permutation; [|apply map_norm_nodup; auto|].
    - apply distinct_norm_nodup; [|apply flatten_distinct]. intros x Hx. apply (flatten_in _ _ Fw Hx).
    - intros n. rewrite <- T, <- flatten_norm by auto. rewrite in_map_iff.
      split; intros (x & ? & ?); exists x; tauto. }
  assert (FW : forall x, In x (flatten cs) -> wf x) by (intros x Hx; apply (flatten_in _ _ Fw Hx)).
  assert (LW : forall x, In x l -> wf x) by (intros x Hx; apply (wf_add_in _ _ W Hx)).
  assert (E : mk_add so cs = Ok (Add (isort (so (flatten cs))))).
  { unfold mk_add. destruct cs as [|c0 r]; [congruence|].
    assert (B : forallb (fun c => Nat.eqb (layer c) (layer c0)) (c0 :: r) = true).
    { apply forallb_forall. intros c Hc. apply Nat.eqb_eq.
      rewrite (L c Hc). symmetry. apply L. left; auto. }
    rewrite B. cbn [negb].
    assert (C : (sumN (map cardinal (so (flatten (c0 :: r)))) <= MAX_SINGULAR_SEQUENCES)%N).
    { rewrite (sumN_perm _ (map cardinal (flatten (c0 :: r)))) by (apply Permutation_map, SO).
      rewrite <- map_cardinal_norm by auto.
      rewrite (sumN_perm _ (map cardinal (map norm l))) by (apply Permutation_map; auto).
      rewrite map_cardinal_norm by auto. simpl in W. tauto. }
    apply N.ltb_ge in C. rewrite C.
    destruct (so (flatten (c0 :: r))) as [|x fl] eqn:Efl; [|reflexivity].
    exfalso. pose proof (SO (flatten (c0 :: r))) as P. rewrite Efl in P.
    apply Permutation_nil in P. rewrite P in PF. simpl in PF. apply Permutation_nil in PF.
    destruct l; [simpl in W; tauto|discriminate]. }
  destruct (mk_add_terms _ _ _ SO F E) as (l' & X & W' & S & I). 
  exists l'. rewrite E, X. repeat split; auto; try apply W'.
  apply add_norm_unique; auto.
  - apply sorted_norm.
    + pose proof (nf_kids _ W) as NK. simpl in NK. rewrite Forall_forall in *.
      intros c Hc o Ho. apply lt_norm; auto.
    + apply (nf_kids _ W).
    + simpl in W. tauto.
  - intros n. rewrite I, T. tauto.
Qed.

Lemma wf_one x : wf x -> is_add x = false -> wf (Add [x]).
Proof.
  intros W A. cbn [wf]. repeat split; simpl; auto; try discriminate.
  - intros c [<-|[]]; auto.
  - intros c [<-|[]]; auto.
  - repeat constructor.
  - destruct x; try discriminate; simpl; rewrite ?N.add_0_r; unfold MAX_SINGULAR_SEQUENCES; try lia.
    apply wf_mul_inv in W. unfold MAX_SINGULAR_SEQUENCES in W. simpl in W. lia.
Qed.

(** What [so] produces for the letters. *)
Lemma set_order_id : set_order (fun l => l).
Proof. intros l; auto. Qed.

Lemma wf_letters_in v c : In c (map letter_script v) -> wf c.
Proof. pose proof (wf_letters v) as F. rewrite Forall_forall in F. auto. Qed.

Lemma mk_add_char_spec so k r : set_order so -> mk_add_char so k = Ok r ->
  mk_add_char (fun l => l) k = Ok r.
Proof.
  intros SO. unfold mk_add_char. destruct (find _ REMARKABLE_ADDITION) as [[k' v]|]; auto.
  intros E. rewrite (mk_add_order _ so); auto using set_order_id. apply wf_letters_in.
Qed.

Lemma nf_rem_add so k r : set_order so -> mk_add_char so k = Ok r -> nf r.
Proof.
  intros SO E.
  assert (Cr : constructible r) by (eapply c_add_char; eauto).
  apply mk_add_char_spec in E; auto. split; [apply constructible_wf; auto|].
  intros x ->. unfold mk_add_char in E.
  destruct (find _ REMARKABLE_ADDITION) as [[k' v]|] eqn:Fi; [|discriminate].
  apply find_some in Fi. destruct Fi as [Hin _].
  simpl in Hin. destruct Hin as [X|[X|[X|[X|[]]]]]; injection X as _ <-; vm_compute in E; discriminate.
Qed.

(** Everything the semantic actions build is constructible. *)
Section E.
  Variable so : list script -> list script.
  Hypothesis SO : set_order so.

  Lemma mapM_inv {A B} (f : A -> res B) l l' : mapM f l = Ok l' -> Forall2 (fun x y => f x = Ok y) l l'.
  Proof.
    revert l'; induction l as [|x l IH]; simpl; intros l' E.
    - injection E as <-. constructor.
    - destruct (f x) as [y|] eqn:Ey; simpl in E; [|discriminate].
      change (bind (mapM f l) (fun ys => Ok (y :: ys)) = Ok l') in E.
      destruct (mapM f l) as [ys|] eqn:El; simpl in E; [|discriminate].
      injection E as <-. constructor; auto.
  Qed.
  Lemma mapM_ok {A B} (f : A -> res B) l l' : Forall2 (fun x y => f x = Ok y) l l' -> mapM f l = Ok l'.
  Proof.
    induction 1 as [|x y l l' H _ IH]; simpl; auto. rewrite H. simpl.
    change (bind (mapM f l) (fun ys => Ok (y :: ys)) = Ok (y :: l')). rewrite IH. reflexivity.
  Qed.

  Section TInd.
    Variable Pt : tree -> Prop.
    Hypothesis H1 : forall p, Pt (TrPrim p).
    Hypothesis H2 : forall k, Pt (TrRemAdd k).
    Hypothesis H3 : forall k, Pt (TrRemMul k).
    Hypothesis H4 : forall n args, Forall (Forall Pt) args -> Pt (TrMul n args).
    Fixpoint tree_ind' (t : tree) : Pt t :=
      match t with
      | TrPrim p => H1 p
      | TrRemAdd k => H2 k
      | TrRemMul k => H3 k
      | TrMul n args =>
        H4 n args ((fix go (l : list (list tree)) : Forall (Forall Pt) l :=
          match l with
          | [] => Forall_nil _
          | x :: r => Forall_cons x
             ((fix go2 (l : list tree) : Forall Pt l :=
                match l with
                | [] => Forall_nil _
                | y :: r' => Forall_cons y (tree_ind' y) (go2 r')
                end) x) (go r)
          end) args)
      end.
  End TInd.

  Lemma eval_mul n args : eval so (TrMul n args) =
    (do l <- mapM (eval_sum so (eval so)) args; mk_mul_l l).
  Proof. reflexivity. Qed.

  Lemma until_none_some {A} (l : list A) : until_none (map Some l) = l.
  Proof. induction l; simpl; congruence. Qed.

  Lemma c_mul_l cs s : (forall c, In c cs -> constructible c) -> mk_mul_l cs = Ok s -> constructible s.
  Proof.
    intros F E. apply (c_mul (map Some cs)).
    - intros c Hc. apply in_map_iff in Hc. destruct Hc as (x & X & Hx). injection X as <-. auto.
    - unfold mk_mul. rewrite until_none_some. auto.
  Qed.

  Lemma eval_sum_constructible ts r :
    Forall (fun t => forall r, eval so t = Ok r -> constructible r) ts ->
    eval_sum so (eval so) ts = Ok r -> constructible r.
  Proof.
    intros F E. unfold eval_sum in E.
    destruct (mapM (eval so) ts) as [l|] eqn:El; simpl in E; [|discriminate].
    apply mapM_inv in El. eapply c_add; [exact SO| |exact E].
    intros c Hc. apply in_rev in Hc. clear E.
    induction El as [|t y ts l Ht El IH]; [destruct Hc|].
    inversion F; subst. destruct Hc as [<-|Hc]; auto.
  Qed.

  Lemma eval_constructible t r : eval so t = Ok r -> constructible r.
  Proof.
    revert r. induction t as [p|k|k|n args IH] using tree_ind'; intros r E.
    - destruct p as [p|]; simpl in E; [eapply c_mul_char; eauto|].
      apply (c_null 0). rewrite <- E. reflexivity.
    - simpl in E. eapply c_add_char; eauto.
    - simpl in E. eapply c_mul_char; eauto.
    - rewrite eval_mul in E.
      destruct (mapM (eval_sum so (eval so)) args) as [l|] eqn:El; simpl in E; [|discriminate].
      apply mapM_inv in El. apply c_mul_l in E; auto.
      clear E. induction El as [|ts y args l Ht El IHl]; intros c [].
      + subst. inversion IH; subst. eapply eval_sum_constructible; eauto.
      + inversion IH; subst. apply IHl; auto.
  Qed.

  Lemma mk_mul_char_inv k r : mk_mul_char k = Ok r -> is_add r = false.
  Proof.
    unfold mk_mul_char. destruct (find _ _) as [p|]; [intros E; injection E as <-; auto|].
    destruct (String.eqb k "E"); [discriminate|].
    destruct (find _ (list_prod _ _)) as [[p q]|]; [|discriminate].
    intros E; injection E as <-; auto.
  Qed.

  Lemma eval_nf t r : eval so t = Ok r -> nf r.
  Proof.
    intros E. pose proof (constructible_wf _ (eval_constructible _ _ E)) as W.
    destruct t as [[p|]|k|k|n args].
    - simpl in E. apply nf_notadd; auto. eapply mk_mul_char_inv; eauto.
    - simpl in E. injection E as <-. apply nf_notadd; auto.
    - simpl in E. eapply nf_rem_add; eauto.
    - simpl in E. apply nf_notadd; auto. eapply mk_mul_char_inv; eauto.
    - rewrite eval_mul in E.
      destruct (mapM (eval_sum so (eval so)) args) as [l|] eqn:El; simpl in E; [|discriminate].
      apply mk_mul_l_inv in E. destruct E as (a & b & c & -> & _). apply nf_notadd; auto.
  Qed.

  Lemma eval_term_constructible ts r : eval_term so ts = Ok r -> constructible r.
  Proof.
    assert (G : eval_sum so (eval so) ts = Ok r -> constructible r).
    { apply eval_sum_constructible. apply Forall_forall. intros; eapply eval_constructible; eauto. }
    destruct ts as [|t [|t' ts]]; simpl; auto. apply eval_constructible.
  Qed.

  (** Evaluation of the syntax tree of a printed script. *)
  Definition term_good (s : script) : Prop :=
    exists t r, terms s = [t] /\ eval so t = Ok r /\ nf r /\ norm r = norm s.

  (** The children of a script seen as a sum. *)
  Definition addends (s : script) : list script :=
    match s with Add cs => cs | _ => [s] end.

  Definition sum_good (s : script) : Prop :=
    exists l, eval_sum so (eval so) (terms s) = Ok (Add l) /\ wf (Add l) /\
              map norm l = map norm (addends s).

  Lemma sum_one t r : eval so t = Ok r -> is_add r = false ->
    exists l, eval_sum so (eval so) [t] = Ok (Add l) /\ wf (Add l) /\ map norm l = [norm r].
  Proof.
    intros E A. pose proof (eval_nf _ _ E) as N.
    unfold eval_sum. simpl. rewrite E. simpl.
    destruct (mk_add_of_terms so [r] [r]) as (l & El & Wl & Ml); auto.
    - discriminate.
    - intros c [<-|[]]; auto.
    - intros c [<-|[]]; auto.
    - apply wf_one; auto. apply N.
    - intros n. simpl. split.
      + intros (c & [<-|[]] & [[_ ?]|(d & Hd & _)]); auto. destruct r; simpl in *; tauto || discriminate.
      + intros [<-|[]]. exists r. split; [left; auto|left; auto].
    - exists l. auto.
  Qed.

  Lemma term_sum s : wf s -> is_add s = false -> term_good s -> sum_good s.
  Proof.
    intros W A (t & r & Et & E & N & Nr). unfold sum_good. rewrite Et.
    assert (Ar : is_add r = false).
    { rewrite (norm_eq_add r s); auto using nf_notadd. }
    destruct (sum_one t r E Ar) as (l & ? & ? & M). exists l. repeat split; auto; try apply H0.
    destruct s; try discriminate; simpl; rewrite M, Nr; auto.
  Qed.

  Lemma lone_child c u : wf c -> child_ok c -> wf (Add u) -> map norm u = map norm (addends c) ->
    wf (nullify (unwrap (Add u))) /\ child_ok (nullify (unwrap (Add u))) /\
    norm (nullify (unwrap (Add u))) = norm c /\ layer (Add u) = layer c.
  Proof.
    intros W K Wu M. destruct (child_ok_nullify _ Wu) as [W1 K1].
    assert (Nu : norm (Add u) = norm c).
    { rewrite norm_add, M. destruct K as [_ K].
      destruct c as [| | |cs]; simpl; auto. destruct cs as [|x [|y cs]]; auto. }
    assert (Lu : layer (Add u) = layer c).
    { rewrite <- (layer_norm (Add u)), Nu, layer_norm; auto. }
    assert (NU : norm (unwrap (Add u)) = norm (Add u)).
    { destruct u as [|x [|y u]]; reflexivity. }
    repeat split; auto; try apply K1.
    unfold nullify. destruct (is_empty (unwrap (Add u))) eqn:E.
    - rewrite <- empty_norm, NU, Nu, empty_norm in E.
      rewrite (norm_empty_child c) by auto. cbn [norm]. rewrite layer_unwrap, Lu. auto.
    - rewrite NU. auto.
  Qed.

  (** [mk_mul_l] on what the arguments evaluate to. *)
  Lemma mul_build a b c us : wf (Mul a b c) ->
    Forall2 (fun x u => exists l, u = Add l /\ wf (Add l) /\ map norm l = map norm (addends x))
            (if is_empty c then if is_empty b then [a] else [a; b] else [a; b; c]) us ->
    exists r, mk_mul_l us = Ok r /\ wf r /\ is_add r = false /\ norm r = norm (Mul a b c).
  Proof.
    intros W F. pose proof W as W0. apply wf_mul_inv in W0.
    destruct W0 as (Wa & Wb & Wc & Ka & Kb & Kc & Lb & Lc & L6 & C).
    set (l := layer a) in *.
    assert (G : exists ua ub uc, mk_mul_l us = mk_mul_l [ua; ub; uc] /\
       (exists x, ua = Add x /\ wf (Add x) /\ map norm x = map norm (addends a)) /\
       ((exists x, ub = Add x /\ wf (Add x) /\ map norm x = map norm (addends b)) \/ 
          (ub = Null l /\ is_empty b = true)) /\
       ((exists x, uc = Add x /\ wf (Add x) /\ map norm x = map norm (addends c)) \/ 
          (uc = Null l /\ is_empty c = true))).
    { destruct (is_empty c) eqn:Ec; [destruct (is_empty b) eqn:Eb|];
        repeat match goal with H : Forall2 _ (_ :: _) _ |- _ => inversion H; clear H; subst
               | H : Forall2 _ [] _ |- _ => inversion H; clear H; subst end.
      - destruct H1 as (x & -> & Wx & Mx). exists (Add x), (Null l), (Null l).
        destruct (lone_child a x) as (_ & _ & _ & Lx); auto.
        split; [|eauto 10]. unfold mk_mul_l. cbn [map hd nth]. rewrite Lx. reflexivity.
      - destruct H1 as (x & -> & Wx & Mx). exists (Add x), y0, (Null l).
        destruct (lone_child a x) as (_ & _ & _ & Lx); auto.
        split; [|eauto 10]. unfold mk_mul_l. cbn [map hd nth]. rewrite Lx. reflexivity.
      - exists y, y0, y1. split; [reflexivity|]. eauto 10. }
    destruct G as (ua & ub & uc & -> & Ga & Gb & Gc).
    assert (H : forall x u, wf x -> child_ok x -> layer x = l ->
       ((exists y, u = Add y /\ wf (Add y) /\ map norm y = map norm (addends x)) \/ 
          (u = Null l /\ is_empty x = true)) ->
       wf (nullify (unwrap u)) /\ child_ok (nullify (unwrap u)) /\
       norm (nullify (unwrap u)) = norm x /\ layer (nullify (unwrap u)) = l).
    { intros x u Wx Kx Lx [(y & -> & Wy & My)|[-> Ex]].
      - destruct (lone_child x y Wx Kx Wy My) as (? & ? & ? & Ly).
        repeat split; auto; try apply H0.
        rewrite layer_nullify, layer_unwrap. congruence.
      - assert (Hl : l <= MAX_LAYER) by lia.
        repeat split; auto; try discriminate.
        cbn. rewrite (norm_empty_child x), Lx; auto. }
    destruct (H a ua) as (Wa' & Ka' & Na & La'); auto.
    destruct (H b ub) as (Wb' & Kb' & Nb & Lb'); auto.
    destruct (H c uc) as (Wc' & Kc' & Nc & Lc'); auto.
    unfold mk_mul_l. cbn [map hd nth].
    set (a' := nullify (unwrap ua)) in *. set (b' := nullify (unwrap ub)) in *.
    set (c' := nullify (unwrap uc)) in *.
    rewrite La', Lb', Lc', Nat.eqb_refl. cbn [andb negb].
    assert (Car : cardinal (Mul a' b' c') = cardinal (Mul a b c)).
    { simpl. rewrite <- (cardinal_norm a'), <- (cardinal_norm b'), <- (cardinal_norm c'), Na, Nb, Nc
        by auto. rewrite !cardinal_norm; auto. }
    rewrite Car. apply N.ltb_ge in C. rewrite C. cbn [layer]. rewrite La'.
    apply N.ltb_ge in C.
    assert (X : Nat.ltb MAX_LAYER (S l) = false) by (apply Nat.ltb_ge; lia).
    rewrite X. exists (Mul a' b' c'). split; [reflexivity|].
    assert (W' : wf (Mul a' b' c')).
    { cbn [wf]. rewrite Car. repeat split; auto; try apply Ka'; try apply Kb'; try apply Kc'; try lia. }
    split; auto. split; auto.
    cbn [norm]. rewrite <- (empty_norm a'), <- (empty_norm b'), <- (empty_norm c'), Na, Nb, Nc.
    rewrite !empty_norm, La'. reflexivity.
  Qed.

  Lemma null_good l : l <= MAX_LAYER ->
    exists r, eval so (null_tree l) = Ok r /\ is_add r = false /\ norm r = Null l.
  Proof.
    induction l as [|l IH]; intros H.
    - exists (Null 0). auto.
    - destruct IH as (r & E & A & N); [lia|]. cbn [null_tree]. rewrite eval_mul.
      destruct (sum_one _ _ E A) as (u & Eu & Wu & Mu).
      destruct (mul_build (Null l) (Null l) (Null l) [Add u]) as (r' & Er' & Wr' & Ar' & Nr').
      + cbn [wf]. unfold MAX_SINGULAR_SEQUENCES. repeat split; simpl; auto; try lia; try discriminate.
      + simpl. constructor; [|constructor]. exists u. rewrite Mu, N. auto.
      + exists r'. simpl mapM. rewrite Eu. simpl bind. auto.
  Qed.

  Lemma all_good s : wf s -> (is_add s = false -> term_good s) /\ sum_good s.
  Proof.
    induction s as [l|p|a b c IHa IHb IHc|cs IH] using script_ind'; intros H.
    - assert (G : term_good (Null l)).
      { destruct (null_good l H) as (r & E & A & N). exists (null_tree l), r.
        repeat split; auto; apply (eval_nf _ _ E). }
      split; auto. apply term_sum; auto.
    - assert (G : term_good (Prim p)).
      { exists (TrPrim (Some p)), (Prim p).
        assert (E : eval so (TrPrim (Some p)) = Ok (Prim p)) by (destruct p; reflexivity).
        repeat split; auto; apply (eval_nf _ _ E). }
      split; auto. apply term_sum; auto.
    - assert (G : term_good (Mul a b c)).
      { pose proof H as W0. apply wf_mul_inv in W0.
        destruct W0 as (Wa & Wb & Wc & _).
        destruct (IHa Wa) as [_ (la & Ea & WA & Ma)].
        destruct (IHb Wb) as [_ (lb & Eb & WB & Mb)].
        destruct (IHc Wc) as [_ (lc & Ec & WC & Mc)].
        unfold term_good. cbn [terms].
        destruct (mul_character a b c) as [ch|] eqn:E.
        - destruct a as [|p| |], b as [|q| |], c as [[|]| | |]; try discriminate.
          simpl in E. inversion E; subst.
          exists (TrRemMul (remarkable_mul p q)), (Mul (Prim p) (Prim q) (Null 0)).
          assert (E' : eval so (TrRemMul (remarkable_mul p q)) = Ok (Mul (Prim p) (Prim q) (Null 0)))
            by (destruct p, q; reflexivity).
          repeat split; auto; apply (eval_nf _ _ E').
        - set (us := if is_empty c then if is_empty b then [Add la] else [Add la; Add lb]
                     else [Add la; Add lb; Add lc]).
          destruct (mul_build a b c us H) as (r & Er & Wr & Ar & Nr).
          { unfold us. destruct (is_empty c); [destruct (is_empty b)|];
              repeat constructor; eauto. }
          eexists. exists r. split; [reflexivity|]. split; [|split; auto using nf_notadd].
          rewrite eval_mul.
          rewrite (mapM_ok _ _ us); [simpl bind; auto|].
          unfold us, args3. cbn [fst snd].
          destruct (is_empty c); [destruct (is_empty b)|]; repeat constructor; auto. }
      split; auto. apply term_sum; auto.
    - split; [discriminate|].
      pose proof (wf_add_children _ H) as F.
      unfold sum_good. cbn [terms addends].
      destruct (add_char0 cs) as [k|] eqn:E.
      + unfold add_char0 in E. destruct (Nat.eqb_spec (layer (Add cs)) 0) as [L|L]; [|discriminate].
        assert (R : eval so (TrRemAdd k) = Ok (Add cs)).
        { assert (X : mk_add_char (fun l => l) k = Ok (Add cs)).
          { destruct (radd_inv _ _ H L E) as [[-> ->]|[[-> ->]|[[-> ->]|[-> ->]]]]; vm_compute; reflexivity. }
          simpl. revert X. unfold mk_add_char.
          destruct (find _ REMARKABLE_ADDITION) as [[k' v]|]; auto.
          rewrite (mk_add_order so (fun l => l)); auto using set_order_id. apply wf_letters_in. }
        unfold eval_sum. rewrite (mapM_ok _ _ [Add cs]) by (repeat constructor; auto). cbn [bind rev app].
        apply mk_add_of_terms; auto.
        * discriminate.
        * intros c [<-|[]]. apply (eval_nf _ _ R).
        * intros c [<-|[]]; auto.
        * intros n. rewrite in_map_iff. split.
          -- intros (c & [<-|[]] & [[X _]|(d & Hd & X)]); [discriminate|]. exists d; auto.
          -- intros (d & X & Hd). exists (Add cs). split; [left; auto|]. right. exists d; auto.
      + assert (T : forall c, In c cs -> is_add c = false /\ layer c = layer (Add cs)).
        { intros c Hc. apply (wf_add_in _ _ H Hc). }
        assert (X : exists rs, mapM (eval so) (flat_map terms cs) = Ok rs /\
                     Forall2 (fun r c => nf r /\ norm r = norm c) rs cs).
        { clear H E. revert T. generalize (layer (Add cs)). intros L0 T.
          induction cs as [|c cs IHcs].
          - exists []. split; [reflexivity|constructor].
          - inversion IH; inversion F; subst.
            destruct IHcs as (rs & Ers & Frs); auto. { intros; apply T; right; auto. }
            destruct (H1 H5) as [G _]. destruct G as (t & r & Et & Er & N & Nr).
            { apply T. left; auto. }
            exists (r :: rs). simpl flat_map. rewrite Et. split; [|constructor; auto].
            apply mapM_ok. simpl. constructor; auto. apply mapM_inv; auto. }
        destruct X as (rs & Ers & Frs).
        unfold eval_sum. rewrite Ers. simpl bind.
        assert (Frs1 : forall r, In r rs -> exists c, In c cs /\ nf r /\ norm r = norm c).
        { clear -Frs. induction Frs as [|r c rs cs [Hn He] Frs IH]; intros r0 Hr; [destruct Hr|].
          destruct Hr as [<-|Hr]; [exists c; simpl; auto|].
          destruct (IH _ Hr) as (c0 & ? & ? & ?). exists c0; simpl; auto. }
        assert (Frs2 : forall c, In c cs -> exists r, In r rs /\ nf r /\ norm r = norm c).
        { clear -Frs. induction Frs as [|r c rs cs [Hn He] Frs IH]; intros r0 Hr; [destruct Hr|].
          destruct Hr as [<-|Hr]; [exists r; simpl; auto|].
          destruct (IH _ Hr) as (c0 & ? & ? & ?). exists c0; simpl; auto. }
        assert (A : forall r c, In c cs -> nf r -> norm r = norm c -> is_add r = false).
        { intros r c Hc Nr X. destruct (wf_add_in _ _ H Hc) as (? & ? & _).
          rewrite (norm_eq_add r c); auto using nf_notadd. }
        apply mk_add_of_terms; auto.
        * intros X. apply (f_equal (@rev _)) in X. rewrite rev_involutive in X. simpl in X. subst rs.
          inversion Frs; subst. simpl in H. tauto.
        * intros r Hr. apply in_rev in Hr. destruct (Frs1 _ Hr) as (c & Hc & ? & ?). auto.
        * intros r Hr. apply in_rev in Hr. destruct (Frs1 _ Hr) as (c & Hc & Nr & X).
          destruct (wf_add_in _ _ H Hc) as (? & ? & <-).
          rewrite <- (layer_norm r), X, layer_norm; auto using nf_wf.
        * intros n. rewrite in_map_iff. split.
          -- intros (r & Hr & D). apply in_rev in Hr. destruct (Frs1 _ Hr) as (c & Hc & Nr & X).
             destruct D as [[_ D]|(d & Hd & _)].
             ++ exists c. split; auto. congruence.
             ++ specialize (A _ _ Hc Nr X). destruct r; simpl in *; tauto || discriminate.
          -- intros (c & X & Hc). destruct (Frs2 _ Hc) as (r & Hr & Nr & Y).
             exists r. split; [apply -> in_rev; auto|]. left. split; [eauto|congruence].
  Qed.

  Lemma addends_norm s l : wf s -> wf (Add l) -> map norm l = map norm (addends s) -> norm (Add l) = norm s.
  Proof.
    intros W Wl M. rewrite norm_add, M. destruct s; try reflexivity. symmetry. apply norm_add.
  Qed.

  Theorem parse_str s : wf s -> exists r, parse so (str s) = Ok r /\ wf r /\ norm r = norm s.
  Proof.
    intros W. unfold parse. rewrite parse_tree_str by auto.
    assert (X : exists r, eval_term so (terms s) = Ok r /\ wf r /\ norm r = norm s).
    { destruct (all_good s W) as [T (l & E & Wl & M)].
      destruct (terms s) as [|t [|t' ts]] eqn:Et.
      - simpl. exists (Add l). split; auto. split; auto. apply addends_norm; auto.
      - simpl. unfold eval_sum in E. simpl in E.
        destruct (eval so t) as [r|] eqn:Er; [|discriminate].
        pose proof (eval_nf _ _ Er) as Nr. exists r. split; auto. split; [apply Nr|].
        simpl in E.
        assert (Fc : forall c, In c [r] -> nf c) by (intros c [<-|[]]; auto).
        destruct (mk_add_terms _ _ _ SO Fc E) as (l' & X & _ & S & I). injection X as <-.
        assert (Y : norm (Add l) = norm r).
        { destruct (is_add r) eqn:Ar.
          - destruct r as [| | |ds]; try discriminate. destruct Nr as [Wr Nr].
            rewrite !norm_add. f_equal. apply add_norm_unique; auto.
            + apply sorted_norm.
              * pose proof (nf_kids _ Wr) as NK. simpl in NK. rewrite Forall_forall in *.
                intros c Hc o Ho. apply lt_norm; auto.
              * apply (nf_kids _ Wr).
              * simpl in Wr. tauto.
            + intros n. rewrite I. rewrite in_map_iff. split.
              * intros (c & [<-|[]] & [[Z _]|(d & Hd & Z)]); [discriminate|]. exists d; auto.
              * intros (d & Z & Hd). exists (Add ds). split; [left; auto|]. right; exists d; auto.
          - destruct (sum_one t r Er Ar) as (l' & E' & _ & M').
            unfold eval_sum in E'. simpl in E'. rewrite Er in E'. simpl in E'.
            rewrite E in E'. injection E' as <-. rewrite norm_add, M'. reflexivity. }
        rewrite <- Y. apply addends_norm; auto.
      - exists (Add l). split; [exact E|]. split; auto. apply addends_norm; auto. }
    destruct X as (r & -> & Wr & Nr). exists r. auto.
  Qed.

  Lemma parse_constructible t r : parse so t = Ok r -> constructible r.
  Proof.
    unfold parse. destruct (parse_tree (lex t)) as [ts|]; [|discriminate].
    intros E. apply (eval_term_constructible ts). destruct (eval_term so ts) as [|[]]; simpl in E; try discriminate; auto.
  Qed.
End E.
