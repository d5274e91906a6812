(** The printed form of a script determines it, up to [norm]. *)
From Coq Require Import List String Ascii Bool NArith Arith Lia Sorted.
From Verif Require Import Base Script ScriptParser ScriptGrammar ScriptGrammarProofs ScriptWf.
Import ListNotations.
Local Open Scope string_scope.

Lemma string_app_assoc (a b c : string) : (a ++ b) ++ c = a ++ (b ++ c).
Proof. induction a; simpl; congruence. Qed.
Lemma string_app_nil (a : string) : a ++ "" = a.
Proof. induction a; simpl; congruence. Qed.

(** Strings that can be lexed independently of what follows. *)
Definition okstr (a : string) : Prop := forall b, lex (a ++ b) = (lex a ++ lex b)%list.

Lemma okstr_app a b : okstr a -> okstr b -> okstr (a ++ b).
Proof.
  intros Ha Hb c. rewrite string_app_assoc, !Ha, Hb, app_assoc. reflexivity.
Qed.
Lemma okstr_nil : okstr "".
Proof. intros b; reflexivity. Qed.
Lemma okstr_mark n : okstr (LAYER_MARK n).
Proof.
  do 7 (destruct n as [|n]; [intros b; reflexivity|]).
  intros b. destruct n; reflexivity.
Qed.
Lemma lex_mark n : n <= MAX_LAYER -> lex (LAYER_MARK n) = [TMark n].
Proof. unfold MAX_LAYER. do 7 (destruct n as [|n]; [reflexivity|]). lia. Qed.
Lemma okstr_prim p : okstr (prim_char p).
Proof. intros b; destruct p; reflexivity. Qed.
Lemma okstr_rmul p q : okstr (remarkable_mul p q).
Proof. intros b; destruct p, q; reflexivity. Qed.
Lemma lex_rmul p q : lex (remarkable_mul p q) = [TRemMul (remarkable_mul p q)].
Proof. destruct p, q; reflexivity. Qed.
Lemma okstr_plus : okstr "+".
Proof. intros b; reflexivity. Qed.
Lemma okstr_join l : Forall okstr l -> okstr (join "+" l).
Proof.
  induction 1 as [|x l Hx Hl IH]; [apply okstr_nil|].
  simpl. destruct l; auto. apply okstr_app; auto. apply (okstr_app "+"); auto using okstr_plus.
Qed.
Lemma okstr_sconcat l : Forall okstr l -> okstr (sconcat l).
Proof. induction 1; [apply okstr_nil|]. simpl. apply okstr_app; auto. Qed.

Lemma okstr_null l : okstr (null_str l).
Proof.
  unfold null_str. apply okstr_app; [intros b; reflexivity|].
  apply okstr_sconcat. apply Forall_forall. intros x Hx. apply in_map_iff in Hx.
  destruct Hx as (n & <- & _). apply okstr_mark.
Qed.

(** The remarkable sums are recognised exactly. *)
Definition script0_eqb (a b : script) : bool :=
  match a, b with
  | Null 0, Null 0 => true
  | Prim p, Prim q => prim_eqb p q
  | _, _ => false
  end.
Fixpoint scripts0_eqb (l l' : list script) : bool :=
  match l, l' with
  | [], [] => true
  | x :: r, y :: r' => script0_eqb x y && scripts0_eqb r r'
  | _, _ => false
  end.
Lemma script0_eqb_eq a b : script0_eqb a b = true -> a = b.
Proof.
  destruct a as [[|]|p| |], b as [[|]|q| |]; simpl; try discriminate; auto.
  destruct p, q; simpl; try discriminate; auto.
Qed.
Lemma scripts0_eqb_eq l l' : scripts0_eqb l l' = true -> l = l'.
Proof.
  revert l'; induction l; intros [|y l']; simpl; intros H; try discriminate; auto.
  rewrite andb_true_iff in H. destruct H as [H1 H2].
  apply script0_eqb_eq in H1. subst. f_equal; auto.
Qed.

Definition radd_check (cs : list script) : bool :=
  match add_character cs with
  | Some k => existsb (fun kv => String.eqb (fst kv) k && scripts0_eqb cs (map letter_script (snd kv)))
                      REMARKABLE_ADDITION
  | None => true
  end.

Lemma radd_inv' cs k : wf (Add cs) -> layer (Add cs) = 0 -> add_character cs = Some k ->
  exists v, In (k, v) REMARKABLE_ADDITION /\ cs = map letter_script v.
Proof.
  intros H L E.
  assert (C : radd_check cs = true) by (apply layer0_check; auto; vm_compute; reflexivity).
  unfold radd_check in C. rewrite E in C. apply existsb_exists in C.
  destruct C as ([k' v] & Hin & C). simpl in C. rewrite andb_true_iff, String.eqb_eq in C.
  destruct C as [-> C]. exists v. split; auto. apply scripts0_eqb_eq; auto.
Qed.

Lemma radd_inv cs k : wf (Add cs) -> layer (Add cs) = 0 -> add_character cs = Some k ->
  (k = "O" /\ cs = [Prim PU; Prim PA]) \/
  (k = "M" /\ cs = [Prim PS; Prim PB; Prim PT]) \/
  (k = "F" /\ cs = [Prim PU; Prim PA; Prim PS; Prim PB; Prim PT]) \/
  (k = "I" /\ cs = [Null 0; Prim PU; Prim PA; Prim PS; Prim PB; Prim PT]).
Proof.
  intros H L E. destruct (radd_inv' _ _ H L E) as (v & Hin & ->).
  simpl in Hin. destruct Hin as [X|[X|[X|[X|[]]]]]; inversion X; subst; simpl;
  [left|right; left|right; right; left|right; right; right]; split; reflexivity.
Qed.

Lemma okstr_radd cs k : wf (Add cs) -> layer (Add cs) = 0 -> add_character cs = Some k ->
  okstr k /\ lex k = [TRemAdd k].
Proof.
  intros H L E. destruct (radd_inv _ _ H L E) as [[-> _]|[[-> _]|[[-> _]|[-> _]]]];
  split; try (intros b; reflexivity); reflexivity.
Qed.

(** The syntax tree of the printed form. *)
Fixpoint null_tree (l : nat) : tree :=
  match l with
  | 0 => TrPrim None
  | S l' => TrMul l [[null_tree l']]
  end.

Definition args3 (a b c : list tree * bool) : list (list tree) :=
  if snd c then
    if snd b then [fst a] else [fst a; fst b]
  else [fst a; fst b; fst c].

Definition add_char0 (cs : list script) : option string :=
  if Nat.eqb (layer (Add cs)) 0 then add_character cs else None.

Fixpoint terms (s : script) : list tree :=
  match s with
  | Null l => [null_tree l]
  | Prim p => [TrPrim (Some p)]
  | Mul a b c =>
    [match mul_character a b c with
     | Some ch => TrRemMul ch
     | None => TrMul (S (layer a))
                     (args3 (terms a, is_empty a) (terms b, is_empty b) (terms c, is_empty c))
     end]
  | Add cs =>
    match add_char0 cs with
    | Some k => [TrRemAdd k]
    | None => flat_map terms cs
    end
  end.

Lemma terms_single s : is_add s = false -> exists t, terms s = [t].
Proof. destruct s; simpl; intros; try discriminate; eauto. Qed.

Lemma str_add cs : str (Add cs) =
  match add_char0 cs with Some ch => ch ++ ":" | None => join "+" (map str cs) end.
Proof. reflexivity. Qed.

Lemma null_str_S l : null_str (S l) = null_str l ++ LAYER_MARK (S l).
Proof.
  unfold null_str. rewrite (seq_S (S l)). rewrite map_app. simpl (0 + S l).
  assert (G : forall l1 l2, sconcat (l1 ++ l2) = sconcat l1 ++ sconcat l2).
  { induction l1; simpl; intros; auto. rewrite IHl1, string_app_assoc. auto. }
  rewrite G. simpl sconcat at 2. rewrite string_app_nil, string_app_assoc. reflexivity.
Qed.

Lemma lex_null l : l <= MAX_LAYER -> d_script l (lex (null_str l)) (null_tree l).
Proof.
  induction l; intros H.
  - apply d_prim.
  - rewrite null_str_S. rewrite (okstr_null l). rewrite lex_mark by auto.
    cbn [null_tree]. apply d_mul1; auto. constructor. apply IHl. lia.
Qed.

Definition parsed (s : script) : Prop :=
  okstr (str s) /\ d_sum (layer s) (lex (str s)) (terms s).

Lemma parsed_single s : is_add s = false -> parsed s ->
  exists t, terms s = [t] /\ d_script (layer s) (lex (str s)) t.
Proof.
  intros A [_ H]. destruct (terms_single _ A) as [t E]. exists t. split; auto.
  rewrite E in H. inversion H; subst; auto.
  match goal with X : d_sum _ _ [] |- _ => inversion X end.
Qed.

Lemma parsed_join n cs : cs <> [] -> Forall parsed cs ->
  (forall c, In c cs -> is_add c = false /\ layer c = n) ->
  okstr (join "+" (map str cs)) /\ d_sum n (lex (join "+" (map str cs))) (flat_map terms cs).
Proof.
  intros NE F. split.
  { apply okstr_join. apply Forall_map. eapply Forall_impl; [|exact F]. intros x [Hx _]; auto. }
  induction F as [|c cs Hc F IH]; [congruence|].
  destruct (H c (or_introl eq_refl)) as [A L].
  destruct (parsed_single c A Hc) as (t & Et & Dt). rewrite L in Dt.
  destruct cs as [|c' cs'].
  - simpl. rewrite Et. simpl. constructor; auto.
  - change (join "+" (map str (c :: c' :: cs'))) with (str c ++ "+" ++ join "+" (map str (c' :: cs'))).
    rewrite (proj1 Hc). rewrite okstr_plus.
    change (lex "+") with [TPlus].
    change (flat_map terms (c :: c' :: cs')) with (terms c ++ flat_map terms (c' :: cs'))%list.
    rewrite Et. cbn [app]. apply d_more; auto. apply IH; [discriminate|].
    intros x Hx; apply H; right; auto.
Qed.

Lemma lex_str s : wf s -> parsed s.
Proof.
  induction s as [l|p|a b c IHa IHb IHc|cs IH] using script_ind'; intros H.
  - split; [apply okstr_null|]. simpl. constructor. apply lex_null; auto.
  - split.
    + simpl. apply okstr_app; [apply okstr_prim|apply (okstr_mark 0)].
    + destruct p; simpl; constructor; apply d_prim.
  - apply wf_mul_inv in H. destruct H as (Wa & Wb & Wc & Ka & Kb & Kc & Lb & Lc & L6 & _).
    destruct (IHa Wa) as [Oa Da]. destruct (IHb Wb) as [Ob Db]. destruct (IHc Wc) as [Oc Dc].
    rewrite Lb in Db. rewrite Lc in Dc.
    unfold parsed. cbn [str terms layer].
    destruct (mul_character a b c) as [ch|] eqn:E.
    + destruct a as [|p| |], b as [|q| |], c as [[|]| | |]; try discriminate.
      simpl in E. inversion E; subst. split.
      * apply okstr_app; [apply okstr_rmul|apply (okstr_mark 1)].
      * rewrite (okstr_rmul p q). rewrite lex_rmul. simpl. constructor. apply d_remmul.
    + unfold render3, args3. cbn [fst snd].
      assert (M : lex (LAYER_MARK (S (layer a))) = [TMark (S (layer a))]) by (apply lex_mark; lia).
      assert (OM := okstr_mark (S (layer a))).
      destruct (is_empty c) eqn:Ec; [destruct (is_empty b) eqn:Eb|].
      * split; [apply okstr_app; auto|]. rewrite Oa, M. constructor. apply d_mul1; auto.
      * split; [repeat apply okstr_app; auto|].
        rewrite string_app_assoc, Oa, Ob, M. constructor. apply d_mul2; auto.
      * split; [repeat apply okstr_app; auto|].
        rewrite !string_app_assoc, Oa, Ob, Oc, M. constructor. apply d_mul3; auto.
  - pose proof (wf_add_children _ H) as F.
    unfold parsed. rewrite str_add. cbn [terms].
    destruct (add_char0 cs) as [k|] eqn:E.
    + unfold add_char0 in E. destruct (Nat.eqb_spec (layer (Add cs)) 0) as [L|L]; [|discriminate].
      destruct (okstr_radd _ _ H L E) as [Ok Lk]. rewrite L. split.
      * apply okstr_app; auto. apply (okstr_mark 0).
      * rewrite Ok, Lk. simpl. constructor. apply d_remadd.
    + apply parsed_join.
      * simpl in H; tauto.
      * rewrite Forall_forall in *. auto.
      * intros c Hc. destruct (wf_add_in _ _ H Hc) as (_ & ? & ?). auto.
Qed.

(** Reading a tree back, without any check. *)
Definition lone (l : list script) : script := match l with [x] => x | _ => Add l end.

Fixpoint back (t : tree) : script :=
  match t with
  | TrPrim None => Null 0
  | TrPrim (Some p) => Prim p
  | TrRemAdd k =>
    match find (fun kv => String.eqb (fst kv) k) REMARKABLE_ADDITION with
    | Some (_, v) => Add (map letter_script v)
    | None => Add []
    end
  | TrRemMul k => match mk_mul_char k with Ok s => s | Err _ => Add [] end
  | TrMul n args =>
    let l := map (fun ts => lone (map back ts)) args in
    let a := hd (Add []) l in
    let b := nth 1 l (Null (layer a)) in
    let c := nth 2 l (Null (layer a)) in
    if is_empty a && is_empty b && is_empty c then Null n else Mul a b c
  end.

Definition backs (ts : list tree) : script := lone (map back ts).

Lemma back_null l : back (null_tree l) = Null l.
Proof.
  induction l; auto. cbn [null_tree back map lone hd nth]. rewrite IHl. reflexivity.
Qed.

Lemma norm_add cs : norm (Add cs) = lone (map norm cs).
Proof. simpl. destruct (map norm cs) as [|? [|]]; reflexivity. Qed.

Lemma back_rmul p q : back (TrRemMul (remarkable_mul p q)) = Mul (Prim p) (Prim q) (Null 0).
Proof. destruct p, q; reflexivity. Qed.

Lemma norm_empty_child a : child_ok a -> is_empty a = true -> norm a = Null (layer a).
Proof. intros [Ha _] E. rewrite (Ha E). reflexivity. Qed.

Lemma backs_terms s : wf s -> backs (terms s) = norm s.
Proof.
  induction s as [l|p|a b c IHa IHb IHc|cs IH] using script_ind'; intros H.
  - unfold backs. simpl. apply back_null.
  - reflexivity.
  - pose proof H as H'. apply wf_mul_inv in H.
    destruct H as (Wa & Wb & Wc & Ka & Kb & Kc & Lb & Lc & L6 & _).
    specialize (IHa Wa). specialize (IHb Wb). specialize (IHc Wc).
    assert (LN := layer_norm a Wa).
    unfold backs in *. cbn [terms map lone].
    destruct (mul_character a b c) as [ch|] eqn:E.
    + destruct a as [|p| |], b as [|q| |], c as [[|]| | |]; try discriminate.
      simpl in E. inversion E; subst. rewrite back_rmul. reflexivity.
    + cbn [back norm]. unfold args3. cbn [fst snd].
      rewrite <- (empty_norm a), <- (empty_norm b), <- (empty_norm c).
      destruct (is_empty (norm c)) eqn:Ec; [destruct (is_empty (norm b)) eqn:Eb|];
        cbn [map hd nth]; rewrite ?IHa, ?IHb, ?IHc, ?LN.
      * rewrite empty_norm in Ec, Eb.
        rewrite (norm_empty_child b), (norm_empty_child c), Lb, Lc; auto.
      * rewrite empty_norm in Ec.
        rewrite Eb. rewrite (norm_empty_child c), Lc; auto.
      * rewrite Ec. rewrite !andb_false_r. auto.
  - pose proof (wf_add_children _ H) as F.
    unfold backs. cbn [terms].
    destruct (add_char0 cs) as [k|] eqn:E.
    + unfold add_char0 in E. destruct (Nat.eqb_spec (layer (Add cs)) 0) as [L|L]; [|discriminate].
      destruct (radd_inv _ _ H L E) as [[-> ->]|[[-> ->]|[[-> ->]|[-> ->]]]]; reflexivity.
    + rewrite norm_add. f_equal.
      assert (A : forall c, In c cs -> is_add c = false).
      { intros c Hc. apply (wf_add_in _ _ H Hc). }
      clear H E. induction cs as [|c cs IHcs]; auto.
      inversion IH; inversion F; subst. simpl.
      destruct (terms_single c (A c (or_introl eq_refl))) as [t Et].
      specialize (H1 H5). unfold backs in H1. rewrite Et in *. simpl in *.
      rewrite H1. f_equal. apply IHcs; auto.
Qed.

Lemma parse_tree_str s : wf s -> parse_tree (lex (str s)) = Some (terms s).
Proof.
  intros H. apply parse_tree_complete. exists (layer s). apply (lex_str s H).
Qed.

Theorem str_inj_norm s s' : wf s -> wf s' -> str s = str s' -> norm s = norm s'.
Proof.
  intros H H' E. rewrite <- (backs_terms s H), <- (backs_terms s' H'). f_equal.
  pose proof (parse_tree_str s H). pose proof (parse_tree_str s' H'). congruence.
Qed.

(** Normalising does not change the printed form. *)
Lemma empty_str s : wf s -> is_empty s = true -> is_add s = false -> str s = null_str (layer s).
Proof.
  destruct s as [l|p|a b c|cs]; intros H E A; auto; try discriminate.
  apply wf_mul_inv in H. destruct H as (_ & _ & _ & Ha & Hb & Hc & Lb & Lc & _).
  simpl in E. rewrite !andb_true_iff in E. destruct E as [[Ea Eb] Ec].
  rewrite (proj1 Ha Ea), (proj1 Hb Eb), (proj1 Hc Ec). cbn [str layer mul_character].
  simpl is_empty. unfold render3. cbn [fst snd]. rewrite null_str_S. reflexivity.
Qed.

Definition shape (s : script) : option (nat + prim) :=
  match s with Null l => Some (inl l) | Prim p => Some (inr p) | _ => None end.

Lemma shape_norm x : child_ok x -> shape (norm x) = shape x.
Proof.
  intros [K1 K2]. destruct x as [l|p|x1 x2 x3|cs]; auto.
  - simpl in *. destruct (is_empty x1 && is_empty x2 && is_empty x3); auto.
    specialize (K1 eq_refl). discriminate.
  - destruct cs as [|y [|z cs]]; auto. exfalso; apply (K2 y); auto.
Qed.

Lemma mul_character_shape a b c :
  mul_character a b c =
  match shape a, shape b, shape c with
  | Some (inr p), Some (inr q), Some (inl 0) => Some (remarkable_mul p q)
  | _, _, _ => None
  end.
Proof. destruct a, b; try reflexivity. destruct c as [[|]| | |]; reflexivity. Qed.

Lemma mul_character_norm a b c : wf (Mul a b c) ->
  mul_character (norm a) (norm b) (norm c) = mul_character a b c.
Proof.
  intros H. apply wf_mul_inv in H. rewrite !mul_character_shape, !shape_norm; tauto.
Qed.

Lemma add_char0_norm cs : wf (Add cs) -> add_char0 (map norm cs) = add_char0 cs.
Proof.
  intros H. unfold add_char0.
  assert (L : layer (Add (map norm cs)) = layer (Add cs)).
  { destruct cs as [|c cs]; auto. simpl. apply layer_norm.
    apply (wf_add_in _ c H). left; auto. }
  rewrite L. destruct (Nat.eqb_spec (layer (Add cs)) 0) as [L0|L0]; auto. f_equal.
  rewrite <- (map_id cs) at 2. apply map_ext_in. intros c Hc.
  destruct (wf_add_in _ _ H Hc) as (_ & A & Lc). rewrite L0 in Lc.
  destruct c; simpl in *; auto; discriminate.
Qed.

Lemma str_norm s : wf s -> str (norm s) = str s.
Proof.
  induction s as [l|p|a b c IHa IHb IHc|cs IH] using script_ind'; intros H; auto.
  - pose proof H as H'. pose proof (mul_character_norm _ _ _ H) as MC. apply wf_mul_inv in H.
    destruct H as (Wa & Wb & Wc & Ka & Kb & Kc & Lb & Lc & L6 & _).
    cbn [norm]. destruct (is_empty a && is_empty b && is_empty c) eqn:E.
    + symmetry. apply (empty_str _ H'); auto.
    + cbn [str]. rewrite MC. rewrite !empty_norm, IHa, IHb, IHc, layer_norm; auto.
  - pose proof (wf_add_children _ H) as F. rewrite Forall_forall in F, IH.
    rewrite norm_add.
    assert (E : map str (map norm cs) = map str cs).
    { rewrite map_map. apply map_ext_in. auto. }
    pose proof (add_char0_norm _ H) as AC.
    assert (G : str (Add (map norm cs)) = str (Add cs)).
    { rewrite !str_add, AC, E. reflexivity. }
    destruct cs as [|c [|c' cs]]; auto.
    change (lone (map norm [c])) with (norm c). rewrite IH by (try apply F; simpl; auto).
    assert (A : add_char0 [c] = None).
    { unfold add_char0. destruct (Nat.eqb_spec (layer (Add [c])) 0) as [L|L]; auto.
      destruct (add_character [c]) as [k|] eqn:Ek; auto.
      destruct (radd_inv _ _ H L Ek) as [[_ X]|[[_ X]|[[_ X]|[_ X]]]]; discriminate. }
    rewrite str_add, A. reflexivity.
Qed.

Theorem script_eqb_norm s s' : wf s -> wf s' -> (script_eqb s s' = true <-> norm s = norm s').
Proof.
  intros H H'. unfold script_eqb. rewrite String.eqb_eq. split.
  - apply str_inj_norm; auto.
  - intros E. rewrite <- (str_norm s H), <- (str_norm s' H'), E. auto.
Qed.
