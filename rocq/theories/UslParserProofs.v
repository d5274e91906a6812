(** Proofs about the parser of USLs. *)
From Coq Require Import List String Ascii Bool NArith Arith Lia Permutation DecimalString.
From Verif Require Import Base Script ScriptParser SortProofs ScriptWf ScriptStrProofs ScriptOrderProofs ScriptGrammarProofs ScriptSpec ScriptCtorProofs ScriptParseProofs ScriptEqProofs Commons Usl Sfun UslParser OrderTheory UslProofs.
Import ListNotations.
Local Open Scope string_scope.

(** ** Parsing a printed morpheme *)
Lemma nf_norm_str a b : wf a -> wf b -> norm a = norm b -> str a = str b.
Proof. intros Wa Wb E. apply script_eqb_eq. apply script_eqb_norm; auto. Qed.
Lemma parse_str_nf so s : set_order so -> nf s -> exists r, parse so (str s) = Ok r /\ nf r /\ str r = str s.
Proof.
  intros SO N. pose proof (nf_wf _ N) as W. destruct (parse_str so SO s W) as (r & E & Wr & M). exists r. split; [exact E|].
  split; [|apply nf_norm_str; auto]. split; [exact Wr|]. intros x ->.
  destruct (wf_add_in _ x Wr (or_introl eq_refl)) as (Wx & Ax & _). assert (Nx : nf x) by (apply nf_notadd; auto).
  rewrite norm_add in M. cbn [map] in M.
  destruct (is_add s) eqn:As.
  - assert (norm x = norm s) by exact M. rewrite (norm_eq_add x s) in Ax by auto. congruence.
  - destruct (proj1 (all_good so SO s W) As) as (t & r' & T & Er & Nr & _). unfold parse in E. rewrite parse_tree_str, T in E by auto. cbn in E. rewrite Er in E.
    cbn in E. injection E as ->. now apply (proj2 Nr x).
Qed.

(** ** The lexer on texts made of words and delimiters *)
Inductive tokof : wtok -> utoken -> Prop :=
| tk_morpheme w : script_word w -> old_class w = None -> tokof (Wd w) (UMorpheme w)
| tk_group n : tokof (Wd ("m" ++ int_str n)) (UGroup n)
| tk_lpar : tokof (Dl "(") ULpar
| tk_rpar : tokof (Dl ")") URpar
| tk_chevron : tokof (Dl ">") UChevron
| tk_rbr : tokof (Dl "]") URbr
| tk_bang : tokof (Dl "!") UBang.

Definition stops (r : string) : Prop := r = "" \/ exists c r', r = String c r' /\ delimiter c = true.
Lemma span_words s : exists w r, s = w ++ r /\ chars_all (fun c => negb (delimiter c)) w = true /\ stops r.
Proof.
  induction s as [|c s (w & r & -> & H & S)]; [exists "", ""; split; [|split]; auto; now left|].
  destruct (delimiter c) eqn:D.
  - exists "", (String c (w ++ r)). split; [reflexivity|]. split; [reflexivity|]. right. eauto.
  - exists (String c w), r. split; [reflexivity|]. split; [cbn; now rewrite D|auto].
Qed.
Lemma split_stops w r : wordy w -> stops r -> split_words "" (w ++ r) = Wd w :: split_words "" r.
Proof.
  intros H [->|(c & r' & -> & D)]; [rewrite app_string_nil, split_end by auto; reflexivity|]. rewrite split_word by auto. cbn [split_words]. rewrite D.
  destruct w; [destruct H; congruence|reflexivity].
Qed.
Lemma ulex_skip w : forall br r, ulex (String.length w) br (w ++ r) = match w with "" => ulex 0 br r | _ => ulex 0 (Ascii.eqb (match String.get (String.length w - 1) w with Some c => c | None => "000"%char end) "[") r end.
Proof.
  induction w as [|c w IH]; intros br r; [reflexivity|]. cbn [String.length append ulex]. rewrite IH. destruct w as [|d w]; [reflexivity|].
  cbn [String.length String.get Nat.sub]. rewrite Nat.sub_0_r. reflexivity.
Qed.
Lemma get_char (p : ascii -> bool) w n c : chars_all p w = true -> String.get n w = Some c -> p c = true.
Proof.
  revert n. induction w as [|d w IH]; intros n H E; [destruct n; discriminate|]. cbn in H. apply andb_true_iff in H. destruct H as [Hd H].
  destruct n; cbn in E; [now injection E as <-|eauto].
Qed.
Lemma ulex_token br c w r t : ignored c = false -> token_at br (String c w ++ r) = Some (t, S (String.length w)) -> chars_all (fun c => negb (Ascii.eqb c "[")) (String c w) = true ->
  ulex 0 br (String c w ++ r) = t :: ulex 0 false r.
Proof.
  intros I E H. cbn [append] in *. cbn [ulex]. rewrite I, E. cbn in H. apply andb_true_iff in H. destruct H as [Hc H]. apply negb_true_iff in Hc. rewrite Hc. f_equal.
  rewrite Nat.sub_succ, Nat.sub_0_r, ulex_skip. destruct w as [|d w]; [reflexivity|]. f_equal.
  destruct (String.get _ _) as [x|] eqn:G; [|reflexivity]. pose proof (get_char _ _ _ _ H G) as X. now apply negb_true_iff in X.
Qed.
Lemma ulex_br c r br br' : c <> ">"%char -> ulex 0 br (String c r) = ulex 0 br' (String c r).
Proof.
  intros N. apply Ascii.eqb_neq in N. cbn [ulex]. unfold token_at. rewrite N, !andb_false_r. reflexivity.
Qed.

Lemma term_letter_eq c : term_letter c = script_letter c. Proof. reflexivity. Qed.
Lemma script_term c : script_char c = true -> term_char c = true.
Proof. destruct c as [b0 b1 b2 b3 b4 b5 b6 b7]; destruct b0, b1, b2, b3, b4, b5, b6, b7; vm_compute; congruence. Qed.
Lemma delim_term c : delimiter c = true -> term_char c = false.
Proof. destruct c as [b0 b1 b2 b3 b4 b5 b6 b7]; destruct b0, b1, b2, b3, b4, b5, b6, b7; vm_compute; congruence. Qed.
Lemma delim_digit c : delimiter c = true -> digit c = false.
Proof. destruct c as [b0 b1 b2 b3 b4 b5 b6 b7]; destruct b0, b1, b2, b3, b4, b5, b6, b7; vm_compute; congruence. Qed.
Lemma letter_not_ignored c : script_letter c = true -> ignored c = false /\ Ascii.eqb c ">" = false.
Proof. destruct c as [b0 b1 b2 b3 b4 b5 b6 b7]; destruct b0, b1, b2, b3, b4, b5, b6, b7; vm_compute; auto; discriminate. Qed.
Lemma span_all p w r : chars_all p w = true -> (r = "" \/ exists c r', r = String c r' /\ p c = false) -> span p (w ++ r) = String.length w.
Proof.
  intros H R. induction w as [|c w IH]; cbn in *.
  - destruct R as [->|(c & r' & -> & E)]; [reflexivity|]. cbn. now rewrite E.
  - apply andb_true_iff in H. destruct H as [-> H]. now rewrite IH.
Qed.
Lemma take_all w r : take (String.length w) (w ++ r) = w.
Proof. unfold take. induction w; cbn; [destruct r; reflexivity|congruence]. Qed.
Lemma stops_class (p : ascii -> bool) r : (forall c, delimiter c = true -> p c = false) -> stops r -> r = "" \/ exists c r', r = String c r' /\ p c = false.
Proof. intros H [->|(c & r' & -> & D)]; [now left|right; eauto]. Qed.

(** A grammatical class is seen across a delimiter only before a word that begins with a colon. *)
Definition no_colon (r : string) : Prop := forall c r', r <> String c (String ":" r').
Lemma prefix_cut p : forall w r, chars_all (fun c => negb (delimiter c)) p = true -> stops r -> String.prefix p (w ++ r) = String.prefix p w.
Proof.
  induction p as [|c p IH]; intros w r H S; [destruct w, r; reflexivity|]. cbn in H. apply andb_true_iff in H. destruct H as [Hc H]. destruct w as [|d w].
  - cbn [append]. destruct S as [->|(d & r' & -> & D)]; [reflexivity|]. cbn. destruct (ascii_dec c d) as [->|]; [|reflexivity]. rewrite D in Hc. discriminate.
  - cbn. destruct (ascii_dec c d); [|reflexivity]. now apply IH.
Qed.
Lemma drop_cut n : forall w r, n <= String.length w -> drop n (w ++ r) = drop n w ++ r.
Proof. induction n as [|n IH]; intros w r H; [reflexivity|]. destruct w; cbn in H; [lia|]. cbn. apply IH. lia. Qed.
Lemma prefix_length p : forall s, String.prefix p s = true -> String.length p <= String.length s.
Proof. induction p as [|c p IH]; intros s H; cbn; [lia|]. destruct s; cbn in H; [discriminate|]. destruct (ascii_dec c a); [|discriminate]. apply IH in H. cbn. lia. Qed.
Lemma old_cut w r : stops r -> no_colon r -> chars_all (fun c => negb (Ascii.eqb c "010")) w = true -> old_class w = None -> old_class (w ++ r) = None.
Proof.
  intros S N Hw. unfold old_class. rewrite prefix_cut by auto. destruct (String.prefix "E:.b.E:" w) eqn:P; [|auto]. apply prefix_length in P. rewrite drop_cut by exact P.
  assert (Hd : forall n w, chars_all (fun c => negb (Ascii.eqb c "010")) w = true -> chars_all (fun c => negb (Ascii.eqb c "010")) (drop n w) = true).
  { induction n as [|n IH]; intros [|c u] X; try reflexivity; cbn in *; auto. apply andb_true_iff in X. apply IH. tauto. }
  apply (Hd 7) in Hw. destruct (drop 7 w) as [|c u].
  - intros _. cbn [append]. destruct r as [|c r]; [reflexivity|]. destruct r as [|d r]; [now rewrite andb_false_r|]. cbn [String.prefix].
    destruct (ascii_dec ":" d) as [<-|]; [exfalso; eapply N; reflexivity|]. now rewrite andb_false_r.
  - cbn [append]. cbn in Hw. apply andb_true_iff in Hw. destruct Hw as [-> _]. cbn [andb]. rewrite prefix_cut by auto. auto.
Qed.
Lemma script_no_newline c : script_char c = true -> negb (Ascii.eqb c "010") = true.
Proof. destruct c as [b0 b1 b2 b3 b4 b5 b6 b7]; destruct b0, b1, b2, b3, b4, b5, b6, b7; vm_compute; congruence. Qed.
Lemma script_no_bracket c : script_char c = true -> negb (Ascii.eqb c "[") = true.
Proof. destruct c as [b0 b1 b2 b3 b4 b5 b6 b7]; destruct b0, b1, b2, b3, b4, b5, b6, b7; vm_compute; congruence. Qed.

Lemma token_morpheme br w r : script_word w -> old_class w = None -> stops r -> no_colon r -> token_at br (w ++ r) = Some (UMorpheme w, String.length w).
Proof.
  intros [H (c & d & u & -> & L)] O St N. assert (O' : old_class (String c (String d u) ++ r) = None).
  { apply old_cut; auto. eapply chars_all_impl; [|exact H]. apply script_no_newline. }
  assert (Sp : span term_char (String d u ++ r) = String.length (String d u)).
  { apply span_all; [|apply stops_class; auto using delim_term]. cbn in H. apply andb_true_iff in H. eapply chars_all_impl; [apply script_term|]. apply H. }
  unfold token_at, match_term. rewrite O'. cbn [append] in *. rewrite Sp, term_letter_eq, L, (proj2 (letter_not_ignored c L)), andb_false_r. cbn [andb String.length Nat.ltb Nat.leb].
  change (String c (String d (u ++ r))) with (String c (String d u) ++ r). change (S (S (String.length u))) with (String.length (String c (String d u))). now rewrite take_all.
Qed.
Lemma uint_digits u : chars_all digit (NilEmpty.string_of_uint u) = true.
Proof. induction u; cbn; auto. Qed.
Lemma int_of_uint u : forall acc, int_of acc (NilEmpty.string_of_uint u) = Nat.of_uint_acc u acc.
Proof.
  induction u; intros acc; cbn [NilEmpty.string_of_uint int_of Nat.of_uint_acc]; [reflexivity|..]; rewrite IHu; f_equal; rewrite ?Nat.tail_mul_spec;
    match goal with |- context [nat_of_ascii ?c] => let v := eval vm_compute in (nat_of_ascii c) in change (nat_of_ascii c) with v end; lia.
Qed.
Lemma int_of_str n : int_of 0 (int_str n) = n.
Proof. unfold int_str. rewrite int_of_uint. change (Nat.of_uint (Nat.to_uint n) = n). apply DecimalNat.Unsigned.of_to. Qed.
Lemma int_str_pos n : exists c u, int_str n = String c u /\ digit c = true.
Proof.
  pose proof (uint_digits (Nat.to_uint n)) as H. unfold int_str. destruct (NilEmpty.string_of_uint (Nat.to_uint n)) as [|c u] eqn:E.
  - exfalso. assert (X : NilEmpty.uint_of_string (NilEmpty.string_of_uint (Nat.to_uint n)) = Some (Nat.to_uint n)) by apply NilEmpty.usu. rewrite E in X. cbn in X. injection X as X.
    pose proof (DecimalNat.Unsigned.of_to n) as Z. rewrite <- X in Z. cbn in Z. subst n. discriminate X.
  - exists c, u. split; [reflexivity|]. cbn in H. apply andb_true_iff in H. tauto.
Qed.
Lemma token_group br n r : stops r -> token_at br (("m" ++ int_str n) ++ r) = Some (UGroup n, String.length ("m" ++ int_str n)).
Proof.
  intros St. destruct (int_str_pos n) as (c & u & E & D). cbn [append]. unfold token_at. change (Ascii.eqb "m" ">") with false. rewrite andb_false_r.
  assert (T : term_char c = false) by (revert D; clear; destruct c as [b0 b1 b2 b3 b4 b5 b6 b7]; destruct b0, b1, b2, b3, b4, b5, b6, b7; vm_compute; congruence).
  unfold match_term. change (old_class (String "m" (int_str n ++ r))) with (@None ascii). replace (span term_char (int_str n ++ r)) with 0 by (rewrite E; cbn; now rewrite T).
  cbn [term_letter andb Nat.ltb Nat.leb]. rewrite span_all; [|apply uint_digits|apply stops_class; auto using delim_digit]. 
  pose proof (take_all (int_str n) r) as TA. cbn [String.length]. assert (X : exists m, String.length (int_str n) = S m) by (rewrite E; cbn; eauto). destruct X as (m & X).
  rewrite X in *. rewrite TA, int_of_str. reflexivity.
Qed.

Lemma first_word c r : delimiter c = false -> exists w l, split_words "" (String c r) = Wd (String c w) :: l.
Proof.
  intros D. destruct (span_words (String c r)) as (w & r' & E & H & S). destruct w as [|d w].
  - cbn in E. subst r'. destruct S as [S|(? & ? & S & ?)]; [discriminate|]. injection S as <- <-. congruence.
  - cbn in E. injection E as <- ->. change (String c (w ++ r')) with (String c w ++ r'). rewrite split_stops; [eauto|split; [discriminate|exact H]|exact S].
Qed.
Lemma tok_no_colon r ts : Forall2 tokof (split_words "" r) ts -> stops r -> no_colon r.
Proof.
  intros F S c r' ->. destruct S as [S|(d & u & S & D)]; [discriminate|]. injection S as <- <-. cbn [split_words] in F. rewrite D in F. cbn [flush app] in F.
  fold (split_words "" (String ":" r')) in F. destruct (first_word ":" r' eq_refl) as (w & l & E).
  assert (X : exists ts', Forall2 tokof (split_words "" (String ":" r')) ts').
  { destruct (Ascii.eqb c " "); [eauto|]. cbn [app] in F. inversion F; eauto. }
  destruct X as (ts' & X). rewrite E in X. inversion X as [|? ? ? ? T]; subst. inversion T as [w' Hw O| | | | | |]; subst; try discriminate.
  destruct Hw as (_ & c1 & ? & ? & X1 & L1). injection X1 as <- _. discriminate.
Qed.
Lemma int_no_bracket n : chars_all (fun c => negb (Ascii.eqb c "[")) ("m" ++ int_str n) = true.
Proof. cbn. eapply chars_all_impl; [|apply uint_digits]. intros c. destruct c as [b0 b1 b2 b3 b4 b5 b6 b7]; destruct b0, b1, b2, b3, b4, b5, b6, b7; vm_compute; congruence. Qed.

Lemma ulex_lpar br r : ulex 0 br (String "(" r) = ULpar :: ulex 0 false r. Proof. destruct br; reflexivity. Qed.
Lemma ulex_rpar br r : ulex 0 br (String ")" r) = URpar :: ulex 0 false r. Proof. destruct br; reflexivity. Qed.
Lemma ulex_rbr br r : ulex 0 br (String "]" r) = URbr :: ulex 0 false r. Proof. destruct br; reflexivity. Qed.
Lemma ulex_bang br r : ulex 0 br (String "!" r) = UBang :: ulex 0 false r. Proof. destruct br; reflexivity. Qed.
Lemma ulex_chevron r : ulex 0 false (String ">" r) = UChevron :: ulex 0 false r. Proof. reflexivity. Qed.
Lemma ulex_lbr br r : ulex 0 br (String "[" r) = ULbr :: ulex 0 true r. Proof. destruct br; reflexivity. Qed.
Lemma ulex_words n : forall s br ts, String.length s <= n -> Forall2 tokof (split_words "" s) ts -> (br = true -> forall r, s <> String ">" r) -> ulex 0 br s = ts.
Proof.
  induction n as [|n IH]; intros s br ts L F B.
  - destruct s; [|cbn in L; lia]. inversion F. reflexivity.
  - destruct s as [|c s]; [inversion F; reflexivity|]. destruct (delimiter c) eqn:D.
    + cbn [split_words] in F. rewrite D in F. cbn [flush app] in F. fold (split_words "" s) in F. cbn in L. destruct (Ascii.eqb c " ") eqn:Ec.
      * apply Ascii.eqb_eq in Ec. subst. cbn [app] in F. cbn [ulex ignored]. apply IH; auto; [lia|discriminate].
      * cbn [app] in F. inversion F as [|x t l ts' T F' X Y]; subst. specialize (IH s false ts' ltac:(lia) F' ltac:(discriminate)).
        inversion T as [| |E|E|E|E|E]; subst.
        -- rewrite ulex_lpar. reflexivity.
        -- rewrite ulex_rpar. reflexivity.
        -- destruct br; [exfalso; now apply (B eq_refl s)|]. rewrite ulex_chevron. reflexivity.
        -- rewrite ulex_rbr. reflexivity.
        -- rewrite ulex_bang. reflexivity.
    + destruct (span_words (String c s)) as (w & r & E & H & S). destruct w as [|d w].
      { cbn in E. subst r. destruct S as [S|(? & ? & S & ?)]; [discriminate|]. injection S as <- <-. congruence. }
      rewrite E in *. rewrite split_stops in F; [|split; [discriminate|exact H]|exact S]. inversion F as [|x t l ts' T F' X Y]; subst.
      assert (Hr : ulex 0 false r = ts').
      { apply IH; auto; [|discriminate]. apply (f_equal String.length) in E. cbn in E, L. assert (String.length (w ++ r) = String.length w + String.length r) by (clear; induction w; cbn; lia). lia. }
      pose proof (tok_no_colon _ _ F' S) as NC. inversion T as [w' Hw O|k| | | | |]; subst.
      * erewrite ulex_token; [reflexivity|..].
        -- destruct Hw as (_ & ? & ? & ? & [= <- _] & Lc). now apply letter_not_ignored.
        -- apply token_morpheme; auto.
        -- eapply chars_all_impl; [apply script_no_bracket|apply Hw].
      * erewrite ulex_token; [reflexivity|reflexivity| |].
        -- apply (token_group br k r S).
        -- apply int_no_bracket.
Qed.

(** ** The tokens of syntax trees *)
Definition gtoks (g : list string * nat) : list utoken := (UGroup (snd g) :: ULpar :: map UMorpheme (fst g) ++ [URpar])%list.
Definition ptoks (p : raw_pm) : list utoken := (map UMorpheme (raw_constant p) ++ flat_map gtoks (raw_groups p))%list.
Definition paren_toks (p : option raw_pm) : list utoken := (ULpar :: match p with Some q => ptoks q | None => [] end ++ [URpar])%list.
Definition ltoks (ps : raw_lexeme) : list utoken := flat_map paren_toks ps.
Definition etoks (e : raw_entry) : list utoken := ((if fst e then [UBang] else []) ++ map UMorpheme (fst (snd e)) ++ ltoks (snd (snd e)))%list.
Fixpoint estoks (es : list raw_entry) : list utoken :=
  match es with [] => [] | [e] => etoks e | e :: es => (etoks e ++ UChevron :: estoks es)%list end.
Definition dtoks (ds : list (string * string)) : list utoken := flat_map (fun d => [ULbr; UPath (fst d); UValue (snd d); URbr]) ds.

Definition vpm (p : raw_pm) : Prop := (raw_constant p <> [] \/ raw_groups p <> []) /\ Forall (fun g => fst g <> []) (raw_groups p).
Definition vlexeme (ps : raw_lexeme) : Prop := is_lexeme ps = true /\ Forall (fun p => match p with Some q => vpm q | None => True end) ps.

Definition no_m (r : list utoken) : Prop := forall s r', r <> UMorpheme s :: r'.
Definition no_g (r : list utoken) : Prop := forall n r', r <> UGroup n :: r'.
Definition no_l (r : list utoken) : Prop := forall r', r <> ULpar :: r'.

Lemma p_morphemes_ok ms r : no_m r -> p_morphemes (map UMorpheme ms ++ r) = (ms, r).
Proof.
  intros N. induction ms as [|m ms IH]; cbn; [|now rewrite IH]. destruct r as [|[]]; try reflexivity. exfalso. eapply N. reflexivity.
Qed.
Lemma p_groups_ok gs : Forall (fun g => fst g <> []) gs -> forall n r, List.length gs <= n -> no_g r -> p_groups n (flat_map gtoks gs ++ r) = Some (gs, r).
Proof.
  induction 1 as [|[ms k] gs Hg F IH]; intros n r Hn N.
  - cbn. destruct n, r as [|[]]; try reflexivity; exfalso; eapply N; reflexivity.
  - destruct n as [|n]; [cbn in Hn; lia|]. cbn in Hn. cbn [flat_map gtoks fst snd app]. rewrite <- !app_assoc. cbn [app p_groups]. rewrite p_morphemes_ok by (intros s r'; discriminate).
    cbn in Hg. destruct ms as [|m ms]; [congruence|]. rewrite IH by (auto; lia). reflexivity.
Qed.
Lemma p_pm_ok p r : vpm p -> no_m r -> no_g r -> p_pm (ptoks p ++ r) = Some (p, r).
Proof.
  destruct p as [cs gs]. intros [V F] Nm Ng. cbn [raw_constant raw_groups] in *. unfold p_pm, ptoks. cbn [raw_constant raw_groups]. rewrite <- app_assoc. rewrite p_morphemes_ok.
  - rewrite p_groups_ok; auto.
    + destruct cs, gs; try reflexivity. destruct V; congruence.
    + rewrite !app_length. transitivity (List.length (flat_map gtoks gs)); [|lia]. clear. induction gs as [|[ms k] gs IH]; [cbn; lia|]. cbn [flat_map gtoks List.length app]. rewrite app_length. lia.
  - destruct gs as [|[ms k] gs]; [exact Nm|]. intros s r'. discriminate.
Qed.
Lemma p_paren_ok p r : match p with Some q => vpm q | None => True end -> p_paren (paren_toks p ++ r) = Some (p, r).
Proof.
  intros V. unfold paren_toks. cbn [app]. destruct p as [p|]; [|reflexivity]. rewrite <- app_assoc. cbn [app]. unfold p_paren.
  assert (H : p_pm (ptoks p ++ URpar :: r) = Some (p, URpar :: r)) by (apply p_pm_ok; auto; intros ? ?; discriminate).
  destruct (ptoks p ++ URpar :: r)%list as [|[] u] eqn:E; try (now rewrite H).
  exfalso. destruct p as [[|c cs] [|[ms k] gs]]; discriminate.
Qed.
Lemma p_parens_ok ps : Forall (fun p => match p with Some q => vpm q | None => True end) ps -> forall n r, List.length ps <= n -> no_l r ->
  p_parens n (ltoks ps ++ r) = Some (ps, r).
Proof.
  induction 1 as [|p ps V F IH]; intros n r Hn N.
  - cbn. destruct n, r as [|[]]; try reflexivity; try (exfalso; eapply N; reflexivity).
  - destruct n as [|n]; [cbn in Hn; lia|]. cbn in Hn. cbn [ltoks flat_map]. rewrite <- app_assoc. pose proof (p_paren_ok p (ltoks ps ++ r) V) as E.
    cbn [p_parens paren_toks app]. unfold paren_toks in E. cbn [app] in E. fold (ltoks ps). rewrite E, IH by (auto; lia). reflexivity.
Qed.
Lemma ltoks_length ps : List.length ps <= List.length (ltoks ps).
Proof. unfold ltoks. induction ps as [|p ps IH]; [cbn; lia|]. cbn [flat_map paren_toks List.length app]. rewrite app_length. lia. Qed.
Lemma p_lexeme_ok ps r : vlexeme ps -> no_l r -> p_lexeme (ltoks ps ++ r) = Some (ps, r).
Proof.
  intros [V F] N. unfold p_lexeme. rewrite p_parens_ok; auto; [now rewrite V|]. rewrite app_length. pose proof (ltoks_length ps). lia.
Qed.
Lemma ltoks_head ps r : vlexeme ps -> exists u, (ltoks ps ++ r)%list = ULpar :: u.
Proof. intros [V _]. destruct ps; [discriminate|]. cbn. eauto. Qed.
Lemma p_entry_ok e r : vlexeme (snd (snd e)) -> no_l r -> p_entry (etoks e ++ r) = Some (e, r).
Proof.
  destruct e as [b [ms ps]]. cbn [fst snd]. intros V N. unfold p_entry, etoks. cbn [fst snd].
  destruct (ltoks_head ps r V) as (u & Eu). assert (M : p_morphemes (map UMorpheme ms ++ ltoks ps ++ r) = (ms, (ltoks ps ++ r)%list)).
  { apply p_morphemes_ok. rewrite Eu. intros ? ?. discriminate. }
  destruct b; cbn [app]; rewrite <- ?app_assoc.
  - cbn [app]. rewrite M, p_lexeme_ok; auto.
  - destruct ms as [|m ms]; cbn [map app] in *.
    + rewrite Eu in *. cbn [p_morphemes]. rewrite <- Eu, p_lexeme_ok; auto.
    + rewrite M, p_lexeme_ok; auto.
Qed.
Lemma p_entries_ok es : es <> [] -> Forall (fun e => vlexeme (snd (snd e))) es -> forall n r, List.length es <= n -> no_l r -> (forall r', r <> UChevron :: r') ->
  p_entries n (estoks es ++ r) = Some (es, r).
Proof.
  intros NE F. induction F as [|e es V F IH]; [congruence|]. intros n r Hn Nl Nc. destruct n as [|n]; [cbn in Hn; lia|]. cbn [p_entries]. cbn in Hn. destruct es as [|e' es].
  - cbn [estoks]. rewrite p_entry_ok by auto. destruct r as [|[]]; try reflexivity. exfalso. eapply Nc. reflexivity.
  - change (estoks (e :: e' :: es)) with (etoks e ++ UChevron :: estoks (e' :: es))%list. rewrite <- app_assoc. cbn [app].
    rewrite p_entry_ok by (auto; intros ?; discriminate). rewrite IH; auto; [discriminate|lia].
Qed.
Lemma estoks_length es : Forall (fun e => vlexeme (snd (snd e))) es -> List.length es <= List.length (estoks es).
Proof.
  induction 1 as [|e es V F IH]; [cbn; lia|]. assert (E : 1 <= List.length (etoks e)).
  { unfold etoks. destruct (ltoks_head (snd (snd e)) [] V) as (u & Eu). rewrite app_nil_r in Eu. rewrite !app_length, Eu. cbn. lia. }
  destruct es as [|e' es]; [cbn [estoks List.length]; lia|]. change (estoks (e :: e' :: es)) with (etoks e ++ UChevron :: estoks (e' :: es))%list. rewrite app_length. cbn [List.length] in *. lia.
Qed.
Lemma etoks_head e r : vlexeme (snd (snd e)) -> forall u, (etoks e ++ r)%list <> UOld :: u.
Proof.
  intros V u E. unfold etoks in E. destruct e as [[] [ms ps]]; cbn [fst snd app] in *; [discriminate|]. destruct ms; [|discriminate]. cbn [map app] in E.
  destruct (ltoks_head ps r V) as (x & Ex). rewrite Ex in E. discriminate.
Qed.
Lemma p_word_ok es r : es <> [] -> Forall (fun e => vlexeme (snd (snd e))) es -> p_word (ULbr :: estoks es ++ URbr :: r) = Some (es, r).
Proof.
  intros NE F. unfold p_word. assert (H : p_entries (List.length (estoks es ++ URbr :: r)) (estoks es ++ URbr :: r) = Some (es, URbr :: r)).
  { apply p_entries_ok; auto; try (intros; discriminate). rewrite app_length. pose proof (estoks_length es F). lia. }
  assert (N : forall u, (estoks es ++ URbr :: r)%list <> UOld :: u).
  { destruct F as [|e es V F]; [congruence|]. intros u. destruct es as [|e' es]; [apply etoks_head; auto|].
    change (estoks (e :: e' :: es)) with (etoks e ++ UChevron :: estoks (e' :: es))%list. rewrite <- app_assoc. apply etoks_head; auto. }
  destruct (estoks es ++ URbr :: r)%list as [|[] u] eqn:E; try (now rewrite H). exfalso. eapply N. reflexivity.
Qed.

(** ** Whole texts *)
Definition goodw (w : string) : Prop := script_word w /\ old_class w = None.
Lemma tok_words ws : Forall goodw ws -> Forall2 tokof (map Wd ws) (map UMorpheme ws).
Proof. induction 1 as [|w ws [H O] F IH]; cbn; constructor; auto. now constructor. Qed.
Definition goodpm (p : raw_pm) : Prop := Forall goodw (raw_constant p) /\ Forall (fun g => Forall goodw (fst g)) (raw_groups p).
Lemma tok_pm p : goodpm p -> Forall2 tokof (pm_toks (raw_constant p) (raw_groups p)) (ptoks p).
Proof.
  intros [H G]. unfold pm_toks, ptoks. apply Forall2_app; [apply tok_words; auto|]. induction G as [|[ms k] gs Hg G IH]; [constructor|]. cbn [flat_map]. apply Forall2_app; [|exact IH].
  unfold group_toks, gtoks. cbn [fst snd]. constructor; [apply tk_group|]. constructor; [constructor|]. apply Forall2_app; [now apply tok_words|]. constructor; constructor.
Qed.

Definition raw_of (p : pm) : raw_pm := {| raw_constant := map str (printed p); raw_groups := map gkey (groups p) |}.
(** Printed morphemes that do not begin with a grammatical class. *)
Definition unmarked (p : pm) : Prop := Forall (fun s => old_class (str s) = None) (printed p ++ flat_map fst (groups p)).
Definition readable (p : pm) : Prop := pok p /\ unmarked p /\ Forall (fun g => fst g <> []) (groups p).
Lemma raw_good p : pok p -> unmarked p -> goodpm (raw_of p).
Proof.
  intros [[H1 H2] _] U. apply Forall_app in U. destruct U as [U1 U2]. split; cbn [raw_of raw_constant raw_groups]; rewrite Forall_map.
  - rewrite Forall_forall in *. intros s Hs. split; [apply str_word, nf_wf, H1|now apply U1]. unfold printed, filter_empty in Hs. apply filter_In in Hs. tauto.
  - rewrite Forall_forall in *. intros g Hg. cbn [gkey fst]. rewrite Forall_map, Forall_forall. intros s Hs. split; [|apply U2, in_flat_map; eauto].
    apply str_word, nf_wf. specialize (H2 g Hg). unfold gok in H2. rewrite Forall_forall in H2. auto.
Qed.
Lemma raw_valid p : readable p -> pm_empty p = false -> vpm (raw_of p).
Proof.
  intros ([_ C] & _ & G) E. split; cbn [raw_of raw_constant raw_groups].
  - unfold pm_empty in E. destruct (groups p) as [|g gs]; [left|right; discriminate]. destruct C as [C|[C F]].
    + rewrite C in E. discriminate.
    + unfold printed. rewrite filter_empty_id by auto. destruct (constant p); [congruence|discriminate].
  - rewrite Forall_map. eapply Forall_impl; [|exact G]. intros g Hg X. cbn in X. apply map_eq_nil in X. auto.
Qed.

Lemma mapM_step {A B} (f : A -> res B) x l : mapM f (x :: l) = (do y <- f x; do ys <- mapM f l; Ok (y :: ys)).
Proof. reflexivity. Qed.
Section Round.
  Variable so : list script -> list script.
  Hypothesis SO : set_order so.
  Lemma e_morphemes_ok l : Forall nf l -> exists l', e_morphemes so (map str l) = Ok l' /\ Forall nf l' /\ map str l' = map str l.
  Proof.
    unfold e_morphemes. induction 1 as [|s l N F (l' & E & F' & M)]; [exists []; cbn; auto|]. destruct (parse_str_nf so s SO N) as (r & Er & Nr & Mr).
    exists (r :: l'). cbn. fold (mapM (parse so)). rewrite Er. cbn. rewrite E. cbn. split; [reflexivity|]. split; [auto|congruence].
  Qed.
  Lemma e_groups_ok gs : Forall gok gs -> exists gs', mapM (fun g => do ms <- e_morphemes so (fst g); Ok (ms, snd g)) (map gkey gs) = Ok gs' /\ Forall gok gs' /\ map gkey gs' = map gkey gs.
  Proof.
    induction 1 as [|g gs N F (gs' & E & F' & M)]; [exists []; cbn; auto|]. destruct (e_morphemes_ok (fst g) N) as (ms & Em & Nm & Mm).
    exists ((ms, snd g) :: gs'). cbn [map]. rewrite mapM_step. cbn [gkey fst snd]. rewrite Em. cbn [bind]. rewrite E. cbn [bind]. split; [reflexivity|]. split; [constructor; auto|].
    cbn [map]. rewrite M. unfold gkey. cbn [fst snd]. rewrite Mm. reflexivity.
  Qed.
  Lemma gnorm_key g h : gok g -> gok h -> gkey g = gkey h -> gkey (gnorm g) = gkey (gnorm h).
  Proof.
    intros Hg Hh E. unfold gkey, gnorm in *. cbn [fst snd]. injection E as E1 ->. f_equal. apply isort_key; try (now apply filter_nf).
    rewrite (filter_empty_str (fst g) (fst h)) by auto. apply Permutation_refl.
  Qed.
  Lemma gnorm_twice g : gok g -> gkey (gnorm (gnorm g)) = gkey (gnorm g).
  Proof.
    intros Hg. unfold gkey, gnorm. cbn [fst snd]. f_equal. assert (F : Forall nf (filter_empty (fst g))) by now apply filter_nf.
    rewrite (filter_empty_id (isort (filter_empty (fst g)))) by (apply isort_Forall, filter_empty_all).
    apply isort_key; auto; [now apply isort_Forall|]. apply Permutation_map, sort_perm.
  Qed.
  (** The constructor applied to the components of a polymorpheme gives it back. *)
  Lemma e_pm_ok cs gs : Forall nf cs -> Forall gok gs -> exists p', e_pm so (raw_of (mk_pm cs gs)) = Ok p' /\ pok p' /\ pkey p' = pkey (mk_pm cs gs).
  Proof.
    intros Hc Hg. pose proof (mk_pm_ok cs gs Hc Hg) as [[P1 P2] _]. destruct (e_morphemes_ok (printed (mk_pm cs gs))) as (l & El & Nl & Ml); [now apply filter_nf|].
    destruct (e_groups_ok _ P2) as (hs & Eh & Nh & Mh). exists (mk_pm l hs). unfold e_pm. cbn [raw_of raw_constant raw_groups]. rewrite El. cbn [bind]. rewrite Eh. cbn [bind].
    split; [reflexivity|]. split; [now apply mk_pm_ok|]. unfold pkey. f_equal.
    - apply mk_pm_constant_key; auto. rewrite printed_mk in Ml. assert (Ni : Forall nf (isort (filter_empty cs))) by (apply isort_Forall, filter_nf; auto).
      rewrite (filter_empty_str l (isort (filter_empty cs))) by auto. rewrite filter_empty_id by (apply isort_Forall, filter_empty_all). apply Permutation_map, sort_perm.
    - apply mk_pm_groups_key; auto. apply perm_trans with (map (fun g => gkey (gnorm g)) (groups (mk_pm cs gs))).
      + assert (E : map (fun g => gkey (gnorm g)) hs = map (fun g => gkey (gnorm g)) (groups (mk_pm cs gs))); [|rewrite E; apply Permutation_refl].
        clear -Nh P2 Mh. revert P2 Mh. generalize (groups (mk_pm cs gs)) as ks. induction Nh as [|h hs Hh F IH]; intros [|k ks] P2 E; try discriminate; [reflexivity|].
        apply Forall_cons_iff in P2. cbn [map] in *. injection E as E1 E2 E3. f_equal; [|apply IH; tauto]. apply gnorm_key; try tauto. unfold gkey. now rewrite E1, E2.
      + eapply perm_trans; [apply Permutation_map, (sort_perm group_lt)|]. rewrite map_map. change (fun x : list script * nat => gkey (gnorm (isort (filter_empty (fst x)), snd x))) with (fun x => gkey (gnorm (gnorm x))).
        rewrite (map_ext_Forall _ (fun g => gkey (gnorm g))); [apply Permutation_refl|]. eapply Forall_impl; [|exact Hg]. intros g. apply gnorm_twice.
  Qed.
End Round.
