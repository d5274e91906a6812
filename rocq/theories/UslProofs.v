(** Proofs about polymorphemes and lexemes: orders, sorting, strings. *)
From Coq Require Import List String Ascii Bool NArith Arith Lia Sorted Permutation DecimalString DecimalNat.
From Verif Require Import Base Script SortProofs ScriptWf ScriptStrProofs ScriptOrderProofs ScriptSpec ScriptCtorProofs ScriptEqProofs Commons Usl OrderTheory.
Import ListNotations.
Local Open Scope string_scope.

(** ** Orders *)
Lemma order_script : order nf str script_eqb lt.
Proof.
  split.
  - intros. apply script_eqb_eq.
  - intros a b _ _ E. apply lt_irrefl, script_eqb_eq. exact E.
  - intros a b c Ha Hb Hc. apply lt_trans; auto.
  - intros a b Ha Hb N. apply lt_total; auto. destruct (script_eqb a b) eqn:E; auto. apply script_eqb_eq in E. congruence.
Qed.
Definition gkey (g : group) : list string * nat := (map str (fst g), snd g).
Definition gok (g : group) : Prop := Forall nf (fst g).
Lemma order_group : order gok gkey group_eqb group_lt.
Proof.
  apply (order_sub (order_pair (order_seq order_script) order_nat)). intros g H. split; [exact H|exact Logic.I].
Qed.
Definition pkey (p : pm) := (map str (constant p), map gkey (groups p)).
Definition pok0 (p : pm) : Prop := Forall nf (constant p) /\ Forall gok (groups p).

Lemma order_pm0 : order pok0 pkey (fun p q => seq_eqb script_eqb (constant p) (constant q) && seq_eqb group_eqb (groups p) (groups q)) pm_lt.
Proof.
  pose proof (order_seq order_script) as Oc. pose proof (order_seq order_group) as Og.
  assert (E : forall p q, pok0 p -> pok0 q -> pm_lt p q =
    if Nat.eqb (List.length (constant p)) (List.length (constant q)) then
      if seq_eqb script_eqb (constant p) (constant q) then seq_lt group_eqb group_lt (groups p) (groups q)
      else seq_lt script_eqb lt (constant p) (constant q)
    else Nat.ltb (List.length (constant p)) (List.length (constant q))).
  { intros p q [Hp _] [Hq _]. unfold pm_lt. destruct (seq_eqb script_eqb (constant p) (constant q)) eqn:S.
    - apply (o_eqb _ _ _ _ Oc) in S; auto. rewrite (o_irr _ _ _ _ Oc (constant p) (constant q) Hp Hq S).
      assert (L : List.length (constant p) = List.length (constant q)) by (apply (f_equal (@List.length _)) in S; rewrite !map_length in S; exact S).
      rewrite L, Nat.eqb_refl, Nat.ltb_irrefl. reflexivity.
    - cbn [andb]. rewrite orb_false_r. destruct (Nat.eqb_spec (List.length (constant p)) (List.length (constant q))) as [L|L].
      + rewrite L, Nat.ltb_irrefl. reflexivity.
      + rewrite orb_false_r. reflexivity. }
  pose proof (order_pair order_nat (order_pair Oc Og)) as O.
  set (t := fun p : pm => (List.length (constant p), (constant p, groups p))).
  assert (Ht : forall p, pok0 p -> True /\ (Forall nf (fst (snd (t p))) /\ Forall gok (snd (snd (t p))))) by (intros p [H1 H2]; auto).
  split.
  - intros p q [H1 H2] [H3 H4]. rewrite andb_true_iff, (o_eqb _ _ _ _ Oc), (o_eqb _ _ _ _ Og) by auto.
    unfold pkey. split; [intros [-> ->]; auto|intros X; injection X; auto].
  - intros p q Hp Hq X. rewrite E by auto. apply (o_irr _ _ _ _ O (t p) (t q)); auto. unfold pkey in X. injection X as X1 X2.
    simpl. rewrite X1, X2. f_equal. apply (f_equal (@List.length _)) in X1. rewrite !map_length in X1. exact X1.
  - intros p q r Hp Hq Hr. rewrite !E by auto. apply (o_trans _ _ _ _ O (t p) (t q) (t r)); auto.
  - intros p q Hp Hq N. rewrite !E by auto. apply (o_total _ _ _ _ O (t p) (t q)); auto. intros X. apply N.
    unfold pkey. simpl in X. injection X as _ X1 X2. rewrite X1, X2. reflexivity.
Qed.

(** ** The shape of a polymorpheme *)
Definition pok (p : pm) : Prop :=
  pok0 p /\ (constant p = [Null 0] \/ (constant p <> [] /\ Forall (fun m => is_empty m = false) (constant p))).

Lemma filter_empty_all l : Forall (fun m => is_empty m = false) (filter_empty l).
Proof. apply Forall_forall. intros x Hx. apply filter_In in Hx. destruct Hx as [_ Hx]. apply negb_true_iff in Hx. exact Hx. Qed.
Lemma filter_empty_id l : Forall (fun m => is_empty m = false) l -> filter_empty l = l.
Proof.
  induction 1 as [|x l Hx F IH]; [reflexivity|]. unfold filter_empty in *. simpl. rewrite Hx. simpl. rewrite IH. reflexivity.
Qed.
Lemma filter_nf l : Forall nf l -> Forall nf (filter_empty l).
Proof. rewrite !Forall_forall. intros H x Hx. apply filter_In in Hx. apply H. tauto. Qed.
Lemma isort_Forall (P : script -> Prop) l : Forall P l -> Forall P (isort l).
Proof. apply Permutation_Forall, Permutation_sym, sort_perm. Qed.

Lemma mk_pm_ok cs gs : Forall nf cs -> Forall gok gs -> pok (mk_pm cs gs).
Proof.
  intros Fc Fg. unfold pok, mk_pm, pok0. cbn [constant groups].
  assert (F1 : Forall nf (isort (filter_empty cs))) by (apply isort_Forall, filter_nf; auto).
  assert (F2 : Forall (fun m => is_empty m = false) (isort (filter_empty cs))) by (apply isort_Forall, filter_empty_all).
  split; [split|].
  - destruct (isort (filter_empty cs)) as [|x l]; [|exact F1]. constructor; [|constructor].
    split; [cbv; lia|intros x; discriminate].
  - eapply Permutation_Forall; [apply Permutation_sym, sort_perm|]. rewrite Forall_map. eapply Forall_impl; [|exact Fg].
    intros g Hg. apply isort_Forall, filter_nf. exact Hg.
  - destruct (isort (filter_empty cs)) as [|x l]; [left; reflexivity|right; split; [discriminate|exact F2]].
Qed.

(** ** Strings *)
Definition printed (p : pm) : list script := filter_empty (constant p).
Lemma printed_mk cs gs : printed (mk_pm cs gs) = isort (filter_empty cs).
Proof.
  unfold printed, mk_pm. cbn [constant]. destruct (isort (filter_empty cs)) as [|x l] eqn:E; [reflexivity|].
  rewrite <- E. apply filter_empty_id. apply isort_Forall, filter_empty_all.
Qed.
Lemma is_empty_str a b : wf a -> wf b -> str a = str b -> is_empty a = is_empty b.
Proof. intros Wa Wb E. destruct (eq_attributes a b Wa Wb E) as [H _]. unfold same_attributes in H. tauto. Qed.
Lemma filter_empty_str : forall l l', Forall nf l -> Forall nf l' -> map str l = map str l' -> map str (filter_empty l) = map str (filter_empty l').
Proof.
  induction l as [|x l IH]; intros [|y l'] F F' E; try discriminate; auto. inversion F as [|? ? Hx Fl]; inversion F' as [|? ? Hy Fl']; subst.
  injection E as E1 E2. unfold filter_empty in *. simpl. rewrite (is_empty_str x y) by (auto using nf_wf).
  destruct (is_empty y); simpl; [apply IH; auto|]. rewrite E1. f_equal. apply IH; auto.
Qed.
Lemma printed_key p q : pok p -> pok q -> (map str (printed p) = map str (printed q) <-> map str (constant p) = map str (constant q)).
Proof.
  intros [[Hp _] Ep] [[Hq _] Eq]. split; [|apply filter_empty_str; auto]. unfold printed.
  destruct Ep as [Xp|[Np Fp]], Eq as [Xq|[Nq Fq]]; try rewrite (filter_empty_id _ Fp); try rewrite (filter_empty_id _ Fq); rewrite ?Xp, ?Xq; auto.
  - change (map str (filter_empty [Null 0])) with (@nil string). intros X. destruct (constant q); [congruence|discriminate X].
  - change (map str (filter_empty [Null 0])) with (@nil string). intros X. destruct (constant p); [congruence|discriminate X].
Qed.

(** Characters of words: neither a blank nor one of the delimiters. *)
Definition delimiter (c : ascii) : bool :=
  match c with " "%char | "("%char | ")"%char | "["%char | "]"%char | ">"%char | "!"%char => true | _ => false end.
Fixpoint chars_all (f : ascii -> bool) (s : string) : bool :=
  match s with EmptyString => true | String c r => (f c && chars_all f r)%bool end.
Lemma chars_all_app f a b : chars_all f (a ++ b) = (chars_all f a && chars_all f b)%bool.
Proof. induction a; simpl; auto. rewrite IHa, andb_assoc. reflexivity. Qed.

(** The class of the characters of a script in TERM_REGEX (constants.py 117) without the
    typographic apostrophe. *)
Definition script_letter (c : ascii) : bool :=
  match c with
  | "E"%char | "U"%char | "A"%char | "S"%char | "B"%char | "T"%char | "O"%char | "M"%char | "F"%char | "I"%char
  | "a"%char | "c"%char | "b"%char | "e"%char | "d"%char | "g"%char | "f"%char | "i"%char | "h"%char | "k"%char
  | "j"%char | "m"%char | "l"%char | "o"%char | "n"%char | "p"%char | "s"%char | "u"%char | "t"%char | "w"%char
  | "y"%char | "x"%char => true
  | _ => false
  end.
Definition script_mark (c : ascii) : bool :=
  match c with
  | "."%char | "-"%char | ";"%char | ":"%char | ","%char | "'"%char | "_"%char | "+"%char => true
  | _ => false
  end.
Definition script_char (c : ascii) : bool := (script_letter c || script_mark c)%bool.

Definition script_word (s : string) : Prop :=
  chars_all script_char s = true /\ exists c d r, s = String c (String d r) /\ script_letter c = true.

Lemma mark_chars n : chars_all script_char (LAYER_MARK n) = true.
Proof. do 8 (destruct n as [|n]; [reflexivity|]). unfold LAYER_MARK. destruct n; reflexivity. Qed.
Lemma null_word l : script_word (null_str l).
Proof.
  split.
  - unfold null_str. simpl. induction (seq 1 l) as [|n s IH]; [reflexivity|]. simpl. rewrite chars_all_app, mark_chars. exact IH.
  - unfold null_str. simpl. eexists. eexists. eexists. split; reflexivity.
Qed.
Lemma script_word_app a b : script_word a -> chars_all script_char b = true -> script_word (a ++ b).
Proof.
  intros [H (c & d & r & -> & L)] Hb. split; [rewrite chars_all_app, H, Hb; reflexivity|]. exists c, d, (r ++ b)%string. auto.
Qed.
Lemma script_word_chars a : script_word a -> chars_all script_char a = true.
Proof. intros [H _]. exact H. Qed.
Lemma join_plus_words l : l <> [] -> Forall script_word l -> script_word (join "+" l).
Proof.
  induction l as [|x l IH]; [congruence|]. intros _ F. inversion F as [|? ? Hx Fl]; subst. destruct l as [|y l]; [exact Hx|].
  change (join "+" (x :: y :: l)) with (x ++ "+" ++ join "+" (y :: l)). apply script_word_app; [exact Hx|].
  rewrite chars_all_app. simpl chars_all at 1. apply script_word_chars. apply IH; [discriminate|exact Fl].
Qed.
Lemma str_word s : wf s -> script_word (str s).
Proof.
  induction s as [l|p|a b c IHa IHb IHc|cs IH] using script_ind'; intros W.
  - apply null_word.
  - split; [destruct p; reflexivity|]. destruct p; eexists; eexists; eexists; split; reflexivity.
  - destruct (wf_mul_inv a b c W) as (Wa & Wb & Wc & _). cbn [str]. destruct (mul_character a b c) as [ch|] eqn:E.
    + unfold mul_character in E. destruct a as [|p| |], b as [|q| |], c as [[|]| | |]; try discriminate. injection E as <-.
      split; [destruct p, q; reflexivity|]. destruct p, q; eexists; eexists; eexists; split; reflexivity.
    + apply script_word_app; [|apply mark_chars]. unfold render3. cbn [fst snd].
      destruct (is_empty c); [destruct (is_empty b); auto|]; apply script_word_app; auto.
      * apply script_word_chars; auto.
      * rewrite chars_all_app, !script_word_chars; auto.
  - cbn [str]. destruct (if Nat.eqb (layer (Add cs)) 0 then add_character cs else None) as [ch|] eqn:E.
    + destruct (Nat.eqb (layer (Add cs)) 0); [|discriminate]. unfold add_character in E.
      destruct (find _ REMARKABLE_ADDITION) as [kv|] eqn:Ef; [|discriminate]. injection E as <-. apply find_some in Ef. destruct Ef as [Hin _].
      destruct Hin as [<-|[<-|[<-|[<-|[]]]]]; (split; [reflexivity|eexists; eexists; eexists; split; reflexivity]).
    + apply join_plus_words.
      * destruct W as (N & _). destruct cs; [congruence|discriminate].
      * pose proof (wf_add_children _ W) as F. rewrite Forall_map. rewrite Forall_forall in *. auto.
Qed.

(** *** Splitting a text at the delimiters *)
Inductive wtok := Wd (s : string) | Dl (c : ascii).
Definition flush (cur : string) : list wtok := match cur with EmptyString => [] | _ => [Wd cur] end.
Fixpoint split_words (cur : string) (s : string) : list wtok :=
  match s with
  | EmptyString => flush cur
  | String c r =>
    if delimiter c then (flush cur ++ (if Ascii.eqb c " " then [] else [Dl c]) ++ split_words "" r)%list
    else split_words (cur ++ String c "") r
  end.
Definition wordy (s : string) : Prop := s <> "" /\ chars_all (fun c => negb (delimiter c)) s = true.

Lemma app_string_assoc (a b c : string) : ((a ++ b) ++ c = a ++ (b ++ c))%string.
Proof. induction a; simpl; congruence. Qed.
Lemma app_string_nil (a : string) : (a ++ "" = a)%string.
Proof. induction a; simpl; congruence. Qed.
Lemma split_word_aux w : forall cur r, chars_all (fun c => negb (delimiter c)) w = true ->
  split_words cur (w ++ r) = split_words (cur ++ w) r.
Proof.
  induction w as [|c w IH]; intros cur r H; simpl in *; [rewrite app_string_nil; reflexivity|].
  apply andb_true_iff in H. destruct H as [H1 H2]. apply negb_true_iff in H1. rewrite H1, IH by exact H2.
  rewrite app_string_assoc. reflexivity.
Qed.
Lemma split_word w r : wordy w -> split_words "" (w ++ r) = split_words w r.
Proof. intros [_ H]. rewrite split_word_aux by exact H. reflexivity. Qed.
Lemma split_end w : wordy w -> split_words "" w = [Wd w].
Proof. intros H. rewrite <- (app_string_nil w) at 1. rewrite split_word by exact H. simpl. destruct H as [N _]. destruct w; [congruence|reflexivity]. Qed.
Lemma split_blank w r : wordy w -> split_words "" (w ++ " " ++ r) = Wd w :: split_words "" r.
Proof. intros H. rewrite split_word by exact H. simpl. destruct H as [N _]. destruct w; [congruence|reflexivity]. Qed.
Lemma split_delim w c r : wordy w -> delimiter c = true -> c <> " "%char ->
  split_words "" (w ++ String c r) = Wd w :: Dl c :: split_words "" r.
Proof.
  intros H Hc N. rewrite split_word by exact H. cbn [split_words]. rewrite Hc. apply Ascii.eqb_neq in N. rewrite N.
  destruct H as [N' _]. destruct w; [congruence|reflexivity].
Qed.
Lemma split_delim0 c r : delimiter c = true -> c <> " "%char -> split_words "" (String c r) = Dl c :: split_words "" r.
Proof. intros Hc N. cbn [split_words]. rewrite Hc. apply Ascii.eqb_neq in N. rewrite N. reflexivity. Qed.
Lemma split_blank0 r : split_words "" (" " ++ r) = split_words "" r.
Proof. reflexivity. Qed.

Lemma script_char_not_delim c : script_char c = true -> delimiter c = false.
Proof. destruct c as [b0 b1 b2 b3 b4 b5 b6 b7]; destruct b0, b1, b2, b3, b4, b5, b6, b7; vm_compute; congruence. Qed.
Lemma chars_all_impl (f g : ascii -> bool) s : (forall c, f c = true -> g c = true) -> chars_all f s = true -> chars_all g s = true.
Proof. intros H. induction s; simpl; auto. rewrite !andb_true_iff. intros [H1 H2]. auto. Qed.
Lemma script_word_wordy s : script_word s -> wordy s.
Proof.
  intros [H (c & d & r & -> & _)]. split; [discriminate|]. eapply chars_all_impl; [|exact H]. intros x Hx.
  rewrite script_char_not_delim by exact Hx. reflexivity.
Qed.

(** Decimal numbers. *)
Lemma uint_chars u : chars_all (fun c => negb (delimiter c)) (NilEmpty.string_of_uint u) = true.
Proof. induction u; simpl; auto. Qed.
Lemma int_str_inj n m : int_str n = int_str m -> n = m.
Proof.
  unfold int_str. intros H. apply (f_equal NilEmpty.uint_of_string) in H. rewrite !NilEmpty.usu in H. injection H as H.
  apply (f_equal Nat.of_uint) in H. rewrite !Unsigned.of_to in H. exact H.
Qed.
Lemma mult_wordy n : wordy ("m" ++ int_str n).
Proof. split; [discriminate|]. simpl. apply uint_chars. Qed.

(** The words of a group and of a polymorpheme. *)
Definition group_toks (g : list string * nat) : list wtok :=
  (Wd ("m" ++ int_str (snd g)) :: Dl "(" :: map Wd (fst g) ++ [Dl ")"])%list.
Definition pm_toks (cs : list string) (gs : list (list string * nat)) : list wtok :=
  (map Wd cs ++ flat_map group_toks gs)%list.

Lemma split_join ws : Forall wordy ws -> forall c r, delimiter c = true -> c <> " "%char ->
  split_words "" (join " " ws ++ String c r) = (map Wd ws ++ Dl c :: split_words "" r)%list.
Proof.
  induction 1 as [|w ws Hw F IH]; intros c r Hc N; [apply split_delim0; auto|]. destruct ws as [|w' ws].
  - apply split_delim; auto.
  - change (join " " (w :: w' :: ws)) with (w ++ " " ++ join " " (w' :: ws)). rewrite !app_string_assoc.
    rewrite split_blank by exact Hw. rewrite IH by auto. reflexivity.
Qed.
Definition group_str' (g : list string * nat) : string := "m" ++ int_str (snd g) ++ "(" ++ join " " (fst g) ++ ")".
Lemma group_str_key g : group_str g = group_str' (gkey g).
Proof. reflexivity. Qed.
Lemma split_group g r : Forall wordy (fst g) -> split_words "" (group_str' g ++ r) = (group_toks g ++ split_words "" r)%list.
Proof.
  intros F. unfold group_str'. rewrite <- !app_string_assoc. rewrite (app_string_assoc ("m" ++ int_str (snd g)) "(").
  rewrite !app_string_assoc. rewrite <- (app_string_assoc "m" (int_str (snd g))).
  change ("(" ++ join " " (fst g) ++ ")" ++ r) with (String "(" (join " " (fst g) ++ ")" ++ r)).
  rewrite split_delim; [|apply mult_wordy|reflexivity|discriminate].
  change (")" ++ r) with (String ")" r). rewrite split_join; [|exact F|reflexivity|discriminate].
  unfold group_toks. simpl. rewrite <- app_assoc. reflexivity.
Qed.

(** The parts of a polymorpheme followed by nothing or by a closing parenthesis. *)
Definition ends (r : string) : Prop := r = "" \/ exists c r', r = String c r' /\ delimiter c = true /\ c <> " "%char.
Lemma split_ends w r : wordy w -> ends r -> split_words "" (w ++ r) = Wd w :: split_words "" r.
Proof.
  intros H [->|(c & r' & -> & Hc & N)].
  - rewrite app_string_nil, split_end by exact H. reflexivity.
  - rewrite split_delim, split_delim0 by auto. reflexivity.
Qed.
Lemma join_cons2 sep x y l : join sep (x :: y :: l) = x ++ sep ++ join sep (y :: l).
Proof. reflexivity. Qed.
Lemma split_groups gs : Forall (fun g => Forall wordy (fst g)) gs -> forall r, ends r ->
  split_words "" (join " " (map group_str' gs) ++ r) = (flat_map group_toks gs ++ split_words "" r)%list.
Proof.
  induction 1 as [|g gs Hg F IH]; intros r Hr; [reflexivity|]. destruct gs as [|g' gs].
  - cbn [map join flat_map]. rewrite split_group by exact Hg. rewrite app_nil_r. reflexivity.
  - cbn [map]. rewrite join_cons2, !app_string_assoc. rewrite split_group by exact Hg. rewrite split_blank0.
    cbn [map] in IH. rewrite IH by exact Hr. cbn [flat_map]. rewrite <- !app_assoc. reflexivity.
Qed.
Lemma split_pm cs gs : Forall wordy cs -> Forall (fun g => Forall wordy (fst g)) gs -> forall r, ends r ->
  split_words "" (join " " (cs ++ map group_str' gs) ++ r) = (pm_toks cs gs ++ split_words "" r)%list.
Proof.
  intros Fc Fg r Hr. unfold pm_toks. induction Fc as [|c cs Hc Fc IH].
  - cbn [app map]. apply split_groups; auto.
  - cbn [app map]. destruct (cs ++ map group_str' gs)%list as [|w ws] eqn:E.
    + apply app_eq_nil in E. destruct E as [-> E]. apply map_eq_nil in E. subst gs. cbn [join app map flat_map].
      rewrite split_ends by auto. reflexivity.
    + rewrite join_cons2, !app_string_assoc. rewrite split_blank by exact Hc. rewrite IH. reflexivity.
Qed.

(** The words determine the constant and the groups, whatever follows. *)
Lemma words_inj : forall cs cs' (r r' : list wtok), (forall s l, r <> Wd s :: l) -> (forall s l, r' <> Wd s :: l) ->
  (map Wd cs ++ r = map Wd cs' ++ r')%list -> cs = cs' /\ r = r'.
Proof.
  induction cs as [|c cs IH]; intros [|c' cs'] r r' H H' E; simpl in E; auto.
  - exfalso. eapply H. exact E.
  - exfalso. eapply H'. symmetry. exact E.
  - injection E as -> E. destruct (IH cs' r r' H H' E) as [-> ->]. auto.
Qed.
Lemma str_app_inv (a b c : string) : (a ++ b = a ++ c)%string -> b = c.
Proof. induction a; simpl; auto. intros E. injection E. auto. Qed.
Lemma groups_inj : forall gs gs' (r r' : list wtok), (forall s l, r <> Wd s :: l) -> (forall s l, r' <> Wd s :: l) ->
  (flat_map group_toks gs ++ r = flat_map group_toks gs' ++ r')%list -> gs = gs' /\ r = r'.
Proof.
  induction gs as [|[ms n] gs IH]; intros [|[ms' n'] gs'] r r' H H' E; cbn [flat_map app] in E; auto.
  - exfalso. eapply H. exact E.
  - exfalso. eapply H'. symmetry. exact E.
  - unfold group_toks at 1 3 in E. cbn [fst snd] in E. rewrite <- !app_assoc in E. cbn [app] in E.
    rewrite <- !app_assoc in E. injection E as E1 E2.
    apply (words_inj ms ms') in E2; [|intros; discriminate|intros; discriminate]. destruct E2 as [-> E2]. cbn [app] in E2. injection E2 as E2.
    apply IH in E2; auto. destruct E2 as [-> ->]. apply int_str_inj in E1. subst. auto.
Qed.
Lemma pm_toks_inj : forall cs cs' gs gs' (r r' : list wtok), (forall s l, r <> Wd s :: l) -> (forall s l, r' <> Wd s :: l) ->
  (forall l, r <> Dl "(" :: l) -> (forall l, r' <> Dl "(" :: l) ->
  (pm_toks cs gs ++ r = pm_toks cs' gs' ++ r')%list -> cs = cs' /\ gs = gs' /\ r = r'.
Proof.
  unfold pm_toks.
  assert (X : forall c cs gs g gs' (r r' : list wtok), (forall s l, r <> Wd s :: l) -> (forall l, r <> Dl "(" :: l) ->
             ((map Wd (c :: cs) ++ flat_map group_toks gs) ++ r <> (map Wd [] ++ flat_map group_toks (g :: gs')) ++ r')%list).
  { intros c cs gs [ms n] gs' r r' H1 H2 E. cbn [map app flat_map] in E. unfold group_toks at 2 in E. cbn [app] in E.
    injection E as _ E. destruct cs as [|c' cs]; [|discriminate]. cbn [map app] in E. destruct gs as [|g' gs]; [|discriminate].
    cbn [flat_map app] in E. eapply H2. exact E. }
  induction cs as [|c cs IH]; intros [|c' cs'] gs gs' r r' H1 H2 H3 H4 E.
  - cbn [map app] in E. apply groups_inj in E; tauto.
  - destruct gs as [|g gs]; [cbn [map app flat_map] in E; exfalso; eapply H1; exact E|].
    exfalso. symmetry in E. eapply X; [| |exact E]; auto.
  - destruct gs' as [|g gs']; [cbn [map app flat_map] in E; exfalso; eapply H2; symmetry; exact E|].
    exfalso. eapply X; [| |exact E]; auto.
  - cbn [map app] in E. injection E as -> E. apply IH in E; auto. destruct E as (-> & -> & ->). auto.
Qed.

Lemma pm_str_parts p : pm_str p = join " " (map str (printed p) ++ map group_str' (map gkey (groups p))).
Proof. unfold pm_str. rewrite map_map. reflexivity. Qed.
Lemma pok_words p : pok p -> Forall wordy (map str (printed p)) /\ Forall (fun g => Forall wordy (fst g)) (map gkey (groups p)).
Proof.
  intros [[H1 H2] _]. split.
  - rewrite Forall_map. eapply Forall_impl; [|apply filter_nf; exact H1]. intros s Hs. apply script_word_wordy, str_word, nf_wf. exact Hs.
  - rewrite Forall_map. eapply Forall_impl; [|exact H2]. intros g Hg. cbn [gkey fst]. rewrite Forall_map. eapply Forall_impl; [|exact Hg].
    intros s Hs. apply script_word_wordy, str_word, nf_wf. exact Hs.
Qed.
Lemma split_pm_str p r : pok p -> ends r ->
  split_words "" (pm_str p ++ r) = (pm_toks (map str (printed p)) (map gkey (groups p)) ++ split_words "" r)%list.
Proof. intros H Hr. destruct (pok_words p H). rewrite pm_str_parts. apply split_pm; auto. Qed.

(** Equal strings: the same constant and groups. *)
Lemma pm_str_key p q : pok p -> pok q -> (pm_str p = pm_str q <-> pkey p = pkey q).
Proof.
  intros Hp Hq. split.
  - intros E. assert (E' : split_words "" (pm_str p ++ "") = split_words "" (pm_str q ++ "")) by (rewrite E; reflexivity).
    rewrite !split_pm_str in E' by (auto; left; reflexivity). apply pm_toks_inj in E'; try (intros; simpl; discriminate).
    destruct E' as (E1 & E2 & _). apply printed_key in E1; auto. unfold pkey. congruence.
  - unfold pkey. intros E. injection E as E1 E2. rewrite !pm_str_parts, E2. apply printed_key in E1; auto. rewrite E1. reflexivity.
Qed.
Lemma order_pm : order pok pm_str pm_eqb pm_lt.
Proof.
  assert (O : order pok pm_str (fun p q => seq_eqb script_eqb (constant p) (constant q) && seq_eqb group_eqb (groups p) (groups q))%bool pm_lt).
  { apply (order_key (order_sub order_pm0 (fun a H => proj1 H))). intros a b Ha Hb. symmetry. apply pm_str_key; auto. }
  destruct O. split; auto. intros a b _ _. apply String.eqb_eq.
Qed.

(** ** Equality of constructed polymorphemes *)
Definition gnorm (g : group) : group := (isort (filter_empty (fst g)), snd g).
Lemma gnorm_ok g : gok g -> gok (gnorm g).
Proof. intros H. apply isort_Forall, filter_nf. exact H. Qed.
Lemma isort_key l l' : Forall nf l -> Forall nf l' -> (Permutation (map str l) (map str l') <-> map str (isort l) = map str (isort l')).
Proof.
  intros F F'. split; [apply (o_sort_unique order_script); auto|]. intros E.
  eapply perm_trans; [apply Permutation_sym, Permutation_map, sort_perm|]. fold isort.
  eapply perm_trans; [|apply Permutation_map, sort_perm]. unfold isort in E. rewrite E. reflexivity.
Qed.
Lemma mk_pm_constant_key cs cs' gs gs' : Forall nf cs -> Forall nf cs' ->
  (map str (constant (mk_pm cs gs)) = map str (constant (mk_pm cs' gs')) <-> Permutation (map str (filter_empty cs)) (map str (filter_empty cs'))).
Proof.
  intros F F'. rewrite isort_key by (apply filter_nf; auto).
  assert (A : Forall (fun m => is_empty m = false) (isort (filter_empty cs))) by (apply isort_Forall, filter_empty_all).
  assert (A' : Forall (fun m => is_empty m = false) (isort (filter_empty cs'))) by (apply isort_Forall, filter_empty_all).
  assert (N : Forall nf (isort (filter_empty cs))) by (apply isort_Forall, filter_nf; auto).
  assert (N' : Forall nf (isort (filter_empty cs'))) by (apply isort_Forall, filter_nf; auto).
  assert (X : forall x l, Forall (fun m => is_empty m = false) (x :: l) -> Forall nf (x :: l) -> map str [Null 0] <> map str (x :: l)).
  { intros x l B C E. injection E as E _. inversion B; inversion C; subst.
    assert (is_empty x = true) by (rewrite <- (is_empty_str (Null 0) x); auto using nf_wf; cbv; lia). congruence. }
  unfold mk_pm. cbn [constant]. destruct (isort (filter_empty cs)) as [|x l], (isort (filter_empty cs')) as [|y l']; try tauto.
  - split; [intros E; exfalso; eapply X; [| |exact E]; auto|discriminate].
  - split; [intros E; exfalso; eapply X; [| |symmetry; exact E]; auto|discriminate].
Qed.
Lemma mk_pm_groups_key cs cs' gs gs' : Forall gok gs -> Forall gok gs' ->
  (map gkey (groups (mk_pm cs gs)) = map gkey (groups (mk_pm cs' gs')) <->
   Permutation (map (fun g => gkey (gnorm g)) gs) (map (fun g => gkey (gnorm g)) gs')).
Proof.
  intros F F'. unfold mk_pm. cbn [groups].
  assert (N : forall l, Forall gok l -> Forall gok (map gnorm l)) by (intros l Fl; rewrite Forall_map; eapply Forall_impl; [|exact Fl]; apply gnorm_ok).
  rewrite <- (map_map gnorm gkey gs), <- (map_map gnorm gkey gs'). fold gnorm.
  change (fun g : list script * nat => (isort (filter_empty (fst g)), snd g)) with gnorm. split.
  - intros E. eapply perm_trans; [apply Permutation_sym, Permutation_map, (sort_perm group_lt)|].
    eapply perm_trans; [|apply Permutation_map, (sort_perm group_lt)]. match goal with |- Permutation ?a ?b => replace b with a by exact E end. apply Permutation_refl.
  - intros P. apply (o_sort_unique order_group); auto.
Qed.

(** ** Lexemes *)
Definition lok (l : lexeme) : Prop := pok (pm_flexion l) /\ pok (pm_content l).
Lemma pm_empty_str p : pok p -> (pm_empty p = true <-> pm_str p = "").
Proof.
  intros [[H1 H2] H3]. unfold pm_empty. split.
  - destruct (groups p) as [|g gs] eqn:G; [|discriminate]. destruct (constant p) as [|c [|]] eqn:C; try discriminate.
    intros E. unfold pm_str. rewrite G, C. cbn [filter_empty filter map]. rewrite E. reflexivity.
  - intros E. unfold pm_str in E. assert (G : groups p = []).
    { destruct (groups p) as [|g gs]; auto. exfalso. destruct (map str (filter_empty (constant p))) as [|x l]; cbn [app map] in E.
      - destruct (map group_str gs); discriminate.
      - destruct l as [|y l]; cbn [app] in E; rewrite join_cons2 in E; destruct x; discriminate. }
    rewrite G in *. cbn [map] in E. rewrite app_nil_r in E. destruct H3 as [->|[N F]]; [reflexivity|]. exfalso.
    rewrite (filter_empty_id _ F) in E. destruct (constant p) as [|c l]; [congruence|]. inversion H1; subst.
    destruct (str_word c ltac:(auto using nf_wf)) as (_ & x & y & r & Ec & _). cbn [map] in E. destruct (map str l); [|rewrite join_cons2 in E]; cbn [join] in E; rewrite Ec in E; discriminate.
Qed.
Lemma lexeme_str_alt l : lexeme_str l =
  if pm_empty (pm_content l) then if pm_empty (pm_flexion l) then "()" else paren (pm_str (pm_flexion l))
  else paren (pm_str (pm_flexion l)) ++ paren (pm_str (pm_content l)).
Proof.
  unfold lexeme_str. destruct (pm_empty (pm_content l)), (pm_empty (pm_flexion l)); cbn [List.rev app sconcat String.eqb]; rewrite ?app_string_nil; reflexivity.
Qed.
Definition pm_words (p : pm) : list wtok := pm_toks (map str (printed p)) (map gkey (groups p)).
Definition lex_words (l : lexeme) : list wtok :=
  (Dl "(" :: pm_words (pm_flexion l) ++ Dl ")" ::
   if pm_empty (pm_content l) then [] else Dl "(" :: pm_words (pm_content l) ++ [Dl ")"])%list.
Lemma split_paren p r : pok p -> split_words "" (paren (pm_str p) ++ r) = (Dl "(" :: pm_words p ++ Dl ")" :: split_words "" r)%list.
Proof.
  intros H. unfold paren. rewrite !app_string_assoc. cbn [append]. rewrite split_delim0; [|reflexivity|discriminate].
  rewrite split_pm_str; [|exact H|right; exists ")"%char, r; split; [reflexivity|split; [reflexivity|discriminate]]].
  rewrite split_delim0; [|reflexivity|discriminate]. reflexivity.
Qed.
Lemma empty_words p : pok p -> pm_empty p = true -> pm_words p = [].
Proof.
  intros H E. unfold pm_empty in E. unfold pm_words, printed. destruct (groups p); [|discriminate].
  destruct (constant p) as [|c [|]]; try discriminate. cbn [filter_empty filter]. rewrite E. reflexivity.
Qed.
Lemma split_lexeme l r : lok l -> split_words "" (lexeme_str l ++ r) = (lex_words l ++ split_words "" r)%list.
Proof.
  intros [Hf Hc]. rewrite lexeme_str_alt. unfold lex_words. destruct (pm_empty (pm_content l)) eqn:Ec.
  - destruct (pm_empty (pm_flexion l)) eqn:Ef.
    + rewrite (empty_words _ Hf Ef). reflexivity.
    + rewrite split_paren by auto. cbn [app]. rewrite <- app_assoc. reflexivity.
  - rewrite app_string_assoc, !split_paren by auto. cbn [app]. rewrite <- !app_assoc. cbn [app]. rewrite <- app_assoc. reflexivity.
Qed.
Lemma pm_words_inj p q r r' : pok p -> pok q -> (pm_words p ++ Dl ")" :: r = pm_words q ++ Dl ")" :: r')%list -> pm_str p = pm_str q /\ r = r'.
Proof.
  intros Hp Hq E. apply pm_toks_inj in E; try (intros; discriminate). destruct E as (E1 & E2 & E3). injection E3 as E3.
  split; auto. apply pm_str_key; auto. apply printed_key in E1; auto. unfold pkey. congruence.
Qed.
Lemma lex_words_inj a b r r' : lok a -> lok b -> (forall l, r <> Dl "(" :: l) -> (forall l, r' <> Dl "(" :: l) ->
  (lex_words a ++ r = lex_words b ++ r')%list -> pm_str (pm_flexion a) = pm_str (pm_flexion b) /\ pm_str (pm_content a) = pm_str (pm_content b) /\ r = r'.
Proof.
  intros [Ha Ha'] [Hb Hb'] N N' E. unfold lex_words in E. cbn [app] in E. injection E as E. rewrite <- !app_assoc in E. cbn [app] in E.
  apply pm_words_inj in E; auto. destruct E as [E1 E2]. split; auto.
  pose proof (pm_empty_str _ Ha') as Xa. pose proof (pm_empty_str _ Hb') as Xb.
  destruct (pm_empty (pm_content a)), (pm_empty (pm_content b)).
  - split; auto. rewrite (proj1 Xa), (proj1 Xb); auto.
  - exfalso. eapply N. exact E2.
  - exfalso. eapply N'. symmetry. exact E2.
  - cbn [app] in E2. injection E2 as E2. rewrite <- !app_assoc in E2. cbn [app] in E2. apply pm_words_inj in E2; auto.
Qed.
Lemma lexeme_str_key a b : lok a -> lok b -> (lexeme_str a = lexeme_str b <-> pm_str (pm_flexion a) = pm_str (pm_flexion b) /\ pm_str (pm_content a) = pm_str (pm_content b)).
Proof.
  intros Ha Hb. split.
  - intros E. assert (E' : split_words "" (lexeme_str a ++ "") = split_words "" (lexeme_str b ++ "")) by (rewrite E; reflexivity).
    rewrite !split_lexeme in E' by auto. apply lex_words_inj in E'; auto; try (intros; simpl; discriminate). tauto.
  - intros [E1 E2]. destruct Ha as [Ha Ha'], Hb as [Hb Hb']. rewrite !lexeme_str_alt.
    pose proof (pm_empty_str _ Ha) as Xa. pose proof (pm_empty_str _ Hb) as Xb. pose proof (pm_empty_str _ Ha') as Xa'. pose proof (pm_empty_str _ Hb') as Xb'.
    rewrite <- E1 in Xb. rewrite <- E2 in Xb'. rewrite E1, E2.
    assert (Y : forall x y (P : Prop), (x = true <-> P) -> (y = true <-> P) -> x = y) by (intros [|] [|] P; intuition congruence).
    rewrite (Y _ _ _ Xa Xb), (Y _ _ _ Xa' Xb'). reflexivity.
Qed.
Lemma order_lexeme : order lok lexeme_str lexeme_eqb lexeme_lt.
Proof.
  pose proof (order_pair order_pm order_pm) as O. set (t := fun l => (pm_flexion l, pm_content l)).
  assert (E : forall a b, lok a -> lok b -> lexeme_lt a b = if pm_eqb (pm_flexion a) (pm_flexion b) then pm_lt (pm_content a) (pm_content b) else pm_lt (pm_flexion a) (pm_flexion b)).
  { intros a b [Ha _] [Hb _]. unfold lexeme_lt. destruct (pm_eqb (pm_flexion a) (pm_flexion b)) eqn:X; [|rewrite orb_false_r; reflexivity].
    apply (o_eqb _ _ _ _ order_pm) in X; auto. rewrite (o_irr _ _ _ _ order_pm _ _ Ha Hb X). reflexivity. }
  split.
  - intros a b _ _. apply String.eqb_eq.
  - intros a b Ha Hb X. rewrite E by auto. apply (o_irr _ _ _ _ O (t a) (t b)); auto. apply lexeme_str_key in X; auto. destruct X as [X1 X2]. simpl. congruence.
  - intros a b c Ha Hb Hc. rewrite !E by auto. apply (o_trans _ _ _ _ O (t a) (t b) (t c)); auto.
  - intros a b Ha Hb X. rewrite !E by auto. apply (o_total _ _ _ _ O (t a) (t b)); auto. intros Y. apply X. apply lexeme_str_key; auto. simpl in Y. injection Y. auto.
Qed.
