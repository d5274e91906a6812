(** Paths with the same text designate the same elements. *)
From Coq Require Import List String Ascii Bool Arith Lia DecimalString.
From Verif Require Import Base Script ScriptParser ScriptWf ScriptStrProofs ScriptOrderProofs ScriptSpec ScriptCtorProofs ScriptParseProofs Commons Usl UslProofs Sfun SfunProofs SfunWordProofs SfunSpec UslParser UslParserProofs UslRoundProofs Path PathLexProofs PathSpec PathProofs PathAlgProofs.
Import ListNotations.
Local Open Scope string_scope.

(** The tokens but the multiplicities. *)
Definition kept (t : ptoken) : bool := match t with KMult _ => false | _ => true end.
Definition erase (w : list ptoken) : list ptoken := filter kept w.
Lemma digit_int c : digit c = true -> exists k, k < 10 /\ String c "" = int_str k.
Proof.
  destruct c as [[|] [|] [|] [|] [|] [|] [|] [|]]; cbn; intros H; try discriminate;
  first [exists 0; split; [lia|reflexivity] | exists 1; split; [lia|reflexivity] | exists 2; split; [lia|reflexivity] | exists 3; split; [lia|reflexivity]
        | exists 4; split; [lia|reflexivity] | exists 5; split; [lia|reflexivity] | exists 6; split; [lia|reflexivity] | exists 7; split; [lia|reflexivity]
        | exists 8; split; [lia|reflexivity] | exists 9; split; [lia|reflexivity]].
Qed.
Lemma erase_digits d : chars_all digit d = true -> forall r, erase (plex 0 (d ++ r)) = erase (plex 0 r).
Proof.
  induction d as [|c d IH]; [reflexivity|]. cbn [chars_all]. intros H r. apply andb_true_iff in H. destruct H as [H F].
  destruct (digit_int c H) as (k & L & E). change (String c d ++ r) with (String c "" ++ (d ++ r)). rewrite E, plex_digit by auto. cbn [erase filter kept]. now apply IH.
Qed.
Lemma erase_int k r : erase (plex 0 (int_str k ++ r)) = erase (plex 0 r).
Proof. apply erase_digits. apply uint_digits. Qed.
Definition nomult (p : path) : path := match p with PPoly g m _ c => PPoly g m None c | _ => p end.
Definition nomult_lex (p : path) : path := match p with PLex i (Some c) => PLex i (Some (nomult c)) | _ => p end.
Lemma er_part g m k : opt_M nf m -> erase (plex 0 (path_str (PPoly g m k None))) = KSep :: part_toks g m None.
Proof.
  intros Hm. cbn [path_str step_str]. cbn [append]. rewrite plex_sep. cbn [erase filter kept]. f_equal. rewrite app_string_nil, plex_group. unfold part_toks. cbn [filter kept]. f_equal.
  assert (X : erase (plex 0 (match m with Some m => String ">" (str m) | None => "" end)) = match m with Some m => [KSep; KMorpheme (str m)] | None => [] end).
  { destruct m as [m|]; [|reflexivity]. rewrite plex_sep. cbn [erase filter kept]. f_equal. rewrite <- (app_string_nil (str m)) at 1. rewrite plex_script; [reflexivity| |auto]. now apply nf_wf. }
  destruct g, k as [k|]; cbn [append app]; try exact X; rewrite plex_blank; change (filter kept) with erase; now rewrite erase_int.
Qed.
Lemma er_lex p : lexeme_place nf p -> erase (plex 0 (path_str p)) = KSep :: lex_toks (nomult_lex p).
Proof.
  intros H. destruct H as [i|p [g m k Hm]|m Hm].
  - destruct i; reflexivity.
  - change (path_str (PLex Content (Some (PPoly g m k None)))) with (String ">" ("content" ++ path_str (PPoly g m k None))).
    rewrite plex_sep, plex_content. cbn [erase filter kept]. change (filter kept) with erase. rewrite er_part by auto. reflexivity.
  - change (path_str (PLex Flexion (Some (PFlex m None)))) with (String ">" ("flexion" ++ path_str (PFlex m None))).
    rewrite plex_sep, plex_flexion, plex_flex by auto. reflexivity.
Qed.
Lemma erase_app a b : erase (a ++ b)%list = (erase a ++ erase b)%list.
Proof. apply filter_app. Qed.
Lemma erase_names (r : list string) : erase (map KMorpheme r) = map KMorpheme r.
Proof. induction r as [|t r IH]; [reflexivity|]. cbn [map erase filter kept]. f_equal. exact IH. Qed.
Lemma er_role r f c : r <> [] -> vrole r -> match c with Some p => lexeme_place nf p | None => True end ->
  erase (plex 0 (path_str (PRole r f c))) = (KSep :: KRole :: KSep :: (if f then [KBang] else []) ++ map KMorpheme r ++ opt_toks (option_map nomult_lex c))%list.
Proof.
  intros N V Hc.
  assert (E : forall X, (KSep :: KRole :: KSep :: (if f then [KBang] else []) ++ map KMorpheme r ++ erase X)%list = erase (KSep :: KRole :: KSep :: (if f then [KBang] else []) ++ map KMorpheme r ++ X)%list).
  { intros X. cbn [erase filter kept]. change (filter kept) with erase. rewrite !erase_app, erase_names. destruct f; reflexivity. }
  destruct c as [p|].
  - rewrite path_str_role, plex_role_alone by (auto; apply path_str_stops). rewrite <- E, er_lex by auto. reflexivity.
  - rewrite plex_prole by auto. rewrite <- E. reflexivity.
Qed.

Definition raw0 (p : path) : raw_path :=
  match p with
  | PUsl _ => RwUsl
  | PPoly g m _ _ => RwPart (raw_pos_of g m None)
  | PFlex m _ => RwPart (RwMorpheme (str m))
  | PLex _ _ => RwLex (raw_lex_of (nomult_lex p))
  | PRole r f c => RwRole f r (option_map (fun c => raw_lex_of (nomult_lex c)) c)
  end.
Lemma nomult_place p : lexeme_place nf p -> lexeme_place nf (nomult_lex p).
Proof. intros [i|p' [g m k Hm]|m Hm]; cbn; constructor; auto. now constructor. Qed.
Lemma raw0_ok p : proper nf p -> q_path (erase (plex 0 (path_str p))) = Some (raw0 p).
Proof.
  intros [|p' [g m k Hm]|m Hm|p' L|r f N V|r f p' N V L].
  - reflexivity.
  - rewrite er_part by auto. change (q_path (KSep :: part_toks g m None)) with (match q_part (part_toks g m None) with Some (p, []) => Some (RwPart p) | _ => None end).
    now rewrite q_part_ok.
  - rewrite plex_flex by auto. reflexivity.
  - rewrite er_lex by auto.
    assert (X : q_path (KSep :: lex_toks (nomult_lex p')) = match q_lex (lex_toks (nomult_lex p')) with Some (p, []) => Some (RwLex p) | _ => None end) by (destruct L as [i|? [g m k Hm]|m Hm]; reflexivity).
    rewrite X, (q_lex_ok nf) by (now apply nomult_place). destruct L as [i|? [g m k Hm]|m Hm]; reflexivity.
  - rewrite er_role by auto.
    match goal with |- q_path (KSep :: ?w) = _ => change (q_path (KSep :: w)) with (match q_role w with Some (p, []) => Some p | _ => None end) end.
    rewrite (q_role_ok nf) by (cbn; auto). reflexivity.
  - rewrite er_role by auto.
    match goal with |- q_path (KSep :: ?w) = _ => change (q_path (KSep :: w)) with (match q_role w with Some (p, []) => Some p | _ => None end) end.
    rewrite (q_role_ok nf) by (cbn; auto using nomult_place). reflexivity.
Qed.

(** ** Designation *)
Definition same_usl (a b : res (option usl)) : Prop := same_node a b.
Lemma same_refl a : same_node a a.
Proof. destruct a as [[]|]; cbn; auto. Qed.
Lemma in_scripts_str m m' l : str m = str m' -> in_scripts m l = in_scripts m' l.
Proof. intros E. unfold in_scripts. induction l as [|x l IH]; [reflexivity|]. cbn [existsb]. rewrite IH. unfold script_eqb. now rewrite E. Qed.
Lemma deref_poly_same g m m' k k' u : opt_M nf m -> opt_M nf m' -> option_map str m = option_map str m' ->
  same_node (deref (PPoly g m k None) u) (deref (PPoly g m' k' None) u).
Proof.
  intros Hm Hm' E. destruct m as [m|], m' as [m'|]; try discriminate; [|destruct u as [[]|]; cbn; auto; destruct (deref_poly g None p); cbn; auto].
  injection E as E. assert (Em : is_empty m = is_empty m') by (apply is_empty_str; auto; now apply nf_wf).
  destruct u as [[| u| |]|]; cbn; auto. unfold deref_poly. destruct g; [|destruct (groups_at u _); cbn; auto..]; rewrite (in_scripts_str m m') by auto; rewrite Em; destruct (_ || _); cbn; auto.
Qed.
Lemma deref_flex_same m m' u : str m = str m' -> same_node (deref (PFlex m None) u) (deref (PFlex m' None) u).
Proof. intros E. destruct u as [[| u| |]|]; cbn; auto. unfold deref_flex. rewrite E. destruct (ins _ _); cbn; auto. Qed.
Lemma deref_lex_same p q u : lexeme_place nf p -> lexeme_place nf q -> raw_lex_of (nomult_lex p) = raw_lex_of (nomult_lex q) -> same_node (deref p u) (deref q u).
Proof.
  intros L L' E. destruct L as [i|? [g m k Hm]|m Hm], L' as [i'|? [g' m' k' Hm']|m' Hm']; cbn in E; try discriminate.
  - injection E as <-. apply same_refl.
  - unfold raw_pos_of in E. injection E as Eg _ Em. assert (g = g') as <- by (destruct g, g'; cbn in Eg; congruence).
    rewrite !(deref_eq (PLex _ _)). cbn [child_of]. change (deref_step (PLex Content (Some (PPoly g m k None))) u) with (deref_step (PLex Content (Some (PPoly g m' k' None))) u).
    destruct (deref_step _ u) as [n|]; cbn [bind]; [|apply same_refl]. now apply deref_poly_same.
  - injection E as Em. rewrite !(deref_eq (PLex _ _)). cbn [child_of].
    change (deref_step (PLex Flexion (Some (PFlex m None))) u) with (deref_step (PLex Flexion (Some (PFlex m' None))) u).
    destruct (deref_step _ u) as [n|]; cbn [bind]; [|apply same_refl]. now apply deref_flex_same.
Qed.
Lemma same_text_same_node p q u : proper nf p -> proper nf q -> path_str p = path_str q -> same_node (deref p u) (deref q u).
Proof.
  intros Hp Hq E. assert (R : raw0 p = raw0 q) by (pose proof (raw0_ok p Hp); pose proof (raw0_ok q Hq); congruence). clear E.
  destruct Hp as [|? [g m k Hm]|m Hm|p L|r f N V|r f p N V L], Hq as [|? [g' m' k' Hm']|m' Hm'|q L'|r' f' N' V'|r' f' q N' V' L'];
  try (destruct L; discriminate); try (destruct L'; discriminate); try discriminate.
  - apply same_refl.
  - unfold raw0, raw_pos_of in R. injection R as Eg _ Em. assert (g = g') as <- by (destruct g, g'; cbn in Eg; congruence). now apply deref_poly_same.
  - cbn in R. injection R as Em. now apply deref_flex_same.
  - apply deref_lex_same; auto. destruct L, L'; cbn in R |- *; congruence.
  - cbn in R. injection R as <- <-. apply same_refl.
  - cbn in R. injection R as <- <- R. rewrite !(deref_eq (PRole _ _ _)). cbn [child_of].
    change (deref_step (PRole r f (Some p)) u) with (deref_step (PRole r f (Some q)) u). destruct (deref_step _ u) as [n|]; cbn [bind]; [|apply same_refl]. now apply deref_lex_same.
Qed.
Lemma alike_part_place p q : place nf p -> alike_part p q -> place nf q.
Proof. intros [g m k H] A. destruct q as [|g' m' k' [|]| | |]; cbn in A; try contradiction. constructor. tauto. Qed.
Lemma alike_lex_place p q : lexeme_place nf p -> alike_lex p q -> lexeme_place nf q.
Proof.
  intros [i|c H|m H] A; destruct q as [| | |i' [c'|]|]; cbn [alike_lex] in A; try contradiction.
  - constructor.
  - destruct A as [<- A]. apply lexeme_content. eapply alike_part_place; eauto.
  - destruct A as [<- A]. destruct c' as [| |m' [|]| |]; cbn in A; try contradiction. apply lexeme_flexion. tauto.
Qed.
Lemma alike_proper p q : proper nf p -> alike p q -> proper nf q.
Proof.
  intros [|c H|m H|c H|r f N V|r f c N V H] A.
  - destruct q as [[|]| | | |]; cbn in A; try contradiction. constructor.
  - apply proper_place. eapply alike_part_place; eauto. destruct H. destruct q; exact A.
  - destruct q as [| |m' [|]| |]; cbn in A; try contradiction. apply proper_flexion. tauto.
  - apply proper_lexeme. eapply alike_lex_place; eauto. destruct H; destruct q; exact A.
  - destruct q as [| | | |r' f' [|]]; cbn in A; try contradiction. destruct A as [<- <-]. now apply proper_role.
  - destruct q as [| | | |r' f' [|]]; cbn [alike] in A; try contradiction. destruct A as (<- & <- & A). apply proper_role_lexeme; auto. eapply alike_lex_place; eauto.
Qed.
