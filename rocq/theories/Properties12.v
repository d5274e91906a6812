(** Properties of the USLs rebuilt from the paths of their morphemes: C33. *)
From Coq Require Import List String Bool NArith Arith Lia Permutation.
From Verif Require Import Base Script ScriptParser SortProofs ScriptWf ScriptStrProofs ScriptOrderProofs ScriptSpec ScriptCtorProofs ScriptParseProofs Commons Usl UslSpec OrderTheory UslProofs UslSsProofs Properties1 Properties8
  Sfun SfunProofs SfunListProofs SfunWordProofs SfunSpec Properties9 UslParser UslParserProofs UslRoundProofs UslGrammar Properties10
  Path PathSpec PathProofs PathAlgProofs PathTextProofs PathDerefProofs PathBuildProofs RebuildSpec.
Import ListNotations.
Local Open Scope string_scope.

Lemma content_good u : rebuilt_content u -> pm_good u.
Proof.
  intros (B & Pl & L & N & G). split; [now apply plain_clean|]. split; [exact L|]. split; [|exact N]. apply Forall_forall. exact G.
Qed.
Lemma category_root t m : of_category t m -> of_root t m.
Proof.
  intros (x & l & n & E & Es & Hn & Sn). unfold of_root, flexion_root. rewrite E. cbn [bind]. rewrite Es. apply in_scripts_iff. rewrite <- Sn. now apply in_map.
Qed.
Lemma flexion_good u : rebuilt_flexion u -> flex_good u.
Proof.
  intros (B & Pl & L & G & cats & N & I & F). split; [now apply plain_clean|]. split; [exact L|]. split; [now apply Forall_forall|]. exists cats. split; [exact N|]. unfold flex_parts.
  change (filter_empty (constant u)) with (meaningful (constant u)). clear -I F. revert F. generalize ((map (fun m => [m]) (meaningful (constant u)) ++ map fst (groups u))%list) as qs. intros qs F. induction F as [|t q cats qs H F IH]; [constructor|].
  constructor; [|apply IH; intros x Hx; apply I; now right]. split; [apply I; now left|]. intros m Hm. apply category_root. auto.
Qed.
(** * C33 *)
(** The USL built from the list of the paths of its morphemes is equal to it. Missing: see
    [rebuildable] and the refutations. *)
Theorem C33_rebuild_partial : forall so u, set_order so -> rebuildable u ->
  exists l u', iter_by_script u = Ok (map (fun e => (fst e, UScript (snd e))) l) /\ usl_of_list so l = Ok u' /\ usl_str u' = usl_str u /\
    match u, u' with UPm _, UPm _ | ULexeme _, ULexeme _ => True | UWord w, UWord w' => w_role w' = w_role w /\ w_context w' = w_context w /\ w_class w' = w_class w | _, _ => False end.
Proof.
  intros so u SO [p H|l [HF HC]|l r w W Hr Hl].
  - destruct (rebuild_pm so SO p (content_good p H)) as (it & q & E1 & E2 & E3). exists it, (UPm q). auto.
  - destruct (rebuild_lexeme so SO l) as (it & q & E1 & E2 & E3); [split; [now apply flexion_good|now apply content_good]|]. exists it, (ULexeme q). auto.
  - apply word_of_inv in W. destruct W as (c & f & E & W). apply from_list_inv in E. destruct E as [V _]. destruct (mk_word_fields _ _ _ _ W) as (Wf & Wr & Wc). subst r. rewrite Wf, Wc in Hr, Hl.
    destruct (rebuild_word so SO c f (w_role w) w V W) as (it & w' & E1 & E2 & E3 & E4 & E5 & E6).
    + apply Forall_forall. intros e He. destruct (Hl e He) as (x & Ex & HF & HC). exists x. split; [exact Ex|]. split; [now apply flexion_good|now apply content_good].
    + exact Hr.
    + exists it, (UWord w'). auto 6.
Qed.
Print Assumptions C33_rebuild_partial.
Definition S1 := text "E:S:.-d.u.-'". Definition S2 := text "E:U:U:.". Definition S3 := text "E:U:A:.".
Definition X4 := lx (mk_pm [S1] [([S2; S3], 1)]) P22.
Definition X5 := lx (mk_pm [] []) (mk_pm [B_] []).
Lemma X4_rebuilt : rebuilt_lexeme X4.
Proof.
  split.
  - split; [exists [S1], [([S2; S3], 1)]; split; [constructor; [text_reg|constructor]|split; [constructor; [constructor; [text_reg|constructor; [text_reg|constructor]]|constructor]|reflexivity]]|]. split; [apply plain_by; vm_compute; reflexivity|].
    split; [vm_compute; lia|]. assert (G : groups (pm_flexion X4) = [([S2; S3], 1)]) by (vm_compute; reflexivity). rewrite G. split.
    + intros g [<-|[]]. cbn [fst snd List.length]. split; [reflexivity|]. split; [lia|]. repeat constructor; vm_compute; intuition discriminate.
    + exists ["E:M:.-d.u.-'"; "E:O:O:."]. split; [repeat constructor; cbn; intuition discriminate|]. split; [intros t [<-|[<-|[]]]; cbn; tauto|]. assert (M : meaningful (constant (pm_flexion X4)) = [S1]) by (vm_compute; reflexivity). rewrite M.
      cbn [map app fst]. assert (Cat : forall t m, of_root t m -> (exists x l, parse (fun l => l) t = Ok x /\ ss x = Ok l) -> of_category t m).
      { intros t m H (x & l & Ep & Es). unfold of_root, flexion_root in H. rewrite Ep in H. cbn [bind] in H. rewrite Es in H. apply in_scripts_iff in H. apply in_map_iff in H. destruct H as (n & E & Hn). exists x, l, n. auto. }
      constructor; [|constructor; [|constructor]]; intros m Hm; (apply Cat; [|do 2 eexists; split; vm_compute; reflexivity]); cbn [In] in Hm;
        repeat (destruct Hm as [<-|Hm]; [vm_compute; reflexivity|]); destruct Hm.
  - split; [apply P22_built|]. split; [apply plain_by; vm_compute; reflexivity|]. split; [vm_compute; lia|]. split; [repeat constructor; vm_compute; intuition discriminate|].
    assert (G : groups (pm_content X4) = [([D_; text "e."], 1); ([C_; B_], 1)] \/ groups (pm_content X4) = [([text "e."; D_], 1); ([C_; B_], 1)]) by (vm_compute; auto).
    intros g Hg. destruct G as [G|G]; rewrite G in Hg; destruct Hg as [<-|[<-|[]]]; (split; [cbn; lia|]); repeat constructor; vm_compute; intuition discriminate.
Qed.
Lemma X5_rebuilt : rebuilt_lexeme X5.
Proof.
  split.
  - split; [exists [], []; repeat split; constructor|]. split; [apply plain_by; vm_compute; reflexivity|]. split; [vm_compute; lia|]. split; [intros g []|]. exists []. split; [constructor|]. split; [intros ? []|]. constructor.
  - split; [exists [B_], []; split; [good|split; [constructor|reflexivity]]|]. split; [apply plain_by; vm_compute; reflexivity|]. split; [vm_compute; lia|]. split; [repeat constructor; vm_compute; intuition discriminate|intros g []].
Qed.
Definition W33 : addressed := [([INITIATOR], Some X4); (["E:T:."], Some X5); ([INITIATOR; DEPENDANT_QUALITY], Some X4)].
Example C33_case : exists w, word_of W33 [INITIATOR] = Ok w /\ rebuildable (UWord w) /\ List.length (match iter_by_script (UWord w) with Ok l => l | Err _ => [] end) = 18 /\
  w_str w = "[E:T:. ()(b.) > ! E:.n.- (E:S:.-d.u.-' m1(E:U:U:. E:U:A:.))(wa. m1(e. a.) m1(i. b.)) > E:.n.- E:A:. (E:S:.-d.u.-' m1(E:U:U:. E:U:A:.))(wa. m1(e. a.) m1(i. b.))]".
Proof.
  destruct (word_of W33 [INITIATOR]) as [w|] eqn:E; [|exfalso; vm_compute in E; discriminate]. exists w. split; [reflexivity|].
  assert (A : map fst (as_list (w_context w) (w_fun w)) = [["E:T:."]; [INITIATOR]; [INITIATOR; DEPENDANT_QUALITY]] /\ map snd (as_list (w_context w) (w_fun w)) = [Some X5; Some X4; Some X4]).
  { assert (B : match word_of W33 [INITIATOR] with Ok w => as_list (w_context w) (w_fun w) | Err _ => [] end = [(["E:T:."], Some X5); ([INITIATOR], Some X4); ([INITIATOR; DEPENDANT_QUALITY], Some X4)]) by (vm_compute; reflexivity).
    rewrite E in B. rewrite B. split; reflexivity. }
  destruct A as [A1 A2]. split; [|split].
  - apply (rebuildable_word W33 [INITIATOR] w E); [rewrite A1; cbn; auto|]. intros e He. apply (in_map snd) in He. rewrite A2 in He. destruct He as [<-|[<-|[<-|[]]]]; eexists; (split; [reflexivity|]); auto using X4_rebuilt, X5_rebuilt.
  - assert (B : List.length (match (do w <- word_of W33 [INITIATOR]; iter_by_script (UWord w)) with Ok l => l | Err _ => [] end) = 18) by (vm_compute; reflexivity). rewrite E in B. exact B.
  - assert (B : match word_of W33 [INITIATOR] with Ok w => w_str w | Err _ => "" end = "[E:T:. ()(b.) > ! E:.n.- (E:S:.-d.u.-' m1(E:U:U:. E:U:A:.))(wa. m1(e. a.) m1(i. b.)) > E:.n.- E:A:. (E:S:.-d.u.-' m1(E:U:U:. E:U:A:.))(wa. m1(e. a.) m1(i. b.))]") by (vm_compute; reflexivity).
    rewrite E in B. exact B.
Qed.
(** A USL is not always rebuilt. *)
Definition rebuilt_text (u : usl) (r : res string) : Prop := exists items l, iter_by_script u = Ok items /\ items = map (fun e => (fst e, UScript (snd e))) l /\ (do u' <- usl_of_list ident l; Ok (usl_str u')) = r.
Lemma rebuilt_by u r items : iter_by_script u = Ok items -> forallb (fun e => match snd e with UScript _ => true | _ => false end) items = true ->
  (do u' <- usl_of_list ident (map (fun e => (fst e, match snd e with UScript s => s | _ => Null 0 end)) items); Ok (usl_str u')) = r -> rebuilt_text u r.
Proof.
  intros E F R. exists items. eexists. split; [exact E|]. split; [|exact R]. clear -F. induction items as [|[p x] l IH]; [reflexivity|]. cbn in *. apply andb_true_iff in F. destruct F as [F1 F2]. rewrite <- IH by auto. destruct x; try discriminate. reflexivity.
Qed.
Theorem C33_rebuild_refuted :
  (* a morpheme twice *)
  (exists u, built u /\ pm_str u = "wa. wa." /\ rebuilt_text (UPm u) (Ok "wa.")) /\
  (* multiplicities of two digits and zero *)
  (exists u, built u /\ pm_str u = "wa. m10(i. b.)" /\ rebuilt_text (UPm u) (Err CannotParse)) /\
  (exists u, built u /\ pm_str u = "wa. m0(i. b.)" /\ rebuilt_text (UPm u) (Ok "wa. m1(i. b.)")) /\
  (* a flexion that is not in the categories *)
  (exists l, built_lexeme l /\ check_lexeme l = Ok tt /\ lexeme_str l = "(wa.)(b.)" /\ rebuilt_text (ULexeme l) (Ok "()(b.)")) /\
  (* two constants of a category *)
  (exists l, built_lexeme l /\ check_lexeme l = Ok tt /\ lexeme_str l = "(E:S:.-d.u.-' E:B:.-d.u.-')(b.)" /\ rebuilt_text (ULexeme l) (Ok "(m1(E:S:.-d.u.-' E:B:.-d.u.-'))(b.)")) /\
  (* a focus on a junction *)
  (exists w, word_of W27 [INTERACTANT] = Ok w /\ rebuilt_text (UWord w) (Err ValueError)).
Proof.
  assert (B : forall cs gs, Forall regular cs -> good_groups gs -> built (mk_pm cs gs)) by (intros cs gs H G; exists cs, gs; auto).
  split; [exists (mk_pm [A_; A_] []); split; [apply B; good|]; split; [vm_compute; reflexivity|eapply rebuilt_by; [vm_compute; reflexivity|vm_compute; reflexivity|vm_compute; reflexivity]]|].
  split; [exists (mk_pm [A_] [([B_; C_], 10)]); split; [apply B; good; good|]; split; [vm_compute; reflexivity|eapply rebuilt_by; [vm_compute; reflexivity|vm_compute; reflexivity|vm_compute; reflexivity]]|].
  split; [exists (mk_pm [A_] [([B_; C_], 0)]); split; [apply B; good; good|]; split; [vm_compute; reflexivity|eapply rebuilt_by; [vm_compute; reflexivity|vm_compute; reflexivity|vm_compute; reflexivity]]|].
  split; [exists X1; split; [split; apply B; good|]; split; [vm_compute; reflexivity|]; split; [vm_compute; reflexivity|eapply rebuilt_by; [vm_compute; reflexivity|vm_compute; reflexivity|vm_compute; reflexivity]]|].
  split; [exists (lx (mk_pm [text "E:S:.-d.u.-'"; text "E:B:.-d.u.-'"] []) (mk_pm [B_] [])); split; [split; apply B; [constructor; [text_reg|constructor; [text_reg|constructor]]|constructor|good|good]|];
    split; [vm_compute; reflexivity|]; split; [vm_compute; reflexivity|eapply rebuilt_by; [vm_compute; reflexivity|vm_compute; reflexivity|vm_compute; reflexivity]]|].
  destruct (word_of W27 [INTERACTANT]) as [w|] eqn:E; [|exfalso; vm_compute in E; discriminate]. exists w. split; [reflexivity|]. vm_compute in E. injection E as <-. eapply rebuilt_by; [vm_compute; reflexivity|vm_compute; reflexivity|vm_compute; reflexivity].
Qed.
Print Assumptions C33_rebuild_refuted.
