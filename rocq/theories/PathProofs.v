(** Proofs about the parser of paths and the algebra of paths. *)
From Coq Require Import List String Ascii Bool NArith Arith Lia Permutation.
From Verif Require Import Base Script ScriptParser ScriptWf ScriptStrProofs ScriptOrderProofs Commons Usl Sfun OrderTheory UslProofs SfunWordProofs SfunSpec UslParser UslParserProofs UslRoundProofs Path PathLexProofs PathSpec.
From Verif Require Import ScriptSpec ScriptCtorProofs ScriptParseProofs.
Import ListNotations.
Local Open Scope string_scope.

(** ** Induction on paths *)
Lemma path_ind' (P : path -> Prop) :
  (forall p, child_of p = None -> P p) ->
  (forall p c, child_of p = Some c -> P c -> P p) -> forall p, P p.
Proof.
  intros H0 H1. fix IH 1. intros [[c|]|g m k [c|]|m [c|]|i [c|]|r f [c|]]; try (apply H0; reflexivity);
  (eapply H1; [reflexivity|apply IH]).
Qed.
Definition set_child (p : path) (c : option path) : path :=
  match p with PUsl _ => PUsl c | PPoly g m k _ => PPoly g m k c | PFlex m _ => PFlex m c | PLex i _ => PLex i c | PRole r f _ => PRole r f c end.
Lemma set_child_id p : set_child p (child_of p) = p. Proof. destruct p; reflexivity. Qed.

(** ** Tokens of a printed path *)
Lemma stops_sep r : stops (String ">" r). Proof. right. eexists. eexists. split; reflexivity. Qed.
Lemma stops_blank r : stops (String " " r). Proof. right. eexists. eexists. split; reflexivity. Qed.
Lemma stops_nil : stops "". Proof. now left. Qed.
#[export] Hint Resolve stops_sep stops_blank stops_nil : core.

Lemma plex_content r : plex 0 ("content" ++ r) = KLex Content :: plex 0 r.
Proof. apply plex_token; [discriminate|destruct r; reflexivity]. Qed.
Lemma plex_flexion r : plex 0 ("flexion" ++ r) = KLex Flexion :: plex 0 r.
Proof. apply plex_token; [discriminate|destruct r; reflexivity]. Qed.
Lemma plex_role r : plex 0 ("role" ++ r) = KRole :: plex 0 r.
Proof. apply plex_token; [discriminate|destruct r; reflexivity]. Qed.
Lemma plex_group g r : plex 0 (group_name g ++ r) = KPos (group_name g) :: plex 0 r.
Proof. destruct g; (apply plex_token; [discriminate|destruct r; reflexivity]). Qed.
Lemma plex_digit k r : k < 10 -> plex 0 (int_str k ++ r) = KMult k :: plex 0 r.
Proof. intros H. do 10 (destruct k as [|k]; [apply plex_token; [discriminate|destruct r; reflexivity]|]). lia. Qed.
Lemma plex_names r : vrole r -> forall s, stops s -> r <> [] -> plex 0 (role_str r ++ s) = (map KMorpheme r ++ plex 0 s)%list.
Proof.
  unfold role_str. induction 1 as [|t r H F IH]; intros s Hs N; [congruence|]. destruct (address_nf t H) as (x & Nx & Ex & _).
  destruct r as [|t' r].
  - cbn [join map app]. rewrite <- Ex. apply plex_script; [now apply nf_wf|auto].
  - change (join " " (t :: t' :: r)) with (t ++ String " " (join " " (t' :: r))). rewrite app_string_assoc. cbn [append]. rewrite <- Ex at 1.
    rewrite plex_script; [|now apply nf_wf|auto]. rewrite plex_blank, IH by (auto; discriminate). cbn [map app]. now rewrite Ex.
Qed.

Definition part_toks (g : gidx) (m : option script) (k : option nat) : list ptoken :=
  (KPos (group_name g) :: match g, k with Constant, _ | _, None => [] | _, Some k => [KMult k] end ++
   match m with Some m => [KSep; KMorpheme (str m)] | None => [] end)%list.
Definition digit_ok (g : gidx) (k : option nat) : Prop := match g with Constant => True | _ => exists n, k = Some n /\ n < 10 end.
Lemma plex_part g m k : opt_M nf m -> digit_ok g k -> plex 0 (path_str (PPoly g m k None)) = KSep :: part_toks g m k.
Proof.
  intros Hm Hk. cbn [path_str step_str]. cbn [append]. rewrite plex_sep. f_equal. rewrite app_string_nil, plex_group. unfold part_toks. f_equal.
  assert (X : plex 0 (match m with Some m => String ">" (str m) | None => "" end) = match m with Some m => [KSep; KMorpheme (str m)] | None => [] end).
  { destruct m as [m|]; [|reflexivity]. rewrite plex_sep. f_equal. rewrite <- (app_string_nil (str m)) at 1. rewrite plex_script; [reflexivity| |auto]. now apply nf_wf. }
  destruct g; [exact X| | |]; destruct Hk as (n & -> & Hn); cbn [append app]; rewrite plex_blank, plex_digit, X by auto; reflexivity.
Qed.
Lemma plex_flex m : nf m -> plex 0 (path_str (PFlex m None)) = [KSep; KMorpheme (str m)].
Proof.
  intros Hm. cbn [path_str step_str append]. rewrite plex_sep. f_equal. rewrite plex_script; [reflexivity|now apply nf_wf|auto].
Qed.
Definition lex_toks (p : path) : list ptoken :=
  match p with
  | PLex i None => [KLex i]
  | PLex i (Some (PPoly g m k _)) => KLex i :: KSep :: part_toks g m k
  | PLex i (Some (PFlex m _)) => [KLex i; KSep; KMorpheme (str m)]
  | _ => []
  end.
Lemma plex_lex p : lexeme_place nf p -> one_digit p -> plex 0 (path_str p) = KSep :: lex_toks p.
Proof.
  intros H D. destruct H as [i|p [g m k Hm]|m Hm].
  - destruct i; reflexivity.
  - change (path_str (PLex Content (Some (PPoly g m k None)))) with (String ">" ("content" ++ path_str (PPoly g m k None))).
    rewrite plex_sep, plex_content, plex_part; [reflexivity|auto|]. destruct g; exact D.
  - change (path_str (PLex Flexion (Some (PFlex m None)))) with (String ">" ("flexion" ++ path_str (PFlex m None))).
    rewrite plex_sep, plex_flexion, plex_flex by auto. reflexivity.
Qed.
Lemma path_str_stops p : stops (path_str p). Proof. destruct p as [[]|? ? ? []|? []|? []|? ? []]; apply stops_sep. Qed.
Definition opt_toks (c : option path) : list ptoken := match c with Some p => KSep :: lex_toks p | None => [] end.
Lemma plex_role_alone r f : r <> [] -> vrole r -> forall s, stops s ->
  plex 0 (path_str (PRole r f None) ++ s) = (KSep :: KRole :: KSep :: (if f then [KBang] else []) ++ map KMorpheme r ++ plex 0 s)%list.
Proof.
  intros N V s Hs. change (path_str (PRole r f None)) with (String ">" ("role" ++ String ">" (((if f then "! " else "") ++ role_str r) ++ ""))).
  rewrite app_string_nil. cbn [append]. rewrite plex_sep. f_equal.
  change (String "r" (String "o" (String "l" (String "e" (String ">" (((if f then "! " else "") ++ role_str r) ++ s)))))) with ("role" ++ String ">" (((if f then "! " else "") ++ role_str r) ++ s)).
  rewrite plex_role, plex_sep. f_equal. f_equal. rewrite app_string_assoc. destruct f; cbn [append app].
  - rewrite plex_bang, plex_blank. f_equal. now apply plex_names.
  - now apply plex_names.
Qed.
Lemma path_str_role r f p : path_str (PRole r f (Some p)) = path_str (PRole r f None) ++ path_str p.
Proof.
  cbn [path_str]. rewrite !app_string_nil. destruct (step_str (PRole r f (Some p))) eqn:E; cbn in E; [discriminate|]. rewrite <- E. cbn [step_str append]. now rewrite !app_string_assoc.
Qed.
Lemma plex_prole r f c : r <> [] -> vrole r -> match c with Some p => lexeme_place nf p /\ one_digit p | None => True end ->
  plex 0 (path_str (PRole r f c)) = (KSep :: KRole :: KSep :: (if f then [KBang] else []) ++ map KMorpheme r ++ opt_toks c)%list.
Proof.
  intros N V Hc. destruct c as [p|].
  - rewrite path_str_role, plex_role_alone by (auto; apply path_str_stops). destruct Hc as [L D]. rewrite plex_lex by auto. reflexivity.
  - rewrite <- (app_string_nil (path_str (PRole r f None))), plex_role_alone by auto. reflexivity.
Qed.

(** ** Parsing the tokens *)
Definition raw_pos_of (g : gidx) (m : option script) (k : option nat) : raw_part :=
  RwPos {| rp_pos := group_name g; rp_mult := match g with Constant => None | _ => k end; rp_morpheme := option_map str m |}.
Lemma q_part_ok g m k : q_part (part_toks g m k) = Some (raw_pos_of g m k, []).
Proof. destruct g, m, k; reflexivity. Qed.
Definition raw_lex_of (p : path) : Path.raw_lex :=
  match p with
  | PLex i (Some (PPoly g m k _)) => {| rl_index := i; rl_child := Some (raw_pos_of g m k) |}
  | PLex i (Some (PFlex m _)) => {| rl_index := i; rl_child := Some (RwMorpheme (str m)) |}
  | PLex i _ => {| rl_index := i; rl_child := None |}
  | _ => {| rl_index := Content; rl_child := None |}
  end.
Lemma q_lex_ok M p : lexeme_place M p -> q_lex (lex_toks p) = Some (raw_lex_of p, []).
Proof.
  intros [i|p' [g m k Hm]|m Hm]; [reflexivity| |reflexivity]. cbn [lex_toks q_lex]. rewrite q_part_ok. reflexivity.
Qed.
Lemma q_names_ok (r : list string) (w : list ptoken) : (forall s w', w <> KMorpheme s :: w' /\ w <> KName s :: w') -> q_names (map KMorpheme r ++ w) = (r, w).
Proof.
  intros H. induction r as [|t r IH]; [|cbn [map app q_names]; now rewrite IH]. cbn [map app].
  destruct w as [|[| |s|i|s|s|n|] w]; try reflexivity; destruct (H s w); congruence.
Qed.
Lemma q_role_ok (M : script -> Prop) (r : list string) (f : bool) (c : option path) : r <> [] -> match c with Some p => lexeme_place M p | None => True end ->
  q_role (KRole :: KSep :: (if f then [KBang] else []) ++ map KMorpheme r ++ opt_toks c)%list = Some (RwRole f r (option_map raw_lex_of c), []).
Proof.
  intros N Hc.
  assert (X : q_role (KRole :: KSep :: (if f then [KBang] else []) ++ map KMorpheme r ++ opt_toks c)%list =
    match q_names (map KMorpheme r ++ opt_toks c)%list with
    | ([], _) => None
    | (l, KSep :: r') => match q_lex r' with Some (c, r'') => Some (RwRole f l (Some c), r'') | None => None end
    | (l, r') => Some (RwRole f l None, r')
    end).
  { destruct f; [reflexivity|]. destruct r; [congruence|reflexivity]. }
  rewrite X, q_names_ok.
  - destruct r as [|t r]; [congruence|]. destruct c as [p|]; [|reflexivity]. cbn [opt_toks]. rewrite (q_lex_ok M) by auto. reflexivity.
  - intros s w'. destruct c; split; discriminate.
Qed.

Section Parse.
  Variable so : list script -> list script.
  Hypothesis SO : set_order so.

  Definition mult_of (g : gidx) (k : option nat) : option nat :=
    match g with Constant => Some 1 | _ => match k with Some k => Some k | None => Some 1 end end.
  Lemma v_opt_ok m : opt_M nf m -> exists m', v_opt so (option_map str m) = Ok m' /\ opt_M nf m' /\ option_map str m' = option_map str m.
  Proof.
    destruct m as [m|]; intros H; [|exists None; auto]. destruct (parse_str_nf so m SO H) as (r & E & N & S). exists (Some r).
    cbn. rewrite E. split; [reflexivity|]. split; [exact N|now rewrite S].
  Qed.
  Lemma v_pos_ok g m k : opt_M nf m -> exists m', v_part so (raw_pos_of g m k) = Ok (PPoly g m' (mult_of g k) None) /\ opt_M nf m' /\ option_map str m' = option_map str m.
  Proof.
    intros H. destruct (v_opt_ok m H) as (m' & E & N & S). exists m'. cbn [v_part raw_pos_of rp_pos rp_mult rp_morpheme].
    assert (G : group_index (group_name g) = Ok g) by (destruct g; reflexivity). rewrite G. cbn [bind]. rewrite E. cbn [bind]. split; [|auto].
    destruct g, k; reflexivity.
  Qed.
  (** Same path but for the texts of the morphemes and the multiplicity of a constant. *)
  Definition alike_part (p q : path) : Prop :=
    match p, q with
    | PPoly g m k None, PPoly g' m' k' None => g = g' /\ option_map str m = option_map str m' /\ opt_M nf m' /\ k' = mult_of g k
    | PFlex m None, PFlex m' None => str m = str m' /\ nf m'
    | _, _ => False
    end.
  Definition alike_lex (p q : path) : Prop :=
    match p, q with
    | PLex i None, PLex i' None => i = i'
    | PLex i (Some c), PLex i' (Some c') => i = i' /\ alike_part c c'
    | _, _ => False
    end.
  Definition alike (p q : path) : Prop :=
    match p, q with
    | PUsl None, PUsl None => True
    | PLex _ _, PLex _ _ => alike_lex p q
    | PRole r f None, PRole r' f' None => r = r' /\ f = f'
    | PRole r f (Some c), PRole r' f' (Some c') => r = r' /\ f = f' /\ alike_lex c c'
    | _, _ => alike_part p q
    end.
  Lemma v_lex_ok p : lexeme_place nf p -> exists q, v_lex so (raw_lex_of p) = Ok q /\ alike_lex p q /\ class_of q = ClLex.
  Proof.
    intros [i|p' [g m k Hm]|m Hm].
    - exists (PLex i None). repeat split.
    - destruct (v_pos_ok g m k Hm) as (m' & E & N & S). cbn [raw_lex_of v_lex rl_child rl_index]. rewrite E. cbn [bind]. eexists. split; [reflexivity|].
      split; [|reflexivity]. split; [reflexivity|]. split; [reflexivity|]. auto.
    - destruct (parse_str_nf so m SO Hm) as (r & E & N & S). cbn [raw_lex_of v_lex rl_child rl_index v_part]. rewrite E. cbn [bind]. eexists.
      split; [reflexivity|]. split; [|reflexivity]. split; [reflexivity|]. split; auto.
  Qed.
  Lemma address_not_name t : In t ADDRESS_SCRIPTS -> find (fun e => String.eqb t (fst e)) ROLE_NAMES_TO_SCRIPT = None.
  Proof.
    intros H. assert (A : forallb (fun t => match find (fun e => String.eqb t (fst e)) ROLE_NAMES_TO_SCRIPT with None => true | _ => false end) ADDRESS_SCRIPTS = true) by (vm_compute; reflexivity).
    rewrite forallb_forall in A. specialize (A t H). destruct (find _ _); [discriminate|reflexivity].
  Qed.
  Lemma v_names_ok r : vrole r -> mapM (v_name so) r = Ok r.
  Proof.
    induction 1 as [|t r H F IH]; [reflexivity|]. rewrite mapM_step. unfold v_name at 1. rewrite address_not_name by auto.
    destruct (address_nf t H) as (s & N & <- & _). destruct (parse_str_nf so s SO N) as (x & -> & _ & S). cbn [bind]. rewrite IH, S. reflexivity.
  Qed.
  Lemma mk_role_ok r : vrole r -> mk_role r = Ok r.
  Proof.
    intros H. unfold mk_role. assert (X : forallb (fun s => ins s ADDRESS_SCRIPTS) r = true).
    { apply forallb_forall. intros s Hs. unfold vrole in H. rewrite Forall_forall in H. unfold ins. apply existsb_exists. exists s. split; [auto|apply String.eqb_refl]. }
    now rewrite X.
  Qed.
  Lemma q_part_flex m : q_path [KSep; KMorpheme (str m)] = Some (RwPart (RwMorpheme (str m))). Proof. reflexivity. Qed.
  Lemma path_parse_alike p : proper nf p -> one_digit p -> exists q, path_parse so (path_str p) = Ok q /\ alike p q.
  Proof.
    intros H D. unfold path_parse. destruct H as [|p [g m k Hm]|m Hm|p L|r f N V|r f p N V L].
    - exists (PUsl None). split; reflexivity.
    - rewrite plex_part; [|auto|destruct g; exact D].
      assert (Q : q_path (KSep :: part_toks g m k) = Some (RwPart (raw_pos_of g m k))).
      { change (q_path (KSep :: part_toks g m k)) with (match q_part (part_toks g m k) with Some (p, []) => Some (RwPart p) | _ => None end). now rewrite q_part_ok. }
      rewrite Q. cbn [v_path]. destruct (v_pos_ok g m k Hm) as (m' & -> & Nm & S). eexists. split; [reflexivity|]. split; [reflexivity|]. auto.
    - rewrite plex_flex, q_part_flex by auto. cbn [v_path v_part]. destruct (parse_str_nf so m SO Hm) as (r & -> & Nm & S). eexists. split; [reflexivity|]. split; auto.
    - rewrite plex_lex by auto.
      assert (Q : q_path (KSep :: lex_toks p) = Some (RwLex (raw_lex_of p))).
      { assert (X : q_path (KSep :: lex_toks p) = match q_lex (lex_toks p) with Some (p, []) => Some (RwLex p) | _ => None end) by (destruct L as [i|p' [g m k Hm]|m Hm]; reflexivity).
        rewrite X, (q_lex_ok nf) by auto. reflexivity. }
      rewrite Q. cbn [v_path]. destruct (v_lex_ok p L) as (q & -> & A & C). exists q. split; [reflexivity|]. destruct L; destruct q; try discriminate; exact A.
    - rewrite plex_prole by auto. 
      assert (Q : q_path (KSep :: KRole :: KSep :: (if f then [KBang] else []) ++ map KMorpheme r ++ opt_toks None)%list = Some (RwRole f r None)).
      { match goal with |- q_path (KSep :: ?w) = _ => change (q_path (KSep :: w)) with (match q_role w with Some (p, []) => Some p | _ => None end) end.
        rewrite (q_role_ok nf) by auto. reflexivity. }
      rewrite Q. cbn [v_path]. rewrite v_names_ok by auto. cbn [bind]. rewrite mk_role_ok by auto. cbn [bind]. eexists. split; [reflexivity|]. split; auto.
    - rewrite plex_prole by (auto; split; auto; destruct L as [|p' [g m k Hm]|]; exact D).
      assert (Q : q_path (KSep :: KRole :: KSep :: (if f then [KBang] else []) ++ map KMorpheme r ++ opt_toks (Some p))%list = Some (RwRole f r (Some (raw_lex_of p)))).
      { match goal with |- q_path (KSep :: ?w) = _ => change (q_path (KSep :: w)) with (match q_role w with Some (p, []) => Some p | _ => None end) end.
        rewrite (q_role_ok nf) by auto. reflexivity. }
      rewrite Q. cbn [v_path]. rewrite v_names_ok by auto. cbn [bind]. rewrite mk_role_ok by auto. cbn [bind].
      destruct (v_lex_ok p L) as (q & -> & A & C). cbn [bind]. exists (PRole r f (Some q)). split.
      + unfold mk_prole. cbn [option_map]. rewrite C. reflexivity.
      + split; [reflexivity|]. split; [reflexivity|exact A].
  Qed.
End Parse.
Lemma alike_part_str p q : alike_part p q -> one_digit p -> path_str q = path_str p.
Proof.
  destruct p as [|g m k [|]|m [|]| |], q as [|g' m' k' [|]|m' [|]| |]; try contradiction.
  - intros (<- & S & _ & ->) D. cbn [path_str step_str]. cbn [one_digit tail] in D.
    assert (X : match m' with Some m => ">" ++ str m | None => "" end = match m with Some m => ">" ++ str m | None => "" end) by (destruct m, m'; cbn in S |- *; congruence).
    rewrite X. destruct g; [reflexivity| | |]; destruct D as (n & -> & _); reflexivity.
  - intros [S _] _. cbn [path_str step_str]. now rewrite S.
Qed.
Lemma alike_lex_str p q : alike_lex p q -> one_digit p -> path_str q = path_str p.
Proof.
  destruct p as [| | |i [c|]|], q as [| | |i' [c'|]|]; try contradiction.
  - intros [<- A] D. cbn [path_str step_str]. rewrite (alike_part_str c c' A); [reflexivity|]. unfold one_digit in *. exact D.
  - intros <- _. reflexivity.
Qed.
Lemma alike_str p q : alike p q -> one_digit p -> path_str q = path_str p.
Proof.
  intros A D. destruct p as [[c|]|g m k c|m c|i c|r f [c|]]; try (apply alike_part_str; [destruct q; exact A|exact D]).
  - destruct q as [[|]| | | |]; try contradiction. reflexivity.
  - destruct q; try contradiction; now apply alike_lex_str.
  - destruct q as [| | | |r' f' [c'|]]; try contradiction. destruct A as (<- & <- & A). cbn [path_str step_str]. rewrite (alike_lex_str c c' A); [reflexivity|]. exact D.
  - destruct q as [| | | |r' f' [c'|]]; try contradiction. destruct A as [<- <-]. reflexivity.
Qed.
