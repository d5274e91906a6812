(** Properties of roles, syntagmatic functions and words: C26, C27, C28, C29. *)
From Coq Require Import List String Bool NArith Arith Lia Sorted Permutation.
From Verif Require Import Base Script ScriptParser SortProofs ScriptWf ScriptSpec Commons Usl UslSpec OrderTheory UslProofs UslSsProofs Properties1 Properties8
  Sfun SfunProofs SfunListProofs SfunWordProofs SfunSpec.
Import ListNotations.
Local Open Scope string_scope.

(** The strings of Sfun.v for addresses are those of scripts of the same text. *)
Lemma address_texts : forallb (fun t => String.eqb (str (text t)) t) ADDRESS_SCRIPTS = true.
Proof. vm_compute. reflexivity. Qed.

(** * C26 *)
Theorem C26_strict_total_order :
  (forall a, valid_role a -> role_lt a a = false) /\
  (forall a b c, valid_role a -> valid_role b -> valid_role c -> role_lt a b = true -> role_lt b c = true -> role_lt a c = true) /\
  (forall a b, valid_role a -> valid_role b ->
     (role_lt a b = true /\ role_eqb a b = false /\ role_lt b a = false) \/
     (role_lt a b = false /\ role_eqb a b = true /\ role_lt b a = false /\ a = b) \/
     (role_lt a b = false /\ role_eqb a b = false /\ role_lt b a = true)).
Proof.
  destruct order_role as [O1 O2 O3 O4]. split; [|split].
  - intros a Ha. now apply O2.
  - intros a b c Ha Hb Hc H1 H2. apply (O3 a b c); auto.
  - intros a b Ha Hb. assert (A : forall x y, vrole x -> vrole y -> role_lt x y = true -> role_lt y x = false).
    { intros x y Hx Hy H. destruct (role_lt y x) eqn:E; auto. rewrite <- (O2 x x); auto. symmetry. apply (O3 x y x); auto. }
    destruct (role_eqb a b) eqn:E.
    + pose proof E as E'. apply O1 in E'; auto. right. left. rewrite !O2 by auto. auto.
    + assert (N : a <> b) by (intros N; apply O1 in N; auto; congruence). destruct (O4 a b Ha Hb N) as [H|H]; [left|right; right]; rewrite ?H, ?(A _ _ _ _ H); auto.
Qed.
Print Assumptions C26_strict_total_order.

Theorem C26_prefix_first : forall rs l1 l2 a b, Forall valid_role rs -> extends a b ->
  Permutation (sort role_lt rs) rs /\
  (sort role_lt rs = (l1 ++ l2)%list -> In b l1 -> In a l2 -> False).
Proof.
  intros rs l1 l2 a b F (x & r & ->). split; [apply sort_perm|]. intros E Hb Ha. pose proof (o_sorted order_role rs F) as S. rewrite E in S.
  pose proof (role_lt_prefix a x r) as L. clear E F. induction l1 as [|y l1 IH]; [destruct Hb|]. cbn in S. apply StronglySorted_inv in S. destruct S as [S F].
  destruct Hb as [->|Hb]; [|auto]. rewrite Forall_forall in F. specialize (F a ltac:(apply in_app_iff; auto)). cbn in F. congruence.
Qed.
Print Assumptions C26_prefix_first.
Example C26_case : valid_role [INITIATOR; DEPENDANT_QUALITY] /\ extends [INITIATOR] [INITIATOR; DEPENDANT_QUALITY] /\
  sort role_lt [[INITIATOR; DEPENDANT_QUALITY]; [INTERACTANT]; [INITIATOR]; ["E:S:."]; [INITIATOR; INDEPENDANT_QUALITY]] =
  [["E:S:."]; [INITIATOR]; [INITIATOR; DEPENDANT_QUALITY]; [INITIATOR; INDEPENDANT_QUALITY]; [INTERACTANT]].
Proof. split; [|split]; [|exists DEPENDANT_QUALITY, []; reflexivity|vm_compute; reflexivity]. repeat constructor; cbn; tauto. Qed.

(** * C27 *)
Theorem C27_round_trip : forall (l : addressed) c f, from_list l = Ok (c, f) -> from_list (as_list c f) = Ok (c, f).
Proof. intros l c f H. apply from_list_inv in H. apply from_list_exact. tauto. Qed.
Print Assumptions C27_round_trip.

(** The function has the lexemes of the list, each as often as there. *)
Theorem C27_no_lexeme_lost : forall (l : addressed) c f, from_list l = Ok (c, f) -> Permutation (present (as_list c f)) (present l).
Proof.
  intros l c f H. apply from_list_inv in H. destruct H as [_ H]. revert H. unfold lexemes.
  enough (E : forall m : addressed, List.concat (map (fun e => osome lexeme (snd e)) m) = present m) by now rewrite !E.
  intros m. unfold present. rewrite flat_map_concat_map. reflexivity.
Qed.
Print Assumptions C27_no_lexeme_lost.

(** Any order of the list of a function gives an equal function (equality compares the
    sorted pairs of a role and a lexeme). Missing: lists with an address that is not in
    as_list, for which the order matters, see below. *)
Theorem C27_order_partial : forall (l : addressed) c f l', from_list l = Ok (c, f) -> Permutation l' (as_list c f) ->
  exists f', from_list l' = Ok (c, f') /\ pairs f' = pairs f /\ Permutation (as_list c f') (as_list c f).
Proof.
  intros l c f l' H P. apply from_list_inv in H. destruct H as [V _]. destruct (from_list_perm _ c f l' V P) as (f' & E & S). exists f'. split; auto. split.
  - eapply same_actants_pairs; eauto.
  - destruct S as [->|(x & v & acts & acts' & -> & -> & Q)]; [reflexivity|]. rewrite !as_list_lst. unfold pre. apply Permutation_map.
    rewrite !lst_proc. apply perm_skip. clear -Q. induction Q; cbn; auto.
    + now apply Permutation_app_head.
    + rewrite !app_assoc. apply Permutation_app_tail, Permutation_app_comm.
    + eapply Permutation_trans; eauto.
Qed.
Print Assumptions C27_order_partial.

Definition lx (p q : pm) : lexeme := {| pm_flexion := p; pm_content := q |}.
Definition X1 := lx (mk_pm [A_] []) (mk_pm [B_] []).
Definition X2 := lx (mk_pm [A_] []) (mk_pm [C_] []).
Definition X3 := L24.
Definition AND_ := nth 15 JUNCTION_SCRIPTS "". Definition I0 := nth 0 JUNCTION_INDEX "". Definition I1 := nth 1 JUNCTION_INDEX "". Definition I2 := nth 2 JUNCTION_INDEX "".
Definition W27 : addressed :=
  [([INTERACTANT; AND_; I1], Some X2); (["E:T:."], Some X1); ([INTERACTANT; AND_; I0; INDEPENDANT_QUALITY], Some X1);
   ([INITIATOR], Some X3); ([INTERACTANT; AND_; I0], Some X3); ([INITIATOR; DEPENDANT_QUALITY], Some X2)].
Definition F27 := Proc (Some X1) "E:T:." [(INTERACTANT, Jun AND_ [Dep (Some X3) None (Some (Indep (Some X1))); Dep (Some X2) None None]);
                                          (INITIATOR, Dep (Some X3) (Some (Dep (Some X2) None None)) None)].
Example C27_case : from_list W27 = Ok (CProcess, F27) /\ Permutation W27 (as_list CProcess F27).
Proof.
  split; [vm_compute; reflexivity|]. unfold W27. cbv [as_list F27 actors under context_prefix map filter is_jun negb actor_of fst snd app].
  change (nth 0 JUNCTION_INDEX "") with I0. change (nth 1 JUNCTION_INDEX "") with I1.
  eapply perm_trans; [apply perm_swap|]. apply perm_skip.
  change (Permutation ([([INTERACTANT; AND_; I1], Some X2); ([INTERACTANT; AND_; I0; INDEPENDANT_QUALITY], Some X1); ([INITIATOR], Some X3)] ++
    ([INTERACTANT; AND_; I0], Some X3) :: [([INITIATOR; DEPENDANT_QUALITY], Some X2)])
    ([] ++ ([INTERACTANT; AND_; I0], Some X3) :: [([INTERACTANT; AND_; I0; INDEPENDANT_QUALITY], Some X1); ([INTERACTANT; AND_; I1], Some X2); ([INITIATOR], Some X3); ([INITIATOR; DEPENDANT_QUALITY], Some X2)])).
  apply Permutation_elt. apply perm_swap.
Qed.

(** A list accepted in one order, and refused in another. *)
Theorem C27_order_refuted : exists (l l' : addressed) r, Permutation l l' /\ (forall e, In e l -> valid_role (fst e)) /\ from_list l = Ok r /\ from_list l' = Err ValueError.
Proof.
  exists [([DEPENDANT_QUALITY; INDEPENDANT_QUALITY; I0], Some X1); ([DEPENDANT_QUALITY; AND_; I1], Some X2)],
         [([DEPENDANT_QUALITY; AND_; I1], Some X2); ([DEPENDANT_QUALITY; INDEPENDANT_QUALITY; I0], Some X1)], (CDependant, Jun AND_ [Dep (Some X1) None None; Dep (Some X2) None None]).
  split; [apply perm_swap|]. split; [|split; vm_compute; reflexivity].
  intros e [<-|[<-|[]]]; (constructor; [|constructor; [|constructor; [|constructor]]]); apply ins_In; vm_compute; reflexivity.
Qed.
Print Assumptions C27_order_refuted.

(** * C28 *)
Lemma mapM_cons {A B} (f : A -> res B) x l : mapM f (x :: l) = do y <- f x; do ys <- mapM f l; Ok (y :: ys).
Proof. reflexivity. Qed.
Lemma mapM_choices so (l : addressed) : Forall (fun e => snd e <> None) l ->
  exists xs, mapM (fun e => match snd e with Some x => Ok (lexeme_ss so x) | None => Err AttributeError end) l = Ok xs /\
    Forall2 (fun e ys => exists y, snd e = Some y /\ ys = lexeme_ss so y) l xs.
Proof.
  induction 1 as [|[r [x|]] l Hx F IH]; [exists []; auto| |now elim Hx]. destruct IH as (xs & E & F2). exists (lexeme_ss so x :: xs). split.
  - rewrite mapM_cons. cbn [snd bind]. rewrite E. reflexivity.
  - constructor; auto. exists x. auto.
Qed.
Lemma product_number so (l : addressed) xs : Forall2 (fun e ys => exists y, snd e = Some y /\ ys = lexeme_ss so y) l xs -> List.length (product xs) = number so l.
Proof.
  unfold number. induction 1 as [|[r o] ys l xs (y & E & ->) F IH]; [reflexivity|]. cbn [snd] in E. subst o. cbn [product map fold_right snd]. rewrite <- IH. clear.
  induction (lexeme_ss so y) as [|z zs IH]; [reflexivity|]. cbn [flat_map List.length]. rewrite app_length, map_length, IH. lia.
Qed.
Lemma product_choice so (l : addressed) xs : Forall2 (fun e ys => exists y, snd e = Some y /\ ys = lexeme_ss so y) l xs ->
  forall c, In c (product xs) <-> choice so l c.
Proof.
  intros F c. rewrite product_spec. unfold choice. revert c. induction F as [|[r o] ys l xs (y & E & ->) F IH]; intros c.
  - split; intros H; inversion H; constructor.
  - cbn [snd] in E. subst o. split; intros H; inversion H; subst.
    + constructor; [exists y; auto|]. now apply IH.
    + destruct H2 as (y' & [= <-] & Hy). constructor; auto. now apply IH.
Qed.
Lemma choice_length so l xs : choice so l xs -> List.length xs = List.length l.
Proof. induction 1; cbn; auto. Qed.
Lemma refilled_keys (l : addressed) xs : List.length xs = List.length l -> map fst (refilled l xs) = map fst l.
Proof. unfold refilled. revert xs. induction l as [|e l IH]; intros [|x xs] E; try discriminate; [reflexivity|]. cbn. f_equal. apply IH. injection E. auto. Qed.
Lemma word_of_inv l r w : word_of l r = Ok w -> exists c f, from_list l = Ok (c, f) /\ mk_word f r c = Ok w.
Proof.
  unfold word_of. destruct r as [|a r]; [discriminate|]. destruct (from_list l) as [[c f]|]; [|discriminate]. cbn [bind]. unfold mk_role. destruct (forallb _ _); [|discriminate]. cbn [bind fst snd]. eauto.
Qed.

(** The word has one singular sequence per choice, with the same roles, focus and context;
    missing: the words with a single choice, see below. *)
Theorem C28_product_partial : forall so (l0 : addressed) r w l,
  word_of l0 r = Ok w -> l = as_list (w_context w) (w_fun w) -> (forall e, In e l -> snd e <> None) -> number so l <> 1 ->
  exists ws, word_ss so w = Ok ws /\ List.length ws = number so l /\
    (forall w', In w' ws -> w_role w' = w_role w /\ w_context w' = w_context w /\ exists xs, choice so l xs /\ as_list (w_context w) (w_fun w') = refilled l xs) /\
    (forall xs, choice so l xs -> exists w', In w' ws /\ as_list (w_context w) (w_fun w') = refilled l xs).
Proof.
  intros so l0 r w l Hw -> Hl Nb. apply word_of_inv in Hw. destruct Hw as (c & f & Hf & Hw). destruct (mk_word_fields _ _ _ _ Hw) as (<- & <- & <-). apply from_list_inv in Hf. destruct Hf as [V _].
  set (l := as_list (w_context w) (w_fun w)) in *. destruct (mapM_choices so l) as (xs & E & F); [now apply Forall_forall|].
  pose proof (product_number so l xs F) as Np. pose proof (product_choice so l xs F) as Sp. unfold word_ss, sfun_ss. fold l. rewrite E. cbn [bind].
  assert (G : forall ys, choice so l ys -> exists f', from_list (combine (map fst l) (map Some ys)) = Ok (w_context w, f') /\ as_list (w_context w) f' = refilled l ys /\ skel f' = skel (w_fun w)).
  { intros ys Hy. destruct (refill_c _ (w_context w) (w_fun w) V (refilled l ys)) as (f' & V' & Ef & Es); [now apply refilled_keys, (choice_length so)|].
    exists f'. split; auto. fold (refilled l ys). rewrite <- Ef. now apply from_list_exact. }
  assert (G1 : exists fs, mapM (fun ys => do r <- from_list (combine (map fst l) (map Some ys)); Ok (snd r)) (product xs) = Ok fs /\
     Forall2 (fun ys f' => as_list (w_context w) f' = refilled l ys /\ skel f' = skel (w_fun w)) (product xs) fs).
  { assert (K : Forall (choice so l) (product xs)) by (apply Forall_forall; intros; now apply Sp). clear -K G.
    induction K as [|ys yss Hy K IH]; [exists []; cbn; auto|]. destruct IH as (fs & Ef & F). destruct (G ys Hy) as (f' & E1 & E2). exists (f' :: fs). split; [|constructor; auto].
    rewrite mapM_cons. rewrite E1. cbn [bind snd]. rewrite Ef. reflexivity. }
  destruct G1 as (fs & -> & Ff). cbn [bind].
  assert (Lf : List.length fs = number so l) by (rewrite <- Np; clear -Ff; induction Ff; cbn; auto).
  assert (M : forall A (a b : A), match fs with [_] => a | _ => b end = b) by (intros; destruct fs as [|? [|]]; auto; elim Nb; rewrite <- Lf; reflexivity). rewrite M. clear M.
  assert (G2 : exists ws, mapM (fun f => mk_word f (w_role w) (w_context w)) fs = Ok ws /\ Forall2 (fun f' w' => w_fun w' = f' /\ w_role w' = w_role w /\ w_context w' = w_context w) fs ws).
  { assert (K : Forall (fun f' => skel f' = skel (w_fun w)) fs) by (clear -Ff; induction Ff as [|? ? ? ? [? ?]]; constructor; auto). clear -K Hw.
    induction K as [|f' fs Hs K IH]; [exists []; cbn; auto|]. destruct IH as (ws & Ew & F). destruct (mk_word_skel _ f' _ _ _ Hw Hs) as (w' & E & P). exists (w' :: ws). split; [|constructor; auto].
    rewrite mapM_cons. rewrite E. cbn [bind]. rewrite Ew. reflexivity. }
  destruct G2 as (ws & -> & Fw). exists ws. split; [reflexivity|]. split; [|split].
  - rewrite <- Lf. clear -Fw. induction Fw; cbn; auto.
  - intros w' Hw'. destruct (Forall2_in_l _ _ _ (proj1 (Forall2_flip _ _ _) Fw) w' Hw') as (f' & Hf' & <- & -> & ->). split; auto. split; auto.
    destruct (Forall2_in_l _ _ _ (proj1 (Forall2_flip _ _ _) Ff) _ Hf') as (ys & Hy & Ey & _). exists ys. split; auto. now apply Sp.
  - intros ys Hy. apply Sp in Hy. destruct (Forall2_in_l _ _ _ Ff ys Hy) as (f' & Hf' & Ey & _). destruct (Forall2_in_l _ _ _ Fw f' Hf') as (w' & Hw' & E' & _). exists w'. split; auto. now rewrite E'.
Qed.
Print Assumptions C28_product_partial.

(** With a single choice the word itself is its only singular sequence. *)
Theorem C28_singular : forall so (l0 : addressed) r w l,
  word_of l0 r = Ok w -> l = as_list (w_context w) (w_fun w) -> (forall e, In e l -> snd e <> None) -> number so l = 1 -> word_ss so w = Ok [w].
Proof.
  intros so l0 r w l Hw -> Hl Nb. apply word_of_inv in Hw. destruct Hw as (c & f & Hf & Hw). destruct (mk_word_fields _ _ _ _ Hw) as (<- & <- & <-). apply from_list_inv in Hf. destruct Hf as [V _].
  set (l := as_list (w_context w) (w_fun w)) in *. destruct (mapM_choices so l) as (xs & E & F); [now apply Forall_forall|].
  pose proof (product_number so l xs F) as Np. pose proof (product_choice so l xs F) as Sp. unfold word_ss, sfun_ss. fold l. rewrite E. cbn [bind].
  rewrite Nb in Np. destruct (product xs) as [|ys [|]]; try discriminate. assert (Hy : choice so l ys) by (apply Sp; now left).
  destruct (refill_c _ (w_context w) (w_fun w) V (refilled l ys)) as (f' & V' & Ef & Es); [now apply refilled_keys, (choice_length so)|].
  cbn [mapM]. fold (refilled l ys). rewrite <- Ef. rewrite from_list_exact by auto. reflexivity.
Qed.
Print Assumptions C28_singular.

Definition R28 := [INITIATOR].
Example C28_case : exists w, word_of W27 R28 = Ok w /\ number ident (as_list (w_context w) (w_fun w)) = 81 /\
  (forall e, In e (as_list (w_context w) (w_fun w)) -> snd e <> None) /\
  (exists ws, word_ss ident w = Ok ws /\ List.length ws = 81) /\
  w_str w = "[E:T:. (wa.)(b.) > ! E:.n.- (wa.)(wa. m1(e. a.) m1(i. b.)) > E:.n.- E:A:. (wa.)(i.) > E:.d.- E:.-u.-k.u.-' j.-U:.-'d.o.-l.o.-', (wa.)(wa. m1(e. a.) m1(i. b.)) > E:.d.- E:.-u.-k.u.-' j.-U:.-'d.o.-l.o.-', E:U:. (wa.)(b.) > E:.d.- E:.-u.-k.u.-' j.-A:.-'d.o.-l.o.-', (wa.)(i.)]".
Proof.
  destruct (word_of W27 R28) as [w|e] eqn:E; [|vm_compute in E; discriminate]. exists w. split; [reflexivity|].
  assert (K : w_fun w = F27 /\ w_context w = CProcess).
  { apply word_of_inv in E. destruct E as (c & f & Ef & Ew). rewrite (proj1 C27_case) in Ef. injection Ef as <- <-. destruct (mk_word_fields _ _ _ _ Ew) as (-> & _ & ->). auto. }
  destruct K as [Kf Kc]. assert (N : number ident (as_list CProcess F27) = 81) by (vm_compute; reflexivity).
  assert (S : forall e, In e (as_list CProcess F27) -> snd e <> None).
  { assert (B : forallb (fun e => match snd e with Some _ => true | None => false end) (as_list CProcess F27) = true) by (vm_compute; reflexivity).
    rewrite forallb_forall in B. intros e H. specialize (B e H). destruct (snd e); [discriminate|discriminate B]. }
  rewrite Kf, Kc. split; auto. split; auto. split.
  - destruct (C28_product_partial ident W27 R28 w _ E eq_refl) as (ws & Ew & L & _); rewrite ?Kf, ?Kc in *; auto; [rewrite N; discriminate|]. exists ws. split; [auto|]. rewrite <- N; auto.
  - vm_compute in E. injection E as <-. vm_compute. reflexivity.
Qed.

(** The word with the single choice below has itself as singular sequence, although its
    lexeme is not one of the singular sequences of its parts. *)
Theorem C28_product_refuted : exists (l0 : addressed) r w x p, word_of l0 r = Ok w /\ check_lexeme x = Ok tt /\ as_list (w_context w) (w_fun w) = [([DEPENDANT_QUALITY], Some x)] /\
  pm_ss ident (pm_content x) = [p] /\ word_ss ident w = Ok [w] /\ pm_str p <> pm_str (pm_content x).
Proof.
  set (x := {| pm_flexion := mk_pm [A_] []; pm_content := mk_pm [A_; B_; C_; D_; text "e."] [([text "u."], 1)] |}).
  destruct (word_of [([DEPENDANT_QUALITY], Some x)] [DEPENDANT_QUALITY]) as [w|] eqn:E; [|vm_compute in E; discriminate].
  exists [([DEPENDANT_QUALITY], Some x)], [DEPENDANT_QUALITY], w, x, (hd (mk_pm [] []) (pm_ss ident (pm_content x))). split; auto. split; [vm_compute; reflexivity|].
  assert (K : as_list (w_context w) (w_fun w) = [([DEPENDANT_QUALITY], Some x)]).
  { apply word_of_inv in E. destruct E as (c & f & Ef & Ew). destruct (mk_word_fields _ _ _ _ Ew) as (-> & _ & ->). vm_compute in Ef. injection Ef as <- <-. vm_compute. reflexivity. }
  split; auto. split; [vm_compute; reflexivity|]. split; [|vm_compute; discriminate].
  apply (C28_singular ident _ _ w _ E eq_refl); rewrite K; [intros e [<-|[]]; discriminate|vm_compute; reflexivity].
Qed.
Print Assumptions C28_product_refuted.

(** A word is accepted although a role above one of its roles has no lexeme; it has no
    singular sequences: the call raises AttributeError. *)
Theorem C28_missing_lexeme_refuted : exists (l0 : addressed) r w, word_of l0 r = Ok w /\ word_ss ident w = Err AttributeError /\ w_str w = "[! E:A:.  None > E:A:. E:U:. (wa.)(b.)]".
Proof.
  exists [([DEPENDANT_QUALITY; INDEPENDANT_QUALITY], Some X1)], [DEPENDANT_QUALITY].
  destruct (word_of [([DEPENDANT_QUALITY; INDEPENDANT_QUALITY], Some X1)] [DEPENDANT_QUALITY]) as [w|] eqn:E; [|vm_compute in E; discriminate].
  exists w. split; auto. vm_compute in E. injection E as <-. vm_compute. auto.
Qed.
Print Assumptions C28_missing_lexeme_refuted.

(** * C29 *)
(** from_list always answers; its only exceptions are ValueError and IndexError. *)
Theorem C29_only_value_or_index_error : forall (l : addressed) e, from_list l = Err e -> e = ValueError \/ e = IndexError.
Proof. intros l e. apply from_list_err. Qed.
Print Assumptions C29_only_value_or_index_error.

(** Only ValueError for the lists without junction, empty address or repeated independant
    quality. Missing: the other lists, for which IndexError is possible, see below. *)
Theorem C29_value_error_partial : forall (l : addressed) e, without_junction l -> without_clash l -> (forall a, In a l -> fst a <> []) ->
  from_list l = Err e -> e = ValueError.
Proof. intros l e H1 H2 H3. apply from_list_err_free; auto. Qed.
Print Assumptions C29_value_error_partial.
Definition W29 : addressed := [([INITIATOR], Some X1); (["E:T:."], Some X2); ([INITIATOR; DEPENDANT_QUALITY; INITIATOR], Some X1)].
Example C29_case : without_junction W29 /\ without_clash W29 /\ (forall a, In a W29 -> fst a <> []) /\ from_list W29 = Err ValueError.
Proof.
  assert (J : forall e s, In e W29 -> In s (fst e) -> ins s JUNCTION_SCRIPTS = false).
  { intros e s He Hs. unfold W29 in He. cbn [In] in He. decompose [or] He; try contradiction; subst e; cbn [fst In] in Hs; decompose [or] Hs; try contradiction; subst s; vm_compute; reflexivity. }
  split; [|split; [|split]].
  - intros e s He Hs Hj. apply ins_In in Hj. rewrite (J e s He Hs) in Hj. discriminate.
  - assert (N : forall a b, In INDEPENDANT_QUALITY a \/ ~ clash a b) by (intros a b; destruct (in_dec string_dec INDEPENDANT_QUALITY a); auto; right; intros (p & q & -> & _); apply n, in_app_iff; right; now left).
    assert (P : forall r, In r (map fst W29) -> ~ In INDEPENDANT_QUALITY r).
    { intros r Hr Hi. unfold W29 in Hr. cbn [map fst In] in Hr. decompose [or] Hr; try contradiction; subst r; cbn [In] in Hi; decompose [or] Hi; try discriminate; contradiction. }
    assert (Q : forall a b, In a (map fst W29) -> ~ clash a b) by (intros a b Ha; destruct (N a b); auto; now elim (P a Ha)).
    repeat constructor; apply Q; cbn; auto.
  - intros a Ha. unfold W29 in Ha. cbn [In] in Ha. decompose [or] Ha; try contradiction; subst a; discriminate.
  - vm_compute. reflexivity.
Qed.

(** IndexError: the second of two parts of a junction has the third index; or an address is
    empty; or an independant quality is given twice. *)
Theorem C29_index_error_refuted : exists l1 l2 l3 : addressed,
  from_list l1 = Err IndexError /\ from_list l2 = Err IndexError /\ from_list l3 = Err IndexError /\
  Forall (fun l : addressed => forall e, In e l -> valid_role (fst e)) [l1; l2; l3].
Proof.
  exists [([DEPENDANT_QUALITY; AND_; I0], Some X1); ([DEPENDANT_QUALITY; AND_; I2], Some X2)], [([], Some X1)],
    [([INDEPENDANT_QUALITY], Some X1); ([INDEPENDANT_QUALITY], Some X2)].
  split; [vm_compute; reflexivity|]. split; [vm_compute; reflexivity|]. split; [vm_compute; reflexivity|].
  repeat apply Forall_cons; [| | |constructor]; intros e He; cbn [In] in He; decompose [or] He; try contradiction; subst e; apply Forall_forall; intros s Hs; cbn [fst In] in Hs;
    decompose [or] Hs; try contradiction; subst s; apply ins_In; vm_compute; reflexivity.
Qed.
Print Assumptions C29_index_error_refuted.

(** A word is accepted when its focus is one of the roles of the function. *)
Theorem C29_focus_accepted : forall (l : addressed) c f r, from_list l = Ok (c, f) -> r <> [] -> In r (map fst (as_list c f)) ->
  exists w, word_of l r = Ok w /\ w_fun w = f /\ w_context w = c /\ w_role w = r.
Proof.
  intros l c f r Hf Nr Hr. unfold word_of. destruct r as [|a r']; [now elim Nr|]. set (r := a :: r') in *. rewrite Hf. cbn [bind fst snd]. apply from_list_inv in Hf. destruct Hf as [V _].
  unfold as_list in Hr. rewrite map_map in Hr. cbn [fst] in Hr. apply in_map_iff in Hr. destruct Hr as ([q g] & E & Hg). cbn [fst] in E. apply filter_In in Hg. destruct Hg as [Hg _].
  assert (Vr : valid_role r). { rewrite <- E. apply Forall_app. split; [|eapply actors_roles; eauto]. destruct c; cbn; repeat constructor; apply ins_In; vm_compute; reflexivity. }
  unfold mk_role. replace (forallb _ r) with true; [|symmetry; apply forallb_forall; intros s Hs; apply ins_In; unfold valid_role in Vr; rewrite Forall_forall in Vr; auto]. cbn [bind].
  destruct (mk_word_ok c f q g V Hg) as (w & Hw). rewrite E in Hw. exists w. split; auto. destruct (mk_word_fields _ _ _ _ Hw) as (? & ? & ?). auto.
Qed.
Print Assumptions C29_focus_accepted.

(** UnboundLocalError when it is not. *)
Theorem C29_focus_refuted : exists (l : addressed) r, valid_role r /\ (exists c f, from_list l = Ok (c, f)) /\ word_of l r = Err UnboundLocalError.
Proof.
  exists [([DEPENDANT_QUALITY], Some X1)], [DEPENDANT_QUALITY; DEPENDANT_QUALITY]. split; [repeat constructor; apply ins_In; vm_compute; reflexivity|]. split; [do 2 eexists; vm_compute; reflexivity|]. vm_compute. reflexivity.
Qed.
Print Assumptions C29_focus_refuted.

(** No other exception for words. *)
Theorem C29_word_errors : forall (l : addressed) r e, word_of l r = Err e -> e = ValueError \/ e = IndexError \/ e = UnboundLocalError.
Proof.
  intros l r e H. unfold word_of in H. destruct r as [|a r']; [injection H as <-; auto|]. set (r := a :: r') in *. destruct (from_list l) as [[c f]|e'] eqn:Ef.
  2:{ injection H as <-. apply C29_only_value_or_index_error in Ef. tauto. }
  cbn [bind fst snd] in H. unfold mk_role in H. destruct (forallb (fun s => ins s ADDRESS_SCRIPTS) r) eqn:Fr; [|injection H as <-; auto]. cbn [bind] in H.
  apply from_list_inv in Ef. destruct Ef as [V _].
  assert (Vr : vrole (skipn (List.length (context_prefix c)) r)).
  { apply Forall_forall. intros s Hs. rewrite forallb_forall in Fr. apply ins_In, Fr. rewrite <- (firstn_skipn (List.length (context_prefix c)) r). apply in_app_iff. auto. }
  unfold mk_word, render, role_expansion in H. set (q := skipn _ r) in *. set (n := S (maxl _)) in H.
  destruct (node_at f q) as [g|] eqn:Eg.
  - destruct (node_at_some _ f q g Eg) as (q' & Hq & Eq). apply role_eqb_eq in Eq; [|auto|eapply actors_roles; eauto]. subst q'.
    destruct (expand_ok _ c f V n q g Hq) as (m & Em); [unfold n; lia|]. rewrite Em in H. cbn [bind] in H. unfold class_from_address in H.
    repeat match type of H with context [if ?b then _ else _] => destruct b; [discriminate|] end. injection H as <-. auto.
  - unfold n in H. cbn [expand] in H. rewrite Eg in H. cbn [bind] in H. injection H as <-. auto.
Qed.
Print Assumptions C29_word_errors.
