(** Singular sequences of words, [in] and [len] of USLs. *)
From Coq Require Import List String Ascii Bool NArith Arith Lia Permutation.
From Verif Require Import Base Script ScriptSpec Commons Usl UslSpec Sfun SfunSpec UslParser SortProofs OrderTheory UslProofs UslSsProofs SfunProofs SfunListProofs SfunWordProofs
  UslRoundProofs Properties8 Properties9 UslTableOrderProofs Sfun UslOrder UslOrderSpec UslOrderProofs Member MemberSpec.
Import ListNotations.
Local Open Scope string_scope.

Section Order.
  Variables (so : list script -> list script) (SO : set_order so).

  (** ** Polymorphemes *)
  Lemma pss_ok p : pok p -> Forall pok (pm_ss so p).
  Proof.
    intros P. destruct (groups p) as [|g gs] eqn:E; [unfold pm_ss; rewrite E; auto|]. rewrite pm_ss_groups by congruence. destruct P as [[P1 P2] P3].
    destruct (traits_spec so (groups p) (constant p) SO) as (_ & _ & X); auto; [congruence|]. apply Forall_forall. intros s Hs. destruct (X s Hs) as (cs & d & K & D & L & ->). apply mk_pm_ok; [eapply distinct_nf; eauto|constructor].
  Qed.
  Lemma pss_plain p s : pok p -> In s (pm_ss so p) -> groups s = [].
  Proof.
    intros P H. destruct (groups p) as [|g gs] eqn:E; [unfold pm_ss in H; rewrite E in H; destruct H as [<-|[]]; auto|]. rewrite pm_ss_groups in H by congruence. destruct P as [[P1 P2] P3].
    destruct (traits_spec so (groups p) (constant p) SO) as (_ & _ & X); auto; [congruence|]. destruct (X s H) as (cs & d & K & D & L & ->). reflexivity.
  Qed.
  Lemma plain_ss p : groups p = [] -> pm_ss so p = [p].
  Proof. unfold pm_ss. now intros ->. Qed.

  (** ** Lexemes *)
  Definition lprod (l : lexeme) : list lexeme := flat_map (fun f => map (fun c => {| pm_flexion := f; pm_content := c |}) (pm_ss so (pm_content l))) (pm_ss so (pm_flexion l)).
  Lemma lprod_in l x : In x (lprod l) <-> In (pm_flexion x) (pm_ss so (pm_flexion l)) /\ In (pm_content x) (pm_ss so (pm_content l)).
  Proof.
    unfold lprod. rewrite in_flat_map. split.
    - intros (f & Hf & Hx). apply in_map_iff in Hx. destruct Hx as (c & <- & Hc). auto.
    - intros [H1 H2]. exists (pm_flexion x). split; auto. apply in_map_iff. exists (pm_content x). split; auto. destruct x. reflexivity.
  Qed.
  Lemma lprod_length l : List.length (lprod l) = List.length (pm_ss so (pm_flexion l)) * List.length (pm_ss so (pm_content l)).
  Proof. unfold lprod. induction (pm_ss so (pm_flexion l)) as [|f fs IH]; [reflexivity|]. cbn [flat_map List.length]. rewrite app_length, map_length, IH. lia. Qed.
  Lemma lss_cases l : lexeme_ss so l = [l] /\ pm_singular so (pm_flexion l) = true /\ pm_singular so (pm_content l) = true \/
    lexeme_ss so l = lprod l /\ List.length (lexeme_ss so l) <> 1.
  Proof.
    unfold lexeme_ss. fold (lprod l). destruct (pm_singular so (pm_flexion l) && pm_singular so (pm_content l))%bool eqn:E; [apply andb_true_iff in E; auto|].
    right. split; auto. rewrite lprod_length. unfold pm_singular in E. intros X. apply Nat.eq_mul_1 in X. destruct X as [X1 X2]. rewrite X1, X2 in E. discriminate E.
  Qed.
  Lemma lss_one l : List.length (lexeme_ss so l) = 1 -> lexeme_ss so l = [l].
  Proof. destruct (lss_cases l) as [[H _]|[_ H]]; [auto|congruence]. Qed.
  Lemma lss_ok l : lok l -> Forall lok (lexeme_ss so l).
  Proof.
    intros [Lf Lc]. destruct (lss_cases l) as [[-> _]|[-> _]]; [constructor; [split; auto|constructor]|]. apply Forall_forall. intros x H. apply lprod_in in H. destruct H as [H1 H2].
    pose proof (pss_ok _ Lf) as F1. pose proof (pss_ok _ Lc) as F2. rewrite Forall_forall in F1, F2. split; auto.
  Qed.
  Lemma lss_nodup l : lok l -> NoDup (map lexeme_str (lexeme_ss so l)).
  Proof.
    intros [Lf Lc]. destruct (lss_cases l) as [[-> _]|[-> _]]; [constructor; [intros []|constructor]|].
    pose proof (pss_ok _ Lf) as F1. pose proof (pss_ok _ Lc) as F2. pose proof (ss_nodup so _ SO Lf) as N1. pose proof (ss_nodup so _ SO Lc) as N2. unfold lprod.
    induction F1 as [|f fs Hfo F1 IH]; [constructor|]. cbn [flat_map map]. rewrite map_app. cbn [map] in N1. inversion N1 as [|? ? Nf N1']; subst.
    apply NoDup_app2; [|apply IH; auto|].
    + clear -F2 N2 Hfo. induction F2 as [|c cs Hco F2 IH]; [constructor|]. cbn [map] in *. inversion N2 as [|? ? Nc N2']; subst. constructor; [|apply IH; auto].
      intros X. apply Nc. apply in_map_iff in X. destruct X as (x & E & Hx). apply in_map_iff in Hx. destruct Hx as (c' & <- & Hc').
      rewrite Forall_forall in F2. apply lexeme_str_key in E; [|split; auto|split; auto]. destruct E as [_ E]. cbn [pm_content] in E. rewrite <- E. apply in_map. auto.
    + intros t Ht Ht'. apply Nf. apply in_map_iff in Ht, Ht'. destruct Ht as (x & Ex & Hx), Ht' as (y & Ey & Hy). apply in_map_iff in Hx. destruct Hx as (c & <- & Hc').
      apply in_flat_map in Hy. destruct Hy as (f' & Hf' & Hy). apply in_map_iff in Hy. destruct Hy as (c' & <- & Hc'').
      rewrite Forall_forall in F1, F2. rewrite <- Ey in Ex. apply lexeme_str_key in Ex; [|split; auto|split; auto]. destruct Ex as [Ex _]. cbn [pm_flexion] in Ex. rewrite Ex. apply in_map. auto.
  Qed.
  Lemma lss_singular l x : lok l -> In x (lexeme_ss so l) -> lexeme_ss so x = [x].
  Proof.
    intros [Lf Lc] H. destruct (lss_cases l) as [(E & _)|[E _]].
    - rewrite E in H. destruct H as [<-|[]]. exact E.
    - rewrite E in H. apply lprod_in in H. destruct H as [H1 H2]. apply pss_plain in H1, H2; auto. unfold lexeme_ss, pm_singular. rewrite !plain_ss by auto. reflexivity.
  Qed.

  (** ** Words *)
  Definition wval (w : word) : Prop := cvalid (w_context w) (w_fun w) /\ mk_word (w_fun w) (w_role w) (w_context w) = Ok w.
  Definition wl (w : word) := as_list (w_context w) (w_fun w).
  Definition made_from (w : word) (ys : list lexeme) (w' : word) : Prop :=
    wval w' /\ w_role w' = w_role w /\ w_context w' = w_context w /\ wl w' = refilled (wl w) ys.
  Lemma number_one (l : addressed) ys : number so l = 1 -> choice so l ys -> refilled l ys = l.
  Proof.
    intros N C. unfold refilled. induction C as [|[r o] y l ys (z & E & Hz) C IH]; [reflexivity|]. cbn [snd] in E. subst o. unfold number in N. cbn [map fold_right snd] in N. apply Nat.eq_mul_1 in N. destruct N as [N1 N2].
    cbn [map combine fst]. rewrite (lss_one z N1) in Hz. destruct Hz as [<-|[]]. f_equal. now apply IH.
  Qed.
  Lemma word_ss_spec w : wval w -> filled w -> exists ws xs, word_ss so w = Ok ws /\ Forall2 (fun e ys => exists y, snd e = Some y /\ ys = lexeme_ss so y) (wl w) xs /\
    Forall2 (made_from w) (product xs) ws.
  Proof.
    intros [V Hw] Hl. unfold filled in Hl. fold (wl w) in Hl. set (l := wl w) in *. destruct (mapM_choices so l) as (xs & E & F); [now apply Forall_forall|].
    pose proof (product_number so l xs F) as Np. pose proof (product_choice so l xs F) as Sp. unfold word_ss, sfun_ss. fold (wl w). fold l. rewrite E. cbn [bind].
    assert (G : forall ys, choice so l ys -> exists f', cvalid (w_context w) f' /\ from_list (combine (map fst l) (map Some ys)) = Ok (w_context w, f') /\ as_list (w_context w) f' = refilled l ys /\ skel f' = skel (w_fun w)).
    { intros ys Hy. destruct (refill_c _ (w_context w) (w_fun w) V (refilled l ys)) as (f' & V' & Ef & Es); [now apply refilled_keys, (choice_length so)|].
      exists f'. split; auto. split; auto. fold (refilled l ys). rewrite <- Ef. now apply from_list_exact. }
    assert (G1 : exists fs, mapM (fun ys => do r <- from_list (combine (map fst l) (map Some ys)); Ok (snd r)) (product xs) = Ok fs /\
       Forall2 (fun ys f' => cvalid (w_context w) f' /\ as_list (w_context w) f' = refilled l ys /\ skel f' = skel (w_fun w)) (product xs) fs).
    { assert (K : Forall (choice so l) (product xs)) by (apply Forall_forall; intros; now apply Sp). clear -K G.
      induction K as [|ys yss Hy K IH]; [exists []; cbn; auto|]. destruct IH as (fs & Ef & F). destruct (G ys Hy) as (f' & V' & E1 & E2). exists (f' :: fs). split; [|constructor; auto].
      rewrite mapM_cons. rewrite E1. cbn [bind snd]. rewrite Ef. reflexivity. }
    destruct G1 as (fs & -> & Ff). cbn [bind].
    assert (G2 : exists ws, mapM (fun f => mk_word f (w_role w) (w_context w)) fs = Ok ws /\ Forall2 (fun f' w' => mk_word f' (w_role w) (w_context w) = Ok w' /\ w_fun w' = f' /\ w_role w' = w_role w /\ w_context w' = w_context w) fs ws).
    { assert (K : Forall (fun f' => skel f' = skel (w_fun w)) fs) by (clear -Ff; induction Ff as [|? ? ? ? (? & ? & ?)]; constructor; auto). clear -K Hw.
      induction K as [|f' fs Hs K IH]; [exists []; cbn; auto|]. destruct IH as (ws & Ew & F). destruct (mk_word_skel _ f' _ _ _ Hw Hs) as (w' & E & P). exists (w' :: ws). split; [|constructor; auto].
      rewrite mapM_cons. rewrite E. cbn [bind]. rewrite Ew. reflexivity. }
    destruct G2 as (ws & E2 & Fw).
    assert (Many : Forall2 (made_from w) (product xs) ws).
    { clear -Ff Fw. fold l. revert Ff Fw. generalize (product xs) as yss. intros yss Ff. revert ws. induction Ff as [|ys f' yss fs (V & El & Es) Ff IH]; intros ws Fw; inversion Fw as [|? w' ? ws' (Ew & E1 & E2 & E3) Fw']; subst; constructor; auto.
      split; [|split; [auto|split; [auto|]]]. { split; [now rewrite E3|rewrite E2, E3; exact Ew]. } unfold wl. now rewrite E3. }
    destruct fs as [|f0 [|f1 fs]].
    - exists ws, xs. auto.
    - exists [w], xs. split; [reflexivity|]. split; auto. inversion Ff as [|ys ? yss ? (V' & El & Es) Ff' Ep]; subst. inversion Ff'; subst. constructor; [|constructor].
      split; [split; auto|]. split; auto. split; auto. fold l. symmetry. apply number_one; [rewrite <- Np, <- Ep; reflexivity|]. apply Sp. rewrite <- Ep. now left.
    - exists ws, xs. auto.
  Qed.
End Order.

(** ** The text of a word and its list *)
Definition wok2 (w : word) : Prop := wval w /\ In (w_role w) (map fst (wl w)) /\ forall e l, In e (wl w) -> snd e = Some l -> lok l.
Lemma wl_actors w r x : In (r, x) (wl w) <-> exists q g, r = (context_prefix (w_context w) ++ q)%list /\ In (q, g) (actors (w_fun w)) /\ is_jun g = false /\ actor_of g = x.
Proof.
  unfold wl, as_list. rewrite in_map_iff. split.
  - intros ([q g] & E & H). apply filter_In in H. destruct H as [H J]. cbn [fst snd] in *. injection E as <- <-. exists q, g. apply negb_true_iff in J. auto.
  - intros (q & g & -> & H & J & <-). exists (q, g). split; auto. apply filter_In. cbn [snd]. now rewrite J.
Qed.
Lemma wok_wok2 w : wok w <-> wok2 w.
Proof.
  split.
  - intros (f & r & c & V & M & I & L). destruct (mk_word_fields _ _ _ _ M) as (E1 & E2 & E3). split; [split; [now rewrite E1, E3|now rewrite E1, E2, E3]|]. unfold wl. rewrite E1, E2, E3. split; auto.
    intros [q x] l H E. cbn [snd] in E. subst x. rewrite <- E1, <- E3 in H. apply wl_actors in H. destruct H as (q' & g & _ & H & _ & Eg). apply (L g l); auto. rewrite <- E1. change g with (snd (q', g)). now apply in_map.
  - intros ((V & M) & I & L). exists (w_fun w), (w_role w), (w_context w). split; auto. split; auto. split; auto. intros g l H E. apply in_map_iff in H. destruct H as ([q g'] & <- & H). cbn [snd] in *.
    apply (L ((context_prefix (w_context w) ++ q)%list, Some l) l); auto. apply wl_actors. exists q, g'. split; auto. split; auto. split; auto. destruct g'; [discriminate E|..]; reflexivity.
Qed.
Lemma skip_pre (c : context) (m : list (role * option lexeme)) : map (fun e : role * string => (skipn (List.length (context_prefix c)) (fst e), snd e)) (map kstr (pre _ (context_prefix c) m)) = map kstr m.
Proof. unfold pre. rewrite !map_map. apply map_ext. intros [q x]. unfold kstr. cbn. f_equal. rewrite skipn_app, skipn_all, Nat.sub_diag. reflexivity. Qed.
Lemma kstr_pre (c : context) (m : list (role * option lexeme)) : map kstr (pre _ (context_prefix c) m) = map (fun e : role * string => ((context_prefix c ++ fst e)%list, snd e)) (map kstr m).
Proof. unfold pre. rewrite !map_map. apply map_ext. intros [q x]. reflexivity. Qed.
Lemma word_texts a b : wok2 a -> wok2 b -> (w_str a = w_str b <-> w_role a = w_role b /\ w_context a = w_context b /\ Permutation (map kstr (wl a)) (map kstr (wl b))).
Proof.
  intros Ha Hb. apply wok_wok2 in Ha, Hb. rewrite (word_key a b Ha Hb). apply wok_text in Ha, Hb. destruct Ha as (ra & Va & Ra & Ia & _), Hb as (rb & Vb & Rb & Ib & _).
  assert (C : w_role a = w_role b -> w_context a = w_context b). { rewrite Ra, Rb. intros E. now apply (context_of _ _ _ _ _ _ Va Vb Ia Ib) in E. }
  assert (K : w_context a = w_context b -> (pk (w_fun a) = pk (w_fun b) <-> Permutation (map kstr (wl a)) (map kstr (wl b)))).
  { intros E. unfold wl. rewrite !as_list_lst, E. rewrite E in Va.
    transitivity (krows (w_fun a) = krows (w_fun b)). { split; intros X; [eapply pk_krows; eauto|eapply krows_pk; eauto]. }
    split; intros X.
    - rewrite !kstr_pre. apply Permutation_map. eapply perm_trans; [apply Permutation_sym, krows_perm|]. rewrite X. apply krows_perm.
    - apply (krows_eq (w_context b)); auto. apply (Permutation_map (fun e : role * string => (skipn (List.length (context_prefix (w_context b))) (fst e), snd e))) in X. now rewrite !skip_pre in X. }
  split.
  - intros [P R]. assert (E := C R). split; auto. split; auto. now apply K.
  - intros (R & E & P). split; auto. now apply K.
Qed.
Lemma wl_nodup w : wval w -> NoDup (map fst (wl w)).
Proof.
  intros [V _]. unfold wl. rewrite as_list_lst. unfold pre. rewrite map_map. cbn [fst]. rewrite <- (map_map fst (fun q => (context_prefix (w_context w) ++ q)%list)).
  assert (N : NoDup (map fst (lst (w_fun w)))).
  { destruct (krows_keys (w_context w) (w_fun w) V) as (_ & N & _). eapply Permutation_NoDup; [|exact N]. eapply perm_trans; [apply Permutation_map, krows_perm|]. rewrite map_map. apply Permutation_refl. }
  apply FinFun.Injective_map_NoDup; auto. intros x y E. now apply app_inv_head in E.
Qed.
Lemma refilled_in (l : addressed) ys e : In e (refilled l ys) -> exists q y, e = (q, Some y) /\ In q (map fst l) /\ In y ys.
Proof.
  unfold refilled. intros H. destruct e as [q x]. assert (H' := H). apply in_combine_l in H. apply in_combine_r in H'. apply in_map_iff in H'. destruct H' as (y & <- & Hy). eauto.
Qed.
Lemma choice_in so l ys e : choice so l ys -> In e (refilled l ys) -> exists q x y, e = (q, Some y) /\ In (q, Some x) l /\ In y (lexeme_ss so x).
Proof.
  unfold refilled, choice. intros C. induction C as [|[r o] y l ys (z & E & Hz) C IH]; [intros []|]. cbn [snd] in E. subst o. cbn [map combine fst]. intros [<-|H].
  - exists r, z, y. split; auto. split; auto. now left.
  - destruct (IH H) as (q & x & y' & -> & H1 & H2). exists q, x, y'. split; auto. split; auto. now right.
Qed.
Lemma choice_in_l so l ys q x : choice so l ys -> In (q, Some x) l -> exists y, In (q, Some y) (refilled l ys) /\ In y (lexeme_ss so x).
Proof.
  unfold refilled, choice. intros C. induction C as [|[r o] y l ys (z & E & Hz) C IH]; [intros []|]. cbn [snd] in E. subst o. cbn [map combine fst]. intros [[= -> ->]|H].
  - exists y. split; auto. now left.
  - destruct (IH H) as (y' & H1 & H2). exists y'. split; auto. now right.
Qed.
Lemma choice_with so l ys q x s : choice so l ys -> In (q, Some x) l -> In s (lexeme_ss so x) -> exists zs, choice so l zs /\ In (q, Some s) (refilled l zs).
Proof.
  unfold refilled, choice. intros C. induction C as [|[r o] y l ys (z & E & Hz) C IH]; [intros []|]. cbn [snd] in E. subst o. intros [[= -> ->]|H] Hs.
  - exists (s :: ys). split; [constructor; auto; exists x; auto|]. now left.
  - destruct (IH H Hs) as (zs & C' & I). exists (y :: zs). split; [constructor; auto; exists z; auto|]. now right.
Qed.
Section Made.
  Variables (so : list script -> list script) (SO : set_order so).
  Lemma made_ok w ys w' : wok2 w -> choice so (wl w) ys -> made_from w ys w' -> wok2 w' /\ filled w'.
  Proof.
    intros (V & I & L) C (V' & R & E & K). split; [split; [exact V'|split]|].
    - rewrite R, K. rewrite refilled_keys; [exact I|]. now apply (choice_length so).
    - intros e x He Ee. rewrite K in He. destruct (choice_in so _ _ _ C He) as (q & z & y & -> & Hz & Hy). cbn [snd] in Ee. injection Ee as ->.
      pose proof (lss_ok so SO z (L _ z Hz eq_refl)) as F. rewrite Forall_forall in F. auto.
    - intros e He. fold (wl w') in He. rewrite K in He. destruct (refilled_in _ _ _ He) as (q & y & -> & _). discriminate.
  Qed.
  Lemma made_same w ys zs a b : wok2 w -> choice so (wl w) ys -> choice so (wl w) zs -> made_from w ys a -> made_from w zs b -> w_str a = w_str b -> map lexeme_str ys = map lexeme_str zs.
  Proof.
    intros W Cy Cz Ma Mb E. destruct (made_ok w ys a W Cy Ma) as [Wa _]. destruct (made_ok w zs b W Cz Mb) as [Wb _]. apply (word_texts a b Wa Wb) in E. destruct E as (_ & _ & P).
    destruct Ma as (_ & _ & _ & Ka), Mb as (_ & _ & _ & Kb). rewrite Ka, Kb in P. pose proof (wl_nodup w (proj1 W)) as N. pose proof (choice_length so _ _ Cy) as L1. pose proof (choice_length so _ _ Cz) as L2.
    clear -P N L1 L2. unfold refilled in P. rewrite <- (map_length fst) in L1, L2. remember (map fst (wl w)) as rs eqn:Er. clear Er. revert ys zs L1 L2 P. induction rs as [|r rs IH]; intros [|y ys] [|z zs] L1 L2 P; try discriminate; [reflexivity|].
    cbn [map combine] in P. apply NoDup_cons_iff in N. destruct N as [Nr N].
    assert (Hy : kstr (r, Some y) = kstr (r, Some z)).
    { assert (H : In (kstr (r, Some y)) (kstr (r, Some z) :: map kstr (combine rs (map Some zs)))) by (eapply Permutation_in; [exact P|now left]). destruct H as [H|H]; [auto|]. exfalso. apply Nr.
      apply in_map_iff in H. destruct H as ([q x] & E & H). apply in_combine_l in H. unfold kstr in E. cbn [fst snd] in E. injection E as -> _. exact H. }
    cbn [map]. f_equal; [unfold kstr in Hy; cbn in Hy; congruence|]. apply IH; auto. rewrite Hy in P. now apply Permutation_cons_inv in P.
  Qed.
  Lemma product_nodup (l : addressed) xs : (forall e x, In e l -> snd e = Some x -> lok x) -> Forall2 (fun e ys => exists y, snd e = Some y /\ ys = lexeme_ss so y) l xs ->
    NoDup (map (map lexeme_str) (product xs)).
  Proof.
    intros L F. induction F as [|[r o] ys l xs (y & E & ->) F IH]; [constructor; [intros []|constructor]|]. cbn [snd] in E. subst o. cbn [product].
    assert (IH' : NoDup (map (map lexeme_str) (product xs))) by (apply IH; intros e x He; apply L; now right).
    assert (Ny : NoDup (map lexeme_str (lexeme_ss so y))) by (apply lss_nodup; auto; apply (L (r, Some y)); auto; now left). clear -IH' Ny.
    induction (lexeme_ss so y) as [|z zs IH]; [constructor|]. cbn [flat_map map] in *. rewrite map_app. apply NoDup_cons_iff in Ny. destruct Ny as [Nz Ny]. apply NoDup_app2; [|now apply IH|].
    - rewrite map_map. cbn [map]. rewrite <- (map_map (map lexeme_str) (cons (lexeme_str z))). apply FinFun.Injective_map_NoDup; auto. intros a b E. congruence.
    - intros t H H'. apply Nz. rewrite map_map in H. apply in_map_iff in H. destruct H as (c & <- & _). apply in_map_iff in H'. destruct H' as (c' & E & H'). apply in_flat_map in H'. destruct H' as (z' & Hz & H'). apply in_map_iff in H'. destruct H' as (c2 & <- & _).
      cbn [map] in E. injection E as E _. rewrite <- E. now apply in_map.
  Qed.
  Lemma word_ss_nodup w ws : wok2 w -> filled w -> word_ss so w = Ok ws -> NoDup (map w_str ws).
  Proof.
    intros W Fw E. destruct (word_ss_spec so w (proj1 W) Fw) as (ws' & xs & E' & Fx & Fm). rewrite E in E'. injection E' as <-. pose proof (product_choice so _ _ Fx) as Sp.
    pose proof (product_nodup _ _ (proj2 (proj2 W)) Fx) as N. assert (C : Forall (choice so (wl w)) (product xs)) by (apply Forall_forall; intros c Hc; now apply Sp).
    clear E Sp. revert C N. induction Fm as [|ys a yss ws Ma Fm IH]; intros C N; [constructor|]. cbn [map] in *. apply NoDup_cons_iff in N. apply Forall_cons_iff in C. constructor; [|now apply IH].
    intros H. apply (proj1 N). apply in_map_iff in H. destruct H as (b & Eb & Hb). destruct (Forall2_in_l _ _ _ (proj1 (Forall2_flip _ _ _) Fm) b Hb) as (zs & Hz & Mb). apply in_map_iff. exists zs. split; auto.
    destruct C as [Cy C]. rewrite Forall_forall in C. apply (made_same w zs ys b a); auto.
  Qed.
  Lemma word_ss_members w ws : wok2 w -> filled w -> word_ss so w = Ok ws -> (forall a, In a ws -> exists ys, choice so (wl w) ys /\ made_from w ys a) /\ (forall ys, choice so (wl w) ys -> exists a, In a ws /\ made_from w ys a).
  Proof.
    intros W Fw E. destruct (word_ss_spec so w (proj1 W) Fw) as (ws' & xs & E' & Fx & Fm). rewrite E in E'. injection E' as <-. pose proof (product_choice so _ _ Fx) as Sp. split.
    - intros a Ha. destruct (Forall2_in_l _ _ _ (proj1 (Forall2_flip _ _ _) Fm) a Ha) as (ys & Hy & M). exists ys. split; auto. now apply Sp.
    - intros ys Hy. apply Sp in Hy. destruct (Forall2_in_l _ _ _ Fm ys Hy) as (a & Ha & M). eauto.
  Qed.
  Lemma word_ss_singular w ws a : wok2 w -> filled w -> word_ss so w = Ok ws -> In a ws -> word_ss so a = Ok [a].
  Proof.
    intros W Fw E Ha. destruct (proj1 (word_ss_members w ws W Fw E) a Ha) as (ys & C & M). destruct (made_ok w ys a W C M) as [Wa Fa].
    destruct (word_ss_spec so a (proj1 Wa) Fa) as (ws' & xs & E' & Fx & Fm). pose proof (product_number so _ _ Fx) as Np.
    assert (N : number so (wl a) = 1).
    { destruct M as (_ & _ & _ & ->). destruct W as (_ & _ & L). clear -C L SO. unfold choice in C. unfold refilled. induction C as [|[r o] y l ys (z & E & Hz) C IH]; [reflexivity|]. cbn [snd] in E. subst o. unfold number in *. cbn [map combine fold_right snd fst].
      rewrite (lss_singular so SO z y); auto; [|apply (L (r, Some z)); auto; now left]. cbn [List.length]. rewrite Nat.mul_1_l. apply IH. intros e x He. apply L. now right. }
    assert (X : word_ss so a = Ok [a]); [|exact X]. unfold word_ss, sfun_ss. fold (wl a). destruct (mapM_choices so (wl a)) as (xs' & Em & Fx'); [apply Forall_forall; exact Fa|]. rewrite Em. cbn [bind].
    pose proof (product_number so _ _ Fx') as Np'. pose proof (product_choice so _ _ Fx') as Sp'. rewrite N in Np'. destruct (product xs') as [|zs [|]] eqn:Ep; try discriminate. cbn [mapM].
    assert (Cz : choice so (wl a) zs) by (apply Sp'; now left).
    fold (refilled (wl a) zs). rewrite (number_one so _ _ N Cz). unfold wl. rewrite from_list_exact by (apply (proj1 Wa)). reflexivity.
  Qed.
End Made.

(** ** Independence of the order of the sets, containment *)
Lemma pss_texts so so' p t : set_order so -> set_order so' -> pok p -> In t (map pm_str (pm_ss so p)) -> In t (map pm_str (pm_ss so' p)).
Proof.
  intros S S' P. destruct (groups p) as [|g gs] eqn:E; [unfold pm_ss; now rewrite E|]. rewrite !pm_ss_groups by congruence. destruct P as [[P1 P2] P3].
  destruct (traits_spec so (groups p) (constant p) S) as (_ & X & _); auto; [congruence|]. destruct (traits_spec so' (groups p) (constant p) S') as (_ & X' & _); auto; [congruence|]. intros H. now apply X', X.
Qed.
Lemma same_size {A B} (f : A -> string) (g : B -> string) l m : NoDup (map f l) -> NoDup (map g m) -> (forall t, In t (map f l) <-> In t (map g m)) -> List.length l = List.length m.
Proof. intros N M H. rewrite <- (map_length f l), <- (map_length g m). apply Nat.le_antisymm; apply NoDup_incl_length; auto; intros t Ht; now apply H. Qed.
Lemma pss_size so so' p : set_order so -> set_order so' -> pok p -> List.length (pm_ss so p) = List.length (pm_ss so' p).
Proof. intros S S' P. apply (same_size pm_str pm_str); try (now apply ss_nodup). intros t. split; now apply pss_texts. Qed.
Lemma lss_texts so so' l t : set_order so -> set_order so' -> lok l -> In t (map lexeme_str (lexeme_ss so l)) -> In t (map lexeme_str (lexeme_ss so' l)).
Proof.
  intros S S' L. assert (L' := L). destruct L' as [Lf Lc]. unfold lexeme_ss at 2, pm_singular. rewrite <- (pss_size so so' _ S S' Lf), <- (pss_size so so' _ S S' Lc). unfold lexeme_ss, pm_singular.
  destruct (Nat.eqb (List.length (pm_ss so (pm_flexion l))) 1 && Nat.eqb (List.length (pm_ss so (pm_content l))) 1)%bool; [auto|].
  change (In t (map lexeme_str (lprod so l)) -> In t (map lexeme_str (lprod so' l))). intros H. apply in_map_iff in H. destruct H as (x & <- & Hx). apply lprod_in in Hx. destruct Hx as [H1 H2].
  assert (Of := pss_ok so S _ Lf). assert (Oc := pss_ok so S _ Lc). rewrite Forall_forall in Of, Oc.
  assert (Of' := pss_ok so' S' _ Lf). assert (Oc' := pss_ok so' S' _ Lc). rewrite Forall_forall in Of', Oc'.
  assert (T1 : In (pm_str (pm_flexion x)) (map pm_str (pm_ss so' (pm_flexion l)))) by (apply (pss_texts so); auto; now apply in_map).
  assert (T2 : In (pm_str (pm_content x)) (map pm_str (pm_ss so' (pm_content l)))) by (apply (pss_texts so); auto; now apply in_map).
  apply in_map_iff in T1, T2. destruct T1 as (f & E1 & F1), T2 as (c & E2 & F2). apply in_map_iff. exists {| pm_flexion := f; pm_content := c |}. split; [|now apply lprod_in].
  apply lexeme_str_key; [split; auto|split; auto|]. auto.
Qed.
Lemma word_context_of a b : wok2 a -> wok2 b -> w_role a = w_role b -> w_context a = w_context b.
Proof.
  intros Ha Hb. apply wok_wok2, wok_text in Ha. apply wok_wok2, wok_text in Hb. destruct Ha as (ra & Va & Ra & Ia & _), Hb as (rb & Vb & Rb & Ib & _).
  rewrite Ra, Rb. intros E. now apply (context_of _ _ _ _ _ _ Va Vb Ia Ib) in E.
Qed.
Lemma kstr_keys (l : addressed) : map fst (map kstr l) = map fst l.
Proof. rewrite map_map. reflexivity. Qed.
Lemma word_incl so so' v w vs ws t : set_order so -> set_order so' -> wok2 v -> wok2 w -> filled v -> filled w -> word_ss so v = Ok vs -> word_ss so' w = Ok ws ->
  w_role v = w_role w -> (forall r, In r (map fst (wl v)) <-> In r (map fst (wl w))) ->
  (forall r x y s, In (r, Some x) (wl v) -> In (r, Some y) (wl w) -> In s (map lexeme_str (lexeme_ss so x)) -> In s (map lexeme_str (lexeme_ss so' y))) ->
  In t (map w_str vs) -> In t (map w_str ws).
Proof.
  intros S S' V W Fv Fw Ev Ew R K H Ht. apply in_map_iff in Ht. destruct Ht as (a & <- & Ha). destruct (proj1 (word_ss_members so v vs V Fv Ev) a Ha) as (ys & Cy & Ma).
  assert (Z : exists zs, choice so' (wl w) zs /\ forall e, In e (map kstr (refilled (wl w) zs)) -> In e (map kstr (refilled (wl v) ys))).
  { assert (Q : forall e, In e (wl w) -> exists y z, snd e = Some y /\ In z (lexeme_ss so' y) /\ In (kstr (fst e, Some z)) (map kstr (refilled (wl v) ys))).
    { intros [r o] He. destruct o as [y|]; [|now destruct (Fw _ He)]. assert (Hr : In r (map fst (wl v))) by (apply K; now apply (in_map fst) in He). apply in_map_iff in Hr. destruct Hr as ([r' o] & Er & Hr). cbn [fst] in Er. subst r'.
      destruct o as [x|]; [|now destruct (Fv _ Hr)]. destruct (choice_in_l so _ _ _ _ Cy Hr) as (s & Hs & Is). apply (in_map lexeme_str) in Is. apply (H r x y) in Is; auto. apply in_map_iff in Is. destruct Is as (z & Ez & Hz).
      exists y, z. split; auto. split; auto. cbn [fst]. apply in_map_iff. exists (r, Some s). split; auto. unfold kstr. cbn. now rewrite Ez. }
    clear -Q. induction (wl w) as [|[r o] l IH]; [exists []; split; [constructor|intros e []]|]. destruct IH as (zs & C & I); [intros e He; apply Q; now right|]. destruct (Q (r, o) ltac:(now left)) as (y & z & E & Hz & Hk). cbn [snd] in E. subst o.
    exists (z :: zs). split; [constructor; auto; exists y; auto|]. unfold refilled. cbn [map combine fst]. intros e [<-|He]; auto. }
  destruct Z as (zs & Cz & Iz). destruct (proj2 (word_ss_members so' w ws W Fw Ew) zs Cz) as (b & Hb & Mb). apply in_map_iff. exists b. split; auto. symmetry.
  destruct (made_ok so S v ys a V Cy Ma) as [Wa _]. destruct (made_ok so' S' w zs b W Cz Mb) as [Wb _]. apply word_texts; auto. assert (R' : w_role a = w_role b) by (destruct Ma as (_ & -> & _), Mb as (_ & -> & _); exact R). split; auto. split; [now apply word_context_of|].
  pose proof (wl_nodup a (proj1 Wa)) as Na. pose proof (wl_nodup b (proj1 Wb)) as Nb. rewrite <- kstr_keys in Na, Nb. destruct Ma as (_ & _ & _ & Ka), Mb as (_ & _ & _ & Kb). rewrite Ka in *. rewrite Kb in *.
  assert (Keys : forall r, In r (map fst (map kstr (refilled (wl v) ys))) -> In r (map fst (map kstr (refilled (wl w) zs)))).
  { intros r. rewrite !kstr_keys, !refilled_keys; [|now apply (choice_length so')|now apply (choice_length so)]. apply K. }
  apply NoDup_Permutation; [now apply NoDup_map_inv in Na|now apply NoDup_map_inv in Nb|]. intros e. split; [|apply Iz]. intros He. assert (Hk : In (fst e) (map fst (map kstr (refilled (wl v) ys)))) by now apply in_map. apply Keys in Hk. apply in_map_iff in Hk. destruct Hk as (e' & Ee & He').
  assert (X : e = e'); [|now subst e']. apply (nodup_map_eq fst (map kstr (refilled (wl v) ys))); auto.
Qed.
Lemma word_incl_inv so v w vs ws : set_order so -> wok2 v -> wok2 w -> filled v -> filled w -> word_ss so v = Ok vs -> word_ss so w = Ok ws -> vs <> [] ->
  (forall t, In t (map w_str vs) -> In t (map w_str ws)) ->
  w_role v = w_role w /\ (forall r, In r (map fst (wl v)) <-> In r (map fst (wl w))) /\
  (forall r x y s, In (r, Some x) (wl v) -> In (r, Some y) (wl w) -> In s (map lexeme_str (lexeme_ss so x)) -> In s (map lexeme_str (lexeme_ss so y))).
Proof.
  intros S V W Fv Fw Ev Ew Ne H.
  assert (G : forall ys, choice so (wl v) ys -> exists zs, choice so (wl w) zs /\ w_role v = w_role w /\ Permutation (map kstr (refilled (wl v) ys)) (map kstr (refilled (wl w) zs))).
  { intros ys Cy. destruct (proj2 (word_ss_members so v vs V Fv Ev) ys Cy) as (a & Ha & Ma). apply (in_map w_str), H, in_map_iff in Ha. destruct Ha as (b & Eb & Hb). destruct (proj1 (word_ss_members so w ws W Fw Ew) b Hb) as (zs & Cz & Mb). exists zs. split; auto.
    destruct (made_ok so S v ys a V Cy Ma) as [Wa _]. destruct (made_ok so S w zs b W Cz Mb) as [Wb _]. symmetry in Eb. apply word_texts in Eb; auto. destruct Eb as (R & _ & P). destruct Ma as (_ & Ra & _ & Ka), Mb as (_ & Rb & _ & Kb). rewrite Ka, Kb in P. rewrite Ra, Rb in R. auto. }
  destruct vs as [|a vs]; [congruence|]. destruct (proj1 (word_ss_members so v _ V Fv Ev) a ltac:(now left)) as (ys & Cy & _).
  destruct (G ys Cy) as (zs & Cz & R & P). split; auto. split.
  - intros r. apply (Permutation_map fst) in P. rewrite !kstr_keys, !refilled_keys in P; [|now apply (choice_length so)|now apply (choice_length so)]. split; apply Permutation_in; auto. now apply Permutation_sym.
  - intros r x y s Hx Hy Hs. apply in_map_iff in Hs. destruct Hs as (s0 & <- & Hs). destruct (choice_with so _ _ _ _ _ Cy Hx Hs) as (ys' & Cy' & Is). destruct (G ys' Cy') as (zs' & Cz' & _ & P').
    apply (in_map kstr) in Is. apply (Permutation_in _ P') in Is. apply in_map_iff in Is. destruct Is as (e & Ee & He). destruct (choice_in so _ _ _ Cz' He) as (q & y' & z & -> & Hq & Hz). unfold kstr in Ee. cbn [fst snd] in Ee. injection Ee as Eq Es. subst q.
    assert (X : (r, Some y') = (r, Some y)) by (apply (nodup_map_eq fst (wl w)); auto; apply wl_nodup, (proj1 W)). injection X as ->. apply in_map_iff. exists z. split; [cbn in Es; congruence|auto].
Qed.
