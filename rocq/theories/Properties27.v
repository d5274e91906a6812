(** Property C83 and the missing part of C28. *)
From Coq Require Import List String Ascii Bool NArith Arith Lia Permutation.
From Verif Require Import Base Script ScriptSpec Commons Usl UslSpec Sfun SfunSpec UslParser SortProofs OrderTheory UslProofs UslSsProofs SfunProofs SfunListProofs SfunWordProofs
  UslRoundProofs Properties1 Properties8 Properties9 Properties10 UslTableOrderProofs Sfun UslOrder UslOrderSpec UslOrderProofs Properties26 Member MemberSpec MemberProofs.
Import ListNotations.
Local Open Scope string_scope.

(** * C28: the words with a single choice too *)
Theorem C28_product : forall so (l0 : addressed) r w l,
  word_of l0 r = Ok w -> l = as_list (w_context w) (w_fun w) -> (forall e, In e l -> snd e <> None) ->
  exists ws, word_ss so w = Ok ws /\ List.length ws = number so l /\
    (forall w', In w' ws -> w_role w' = w_role w /\ w_context w' = w_context w /\ exists xs, choice so l xs /\ as_list (w_context w) (w_fun w') = refilled l xs) /\
    (forall xs, choice so l xs -> exists w', In w' ws /\ as_list (w_context w) (w_fun w') = refilled l xs).
Proof.
  intros so l0 r w l Hw -> Hl. apply word_of_inv in Hw. destruct Hw as (c & f & Hf & Hw). destruct (mk_word_fields _ _ _ _ Hw) as (E1 & E2 & E3). apply from_list_inv in Hf. destruct Hf as [V _].
  assert (W : wval w) by (split; [now rewrite E1, E3|now rewrite E1, E2, E3]). destruct (word_ss_spec so w W Hl) as (ws & xs & E & Fx & Fm). fold (wl w). pose proof (product_number so _ _ Fx) as Np. pose proof (product_choice so _ _ Fx) as Sp.
  exists ws. split; auto. split; [rewrite <- Np; clear -Fm; induction Fm; cbn; congruence|]. split.
  - intros a Ha. destruct (Forall2_in_l _ _ _ (proj1 (Forall2_flip _ _ _) Fm) a Ha) as (ys & Hy & (_ & R & C & K)). unfold wl in K at 1. rewrite C in K. split; auto. split; auto. exists ys. split; auto. now apply Sp.
  - intros ys Hy. apply Sp in Hy. destruct (Forall2_in_l _ _ _ Fm ys Hy) as (a & Ha & (_ & R & C & K)). unfold wl in K at 1. rewrite C in K. eauto.
Qed.
Print Assumptions C28_product.

(** * C83 *)
Lemma good_wok2 w : good_usl (UWord w) -> wok2 w.
Proof. intros [B O]. now apply wok_wok2, built_wok. Qed.
Definition uok (u : usl) : Prop := match u with UScript _ => False | UPm p => pok p | ULexeme l => lok l | UWord w => wok2 w end.
Lemma proper_uok u : proper u -> uok u.
Proof. intros [G S]. destruct u as [s|p|l|w]; [discriminate S|now apply built_ok|now apply built_lexeme_ok|now apply good_wok2]. Qed.
(** Numbers of the parts of [u], exceptions *)
Lemma uss_ok so u : set_order so -> uok u -> filled_usl u -> exists l, usl_ss so u = Ok l /\ NoDup (map usl_str l) /\ forall s, In s l -> uok s /\ filled_usl s /\ usl_ss so s = Ok [s] /\ syntactic_level s = syntactic_level u.
Proof.
  intros SO U F. destruct u as [s|p|l|w]; [destruct U|..]; cbn [usl_ss uok filled_usl] in *.
  - exists (map UPm (pm_ss so p)). split; auto. rewrite map_map. cbn [usl_str]. split; [now apply ss_nodup|]. intros s Hs. apply in_map_iff in Hs. destruct Hs as (q & <- & Hq). pose proof (pss_ok so SO p U) as O. rewrite Forall_forall in O. cbn [uok usl_ss syntactic_level filled_usl].
    split; auto. split; auto. split; auto. rewrite plain_ss; auto. eapply pss_plain; eauto.
  - exists (map ULexeme (lexeme_ss so l)). split; auto. rewrite map_map. cbn [usl_str]. split; [now apply lss_nodup|]. intros s Hs. apply in_map_iff in Hs. destruct Hs as (q & <- & Hq). pose proof (lss_ok so SO l U) as O. rewrite Forall_forall in O. cbn [uok usl_ss syntactic_level filled_usl].
    split; auto. split; auto. split; auto. rewrite (lss_singular so SO l q); auto.
  - destruct (word_ss_spec so w (proj1 U) F) as (ws & xs & E & _). rewrite E. cbn [bind]. exists (map UWord ws). split; auto. rewrite map_map. cbn [usl_str]. split; [now apply (word_ss_nodup so SO w)|]. intros s Hs. apply in_map_iff in Hs. destruct Hs as (q & <- & Hq). cbn [uok usl_ss syntactic_level filled_usl].
    destruct (proj1 (word_ss_members so w ws U F E) q Hq) as (ys & C & M). destruct (made_ok so SO w ys q U C M) as [Wq Fq]. split; auto. split; auto. split; auto. now rewrite (word_ss_singular so SO w ws q).
Qed.
Lemma uss_err so u e : uok u -> usl_ss so u = Err e <-> ~ filled_usl u /\ e = AttributeError.
Proof.
  intros U. destruct u as [s|p|l|w]; [destruct U|..]; cbn [usl_ss filled_usl uok] in *; [split; [discriminate|tauto]|split; [discriminate|tauto]|].
  assert (D : filled w \/ exists r, In (r, None) (wl w)).
  { unfold filled. fold (wl w). clear. induction (wl w) as [|[r [x|]] l IH]; [left; intros e []| |right; exists r; now left]. destruct IH as [IH|[q IH]]; [left; intros e [<-|H]; [discriminate|auto]|right; exists q; now right]. }
  destruct D as [F|[r N]].
  - destruct (word_ss_spec so w (proj1 U) F) as (ws & xs & E & _). rewrite E. cbn. split; [discriminate|tauto].
  - assert (E : word_ss so w = Err AttributeError).
    { unfold word_ss, sfun_ss. fold (wl w). assert (X : mapM (fun e => match snd e with Some x => Ok (lexeme_ss so x) | None => Err AttributeError end) (wl w) = Err AttributeError).
      { revert N. induction (wl w) as [|[q [x|]] l IH]; [intros []| |reflexivity]. intros [[=]|H]. rewrite mapM_cons. cbn [snd bind]. now rewrite (IH H). }
      first [rewrite X; reflexivity|idtac]. }
    rewrite E. cbn. split; [intros [= <-]; split; auto; intros F; apply (F _ N eq_refl)|intros [_ ->]; reflexivity].
Qed.
Lemma forallb_in (x y : list usl) : forallb (fun s => existsb (usl_eqb s) y) x = true <-> forall t, In t (map usl_str x) -> In t (map usl_str y).
Proof.
  rewrite forallb_forall. unfold usl_eqb. split.
  - intros H t Ht. apply in_map_iff in Ht. destruct Ht as (s & <- & Hs). apply H, existsb_exists in Hs. destruct Hs as (z & Hz & E). apply String.eqb_eq in E. rewrite E. now apply in_map.
  - intros H s Hs. apply (in_map usl_str), H, in_map_iff in Hs. destruct Hs as (z & E & Hz). apply existsb_exists. exists z. split; auto. now apply String.eqb_eq.
Qed.
Lemma uin_eq so a b : is_script b = false -> usl_in so a b = (do x <- usl_ss so a; do y <- usl_ss so b; Ok (forallb (fun s => existsb (usl_eqb s) y) x)).
Proof. destruct a, b; intros H; try discriminate H; reflexivity. Qed.
Lemma uin_ok so a b x y : is_script b = false -> usl_ss so a = Ok x -> usl_ss so b = Ok y -> (usl_in so a b = Ok true <-> forall t, In t (map usl_str x) -> In t (map usl_str y)).
Proof. intros S Ex Ey. rewrite uin_eq, Ex, Ey by auto. cbn [bind]. rewrite <- forallb_in. split; congruence. Qed.
Lemma stext so u l : usl_ss so u = Ok l -> forall t, sequence_text so u t <-> In t (map usl_str l).
Proof. intros E t. unfold sequence_text. rewrite in_map_iff. split; [intros (l' & x & E' & H & <-); rewrite E in E'; injection E' as <-; eauto|intros (x & <- & H); eauto]. Qed.

(** [a in b] says that each singular sequence of [a] has the text of one of [b]. *)
Theorem C83_in_is_inclusion : forall so a b, set_order so -> proper a -> proper b -> filled_usl a -> filled_usl b ->
  exists r, usl_in so a b = Ok r /\ (r = true <-> forall t, sequence_text so a t -> sequence_text so b t).
Proof.
  intros so a b SO Pa Pb Fa Fb. destruct (uss_ok so a SO (proper_uok a Pa) Fa) as (x & Ex & _). destruct (uss_ok so b SO (proper_uok b Pb) Fb) as (y & Ey & _).
  rewrite uin_eq, Ex, Ey by apply Pb. cbn [bind]. eexists. split; [reflexivity|]. rewrite forallb_in. split; intros H t; specialize (H t); rewrite ?(stext so a x Ex), ?(stext so b y Ey) in *; auto.
Qed.
Print Assumptions C83_in_is_inclusion.

(** A word with an address without lexeme has no singular sequences: [in] and [len] raise,
    and nothing else does. *)
Theorem C83_when_it_raises : forall so a b e, set_order so -> proper a -> proper b ->
  (usl_in so a b = Err e <-> e = AttributeError /\ (~ filled_usl a \/ ~ filled_usl b)) /\ (usl_len so a = Err e <-> e = AttributeError /\ ~ filled_usl a).
Proof.
  intros so a b e SO Pa Pb. pose proof (uss_err so a AttributeError (proper_uok a Pa)) as Ha. pose proof (uss_err so b AttributeError (proper_uok b Pb)) as Hb. pose proof (fun e => uss_err so a e (proper_uok a Pa)) as Ga. pose proof (fun e => uss_err so b e (proper_uok b Pb)) as Gb.
  rewrite uin_eq by apply Pb. assert (L : usl_len so a = (do l <- usl_ss so a; Ok (List.length l))) by (destruct a; [destruct Pa as [_ Pa]; discriminate Pa|..]; reflexivity). rewrite L.
  destruct (usl_ss so a) as [x|ea]; cbn [bind].
  - assert (Na : ~ ~ filled_usl a) by (intros N; assert (X : Ok x = Err AttributeError) by (apply Ga; auto); discriminate X).
    split; [|split; [discriminate|tauto]]. destruct (usl_ss so b) as [y|eb]; cbn [bind].
    + assert (Nb : ~ ~ filled_usl b) by (intros N; assert (X : Ok y = Err AttributeError) by (apply Gb; auto); discriminate X). split; [discriminate|tauto].
    + destruct (proj1 (Gb eb) eq_refl) as [N ->]. split; [intros [= <-]; auto|intros [-> _]; reflexivity].
  - destruct (proj1 (Ga ea) eq_refl) as [N ->]. split; (split; [intros [= <-]; auto|intros [-> _]; reflexivity]).
Qed.
Print Assumptions C83_when_it_raises.

(** [in] is reflexive and transitive. *)
Theorem C83_preorder : forall so, set_order so ->
  (forall a, proper a -> filled_usl a -> usl_in so a a = Ok true) /\
  (forall a b c, proper a -> proper b -> proper c -> usl_in so a b = Ok true -> usl_in so b c = Ok true -> usl_in so a c = Ok true).
Proof.
  intros so SO. split.
  - intros a Pa Fa. destruct (uss_ok so a SO (proper_uok a Pa) Fa) as (x & Ex & _). apply (uin_ok so a a x x); auto. apply Pa.
  - intros a b c [Ga Sa] [Gb Sb] [Gc Sc]. rewrite !uin_eq by auto. destruct (usl_ss so a) as [x|] eqn:Ex; [|discriminate]. destruct (usl_ss so b) as [y|] eqn:Ey; [|discriminate]. destruct (usl_ss so c) as [z|] eqn:Ez; [|discriminate]. cbn [bind].
    intros [= H1] [= H2]. f_equal. rewrite forallb_in in *. auto.
Qed.
Print Assumptions C83_preorder.

(** No text is there twice among the singular sequences. Each of them is its only singular
    sequence, is in the expression, and is of the same kind. *)
Theorem C83_singular_sequences : forall so u l, set_order so -> proper u -> usl_ss so u = Ok l ->
  NoDup (map usl_str l) /\
  forall s, In s l -> usl_ss so s = Ok [s] /\ usl_singular so s = Ok true /\ usl_in so s u = Ok true /\ syntactic_level s = syntactic_level u.
Proof.
  intros so u l SO P E. assert (F : filled_usl u).
  { assert (D : filled_usl u \/ ~ filled_usl u). { destruct u as [s|p|x|w]; cbn; auto. unfold filled. fold (wl w). clear. induction (wl w) as [|[r [x|]] m IH]; [left; intros e []| |right; intros H; apply (H (r, None)); [now left|reflexivity]].
      destruct IH as [IH|IH]; [left; intros e [<-|H]; [discriminate|auto]|right; intros H; apply IH; intros e He; apply H; now right]. }
    destruct D as [|N]; auto. assert (X : usl_ss so u = Err AttributeError) by (apply uss_err; auto; now apply proper_uok). congruence. }
  destruct (uss_ok so u SO (proper_uok u P) F) as (l' & E' & N & H). rewrite E in E'. injection E' as <-. split; auto. intros s Hs. destruct (H s Hs) as (Us & Fs & Es & Ls). split; auto. split.
  - destruct s; [destruct Us|..]; unfold usl_singular, usl_len; rewrite Es; reflexivity.
  - split; auto. apply (uin_ok so s u [s] l); auto; [apply P|]. intros t [<-|[]]. now apply in_map.
Qed.
Print Assumptions C83_singular_sequences.

(** [is_singular] says that there is exactly one. *)
Theorem C83_is_singular : forall so u, proper u -> (usl_singular so u = Ok true <-> exists s, usl_ss so u = Ok [s]).
Proof.
  intros so u [_ S]. destruct u as [s|p|l|w]; [discriminate S|..]; unfold usl_singular, usl_len; (destruct (usl_ss so _) as [[|x [|y z]]|e]; cbn [bind List.length Nat.eqb]; split; [intros H|intros (q & H)|..]; try discriminate; eauto; intros (q & H); discriminate).
Qed.
Print Assumptions C83_is_singular.

(** [len] grows with [in]; with the same length the containment goes both ways. *)
Theorem C83_len : forall so a b m n, set_order so -> proper a -> proper b -> usl_in so a b = Ok true -> usl_len so a = Ok m -> usl_len so b = Ok n ->
  m <= n /\ (m = n -> usl_in so b a = Ok true).
Proof.
  intros so a b m n SO Pa Pb H La Lb. assert (L : forall u k, proper u -> usl_len so u = Ok k -> exists l, usl_ss so u = Ok l /\ List.length l = k).
  { intros u k [_ S] E. destruct u; [discriminate S|..]; unfold usl_len in E; (destruct (usl_ss so _) as [ll|]; [|discriminate]); cbn in E; injection E as <-; eauto. }
  destruct (L a m Pa La) as (x & Ex & <-), (L b n Pb Lb) as (y & Ey & <-). rewrite (uin_ok so a b x y (proj2 Pb) Ex Ey) in H. destruct (C83_singular_sequences so a x SO Pa Ex) as [Nx _]. destruct (C83_singular_sequences so b y SO Pb Ey) as [Ny _].
  split.
  - rewrite <- (map_length usl_str x), <- (map_length usl_str y). now apply NoDup_incl_length.
  - intros E. apply (uin_ok so b a y x); auto; [apply Pa|]. intros t Ht. apply (NoDup_length_incl Nx (l' := map usl_str y)); auto. rewrite !map_length. lia.
Qed.
Print Assumptions C83_len.

(** The answers do not depend on the order in which Python enumerates its sets. *)
Lemma texts_any so so' u l l' t : set_order so -> set_order so' -> uok u -> filled_usl u -> usl_ss so u = Ok l -> usl_ss so' u = Ok l' -> In t (map usl_str l) -> In t (map usl_str l').
Proof.
  intros S S' U F. destruct u as [s|p|x|w]; [destruct U|..]; cbn [usl_ss uok filled_usl] in *.
  - intros [= <-] [= <-]. rewrite !map_map. cbn [usl_str]. now apply pss_texts.
  - intros [= <-] [= <-]. rewrite !map_map. cbn [usl_str]. now apply lss_texts.
  - destruct (word_ss so w) as [ws|] eqn:E; [|discriminate]. destruct (word_ss so' w) as [ws'|] eqn:E'; [|discriminate]. cbn [bind]. intros [= <-] [= <-]. rewrite !map_map. cbn [usl_str].
    apply (word_incl so so' w w ws ws' t S S' U U F F E E'); auto; [tauto|]. intros r a b s Ha Hb. assert (X : (r, Some a) = (r, Some b)) by (apply (nodup_map_eq fst (wl w)); auto; apply wl_nodup, (proj1 U)). injection X as <-. apply lss_texts; auto. apply (proj2 (proj2 U) _ a Ha eq_refl).
Qed.
Theorem C83_any_set_order : forall so so' a b, set_order so -> set_order so' -> proper a -> proper b ->
  usl_in so a b = usl_in so' a b /\ usl_len so a = usl_len so' a /\ forall t, sequence_text so a t <-> sequence_text so' a t.
Proof.
  intros so so' a b S S' Pa Pb. pose proof (proper_uok a Pa) as Ua. pose proof (proper_uok b Pb) as Ub.
  assert (D : forall u, uok u -> (exists l l', filled_usl u /\ usl_ss so u = Ok l /\ usl_ss so' u = Ok l' /\ forall t, In t (map usl_str l) <-> In t (map usl_str l')) \/ usl_ss so u = Err AttributeError /\ usl_ss so' u = Err AttributeError).
  { intros u U. destruct (usl_ss so u) as [l|e] eqn:E.
    - left. assert (F : ~ ~ filled_usl u) by (intros N; assert (X : usl_ss so u = Err AttributeError) by (apply uss_err; auto); congruence).
      destruct (usl_ss so' u) as [l'|e'] eqn:E'; [|destruct (proj1 (uss_err so' u e' U) E'); tauto]. assert (Fu : filled_usl u).
      { destruct u as [s|p|x|w]; cbn in *; auto. intros e He X. apply F. intros H. apply (H e He X). }
      exists l, l'. split; auto. split; auto. split; auto. intros t. split; [now apply (texts_any so so' u)|now apply (texts_any so' so u)].
    - right. destruct (proj1 (uss_err so u e U) E) as [N ->]. split; auto. now apply uss_err. }
  assert (La : forall so, usl_len so a = (do l <- usl_ss so a; Ok (List.length l))) by (intros; destruct a; [destruct Pa as [_ Pa]; discriminate Pa|..]; reflexivity).
  assert (T : forall t, sequence_text so a t <-> sequence_text so' a t).
  { destruct (D a Ua) as [(l & l' & _ & E & E' & H)|[E E']]; intros t; [rewrite (stext so a l E), (stext so' a l' E'); auto|]. unfold sequence_text. rewrite E, E'. split; intros (? & ? & [=] & _). }
  rewrite !La, !uin_eq by apply Pb. destruct (D a Ua) as [(x & x' & Fa & Ex & Ex' & Hx)|[-> ->]]; [|auto]. destruct (uss_ok so a S Ua Fa) as (y & Ey & Ny & _). destruct (uss_ok so' a S' Ua Fa) as (y' & Ey' & Ny' & _). rewrite Ex in Ey. injection Ey as <-. rewrite Ex' in Ey'. injection Ey' as <-.
  rewrite Ex, Ex'. cbn [bind]. split; [|split; [f_equal; now apply (same_size usl_str usl_str)|auto]].
  destruct (D b Ub) as [(z & z' & _ & -> & -> & Hz)|[-> ->]]; [|auto]. cbn [bind]. f_equal. apply eq_true_iff_eq. rewrite !forallb_in. split; intros H t Ht; apply Hz, H, Hx; auto.
Qed.
Print Assumptions C83_any_set_order.

Lemma texts_apart_ok u v : uok u -> uok v -> usl_str u = usl_str v -> syntactic_level u = syntactic_level v.
Proof.
  assert (Hp : forall p, pok p -> forall t l, split_words "" (pm_str p) <> Dl t :: l).
  { intros p B t l E. pose proof (split_pm_str p "" B (or_introl eq_refl)) as H. rewrite app_string_nil in H. rewrite H in E. cbn [split_words] in E. rewrite app_nil_r in E. unfold pm_toks in E.
    destruct (map str (printed p)); [|discriminate E]. cbn in E. destruct (groups p); discriminate E. }
  assert (Hl : forall l, lok l -> exists t, split_words "" (lexeme_str l) = Dl "(" :: t).
  { intros l B. pose proof (split_lexeme l "" B) as H. rewrite app_string_nil in H. eexists. exact H. }
  assert (Hw : forall w, wok2 w -> exists t, split_words "" (w_str w) = Dl "[" :: t).
  { intros w B. apply wok_wok2 in B. destruct (wok_text w B) as (r & _ & _ & _ & _ & _ & T). rewrite T, word_text_rows. cbn [append]. rewrite split_delim0; [eauto|reflexivity|discriminate]. }
  intros Gu Gv E. destruct u as [s|p|l|w], v as [s'|p'|l'|w']; try (now destruct Gu); try (now destruct Gv); cbn [usl_str uok syntactic_level] in *; auto; exfalso; apply (f_equal (split_words "")) in E.
  - destruct (Hl l' Gv) as (t & X). rewrite X in E. now apply Hp in E.
  - destruct (Hw w' Gv) as (t & X). rewrite X in E. now apply Hp in E.
  - destruct (Hl l Gu) as (t & X). rewrite X in E. symmetry in E. now apply Hp in E.
  - destruct (Hl l Gu) as (t & X), (Hw w' Gv) as (t' & X'). congruence.
  - destruct (Hw w Gu) as (t & X). rewrite X in E. symmetry in E. now apply Hp in E.
  - destruct (Hw w Gu) as (t & X), (Hl l' Gv) as (t' & X'). congruence.
Qed.
(** Expressions of different kinds are not in each other, unless the first has no sequence. *)
Theorem C83_kinds : forall so a b n, set_order so -> proper a -> proper b -> usl_len so a = Ok (S n) -> usl_in so a b = Ok true -> syntactic_level a = syntactic_level b.
Proof.
  intros so a b n SO Pa Pb La H. pose proof (C83_when_it_raises so a b AttributeError SO Pa Pb) as [R _].
  rewrite uin_eq in H by apply Pb. destruct (usl_ss so a) as [x|] eqn:Ex; [|discriminate]. destruct (usl_ss so b) as [y|] eqn:Ey; [|discriminate]. cbn [bind] in H. injection H as H. rewrite forallb_in in H.
  assert (X : exists s, In s x). { destruct a; [destruct Pa as [_ Pa]; discriminate Pa|..]; unfold usl_len in La; rewrite Ex in La; cbn in La; injection La as La; (destruct x as [|s x]; [discriminate|exists s; now left]). }
  destruct X as (s & Hs). pose proof (H (usl_str s) ltac:(now apply in_map)) as Ht. apply in_map_iff in Ht. destruct Ht as (s' & Es & Hs'). destruct (proj2 (C83_singular_sequences so a x SO Pa Ex) s Hs) as (_ & _ & _ & <-). destruct (proj2 (C83_singular_sequences so b y SO Pb Ey) s' Hs') as (_ & _ & _ & <-).
  assert (Fa : forall u l, proper u -> usl_ss so u = Ok l -> filled_usl u).
  { intros u l P E. destruct u as [?|?|?|w]; cbn; auto. intros e He X. assert (Z : usl_ss so (UWord w) = Err AttributeError) by (apply uss_err; [now apply (proper_uok (UWord w))|split; auto; intros F; apply (F e He X)]). congruence. }
  destruct (uss_ok so a SO (proper_uok a Pa) (Fa a x Pa Ex)) as (x' & Ex' & _ & Hx). rewrite Ex in Ex'. injection Ex' as <-. destruct (uss_ok so b SO (proper_uok b Pb) (Fa b y Pb Ey)) as (y' & Ey' & _ & Hy). rewrite Ey in Ey'. injection Ey' as <-.
  destruct (Hx s Hs) as [Us _]. destruct (Hy s' Hs') as [Us' _]. clear -Es Us Us'. symmetry in Es. now apply texts_apart_ok.
Qed.
Print Assumptions C83_kinds.

(** A word is in another one when they have the same focus and the same addresses and each
    lexeme is in the lexeme at the same address. *)
Theorem C83_words : forall so v w n, set_order so -> proper (UWord v) -> proper (UWord w) -> filled v -> filled w -> usl_len so (UWord v) = Ok (S n) ->
  (usl_in so (UWord v) (UWord w) = Ok true <->
   w_role v = w_role w /\ (forall r, (exists x, lexeme_at v r x) <-> (exists y, lexeme_at w r y)) /\
   forall r x y, lexeme_at v r x -> lexeme_at w r y -> usl_in so (ULexeme x) (ULexeme y) = Ok true).
Proof.
  intros so v w n SO Pv Pw Fv Fw Lv. pose proof (proper_uok _ Pv) as V. pose proof (proper_uok _ Pw) as W. cbn [uok] in V, W.
  destruct (word_ss_spec so v (proj1 V) Fv) as (vs & _ & Ev & _). destruct (word_ss_spec so w (proj1 W) Fw) as (ws & _ & Ew & _).
  assert (Uv : usl_ss so (UWord v) = Ok (map UWord vs)) by (cbn; now rewrite Ev). assert (Uw : usl_ss so (UWord w) = Ok (map UWord ws)) by (cbn; now rewrite Ew).
  rewrite (uin_ok so (UWord v) (UWord w) _ _ eq_refl Uv Uw), !map_map. cbn [usl_str].
  assert (A : forall u, filled u -> forall r, In r (map fst (wl u)) <-> exists x, lexeme_at u r x).
  { intros u Fu r. unfold lexeme_at. fold (wl u). rewrite in_map_iff. split; [intros ([q [x|]] & <- & H); [now exists x|now destruct (Fu _ H)]|intros (x & H); now exists (r, Some x)]. }
  assert (B : forall x y, usl_in so (ULexeme x) (ULexeme y) = Ok true <-> forall s, In s (map lexeme_str (lexeme_ss so x)) -> In s (map lexeme_str (lexeme_ss so y))).
  { intros x y. rewrite (uin_ok so (ULexeme x) (ULexeme y) _ _ eq_refl eq_refl eq_refl), !map_map. reflexivity. }
  split.
  - intros H. assert (Ne : vs <> []) by (intros ->; unfold usl_len in Lv; rewrite Uv in Lv; discriminate Lv). destruct (word_incl_inv so v w vs ws SO V W Fv Fw Ev Ew Ne H) as (R & K & X). split; auto. split.
    + intros r. now rewrite <- !A.
    + intros r x y Hx Hy. apply B. intros s. now apply (X r).
  - intros (R & K & X) t. apply (word_incl so so v w vs ws t SO SO V W Fv Fw Ev Ew R).
    + intros r. now rewrite !A.
    + intros r x y s Hx Hy. revert s. apply B. now apply (X r).
Qed.
Print Assumptions C83_words.

(** A lexeme is in another one when its flexion and its content are in those of the other;
    missing: the lexemes with a part with groups and a single singular sequence, see below. *)
Theorem C83_lexemes_partial : forall so a b n, set_order so -> built_lexeme a -> built_lexeme b ->
  Forall (plain_or_plural so) [pm_flexion a; pm_content a; pm_flexion b; pm_content b] -> usl_len so (ULexeme a) = Ok (S n) ->
  (usl_in so (ULexeme a) (ULexeme b) = Ok true <->
   usl_in so (UPm (pm_flexion a)) (UPm (pm_flexion b)) = Ok true /\ usl_in so (UPm (pm_content a)) (UPm (pm_content b)) = Ok true).
Proof.
  intros so a b n SO Ba Bb F La. apply Forall_cons_iff in F. destruct F as [F1 F]. apply Forall_cons_iff in F. destruct F as [F2 F]. apply Forall_cons_iff in F. destruct F as [F3 F]. apply Forall_cons_iff in F. destruct F as [F4 _].
  destruct (C24_product_partial so a SO Ba F1 F2) as (Ia & _). destruct (C24_product_partial so b SO Bb F3 F4) as (Ib & _). pose proof (built_lexeme_ok a Ba) as Oa. pose proof (built_lexeme_ok b Bb) as Ob.
  assert (Pa := lss_ok so SO a Oa). assert (Pb := lss_ok so SO b Ob). rewrite Forall_forall in Pa, Pb.
  rewrite (uin_ok so (ULexeme a) (ULexeme b) _ _ eq_refl eq_refl eq_refl), (uin_ok so (UPm (pm_flexion a)) (UPm (pm_flexion b)) _ _ eq_refl eq_refl eq_refl), (uin_ok so (UPm (pm_content a)) (UPm (pm_content b)) _ _ eq_refl eq_refl eq_refl), !map_map. cbn [usl_str].
  assert (X : exists x, In x (lexeme_ss so a)) by (unfold usl_len in La; cbn in La; rewrite map_length in La; destruct (lexeme_ss so a) as [|x]; [discriminate|exists x; now left]). destruct X as (x0 & X0). apply Ia in X0. destruct X0 as [Xf Xc].
  split.
  - intros H. split; intros t Ht; apply in_map_iff in Ht; destruct Ht as (q & <- & Hq).
    + assert (Y : In {| pm_flexion := q; pm_content := pm_content x0 |} (lexeme_ss so a)) by (apply Ia; auto). pose proof (H _ (in_map lexeme_str _ _ Y)) as Z. apply in_map_iff in Z. destruct Z as (z & Ez & Hz). apply lexeme_str_key in Ez; auto. destruct Ez as [Ez _]. cbn in Ez. rewrite <- Ez. apply in_map. now apply Ib in Hz.
    + assert (Y : In {| pm_flexion := pm_flexion x0; pm_content := q |} (lexeme_ss so a)) by (apply Ia; auto). pose proof (H _ (in_map lexeme_str _ _ Y)) as Z. apply in_map_iff in Z. destruct Z as (z & Ez & Hz). apply lexeme_str_key in Ez; auto. destruct Ez as [_ Ez]. cbn in Ez. rewrite <- Ez. apply in_map. now apply Ib in Hz.
  - intros [Hf Hc] t Ht. apply in_map_iff in Ht. destruct Ht as (x & <- & Hx). assert (Lx := Pa x Hx). apply Ia in Hx. destruct Hx as [H1 H2]. apply (in_map pm_str), Hf, in_map_iff in H1. apply (in_map pm_str), Hc, in_map_iff in H2. destruct H1 as (f & E1 & H1), H2 as (c & E2 & H2).
    assert (Y : In {| pm_flexion := f; pm_content := c |} (lexeme_ss so b)) by (apply Ib; auto). apply in_map_iff. exists {| pm_flexion := f; pm_content := c |}. split; auto. apply lexeme_str_key; auto.
Qed.
Print Assumptions C83_lexemes_partial.

(** The word [W83] has the two lexemes [L83] and [X1]; the word [V83] has one of the singular
    sequences of [L83] instead, and [U83] has another focus. *)
Definition L83 : lexeme := {| pm_flexion := mk_pm [A_] []; pm_content := P22 |}.
Definition S83 : lexeme := {| pm_flexion := mk_pm [A_] []; pm_content := mk_pm [A_; B_] [] |}.
Definition W83l : addressed := [([V82], Some X1); ([INITIATOR], Some L83)].
Definition V83l : addressed := [([V82], Some X1); ([INITIATOR], Some S83)].
Definition W83 := Eval vm_compute in the_word (word_of W83l [V82]).
Definition V83 := Eval vm_compute in the_word (word_of V83l [V82]).
Definition U83 := Eval vm_compute in the_word (word_of V83l [INITIATOR]).
Lemma L83_built : built_lexeme L83. Proof. split; [exists [A_], []; split; [good|split; [constructor|reflexivity]]|exact P22_built]. Qed.
Lemma S83_built : built_lexeme S83.
Proof. split; [exists [A_], []; split; [good|split; [constructor|reflexivity]]|exists [A_; B_], []; split; [good; good|split; [constructor|reflexivity]]]. Qed.
Lemma built_83 (l : addressed) r w : word_of l r = Ok w -> (forall x, In x (present l) -> In x [X1; L83; S83]) -> built_word w.
Proof.
  intros E H. exists l, r. split; auto. apply Forall_forall. intros x Hx. apply H in Hx. destruct Hx as [<-|[<-|[<-|[]]]]; [apply built_X; now left|exact L83_built|exact S83_built].
Qed.
Lemma W83_proper : proper (UWord W83). Proof. split; [split; [apply (built_83 W83l [V82]); [vm_compute; reflexivity|in_X]|focus]|reflexivity]. Qed.
Lemma V83_proper : proper (UWord V83). Proof. split; [split; [apply (built_83 V83l [V82]); [vm_compute; reflexivity|in_X]|focus]|reflexivity]. Qed.
Lemma U83_proper : proper (UWord U83). Proof. split; [split; [apply (built_83 V83l [INITIATOR]); [vm_compute; reflexivity|in_X]|focus]|reflexivity]. Qed.
Ltac fill := let e := fresh "e" in let H := fresh "H" in intros e H; vm_compute in H; repeat destruct H as [<-|H]; try discriminate; destruct H.
Example C83_case :
  proper (UWord W83) /\ proper (UWord V83) /\ proper (UWord U83) /\ filled W83 /\ filled V83 /\ filled U83 /\
  usl_len ident (UWord W83) = Ok 9 /\ usl_len ident (UWord V83) = Ok 1 /\
  usl_in ident (UWord V83) (UWord W83) = Ok true /\ usl_in ident (UWord W83) (UWord V83) = Ok false /\ usl_in ident (UWord U83) (UWord W83) = Ok false /\
  usl_in ident (ULexeme S83) (ULexeme L83) = Ok true /\ usl_in ident (ULexeme S83) (UWord W83) = Ok false /\
  Forall (plain_or_plural ident) [pm_flexion S83; pm_content S83; pm_flexion L83; pm_content L83] /\
  usl_in ident (UPm (mk_pm [A_; B_] [])) (UPm P22) = Ok true /\ usl_in ident (UPm (mk_pm [B_] [])) (UPm P22) = Ok false.
Proof.
  split; [exact W83_proper|split; [exact V83_proper|split; [exact U83_proper|]]]. split; [fill|split; [fill|split; [fill|]]].
  do 7 (split; [vm_compute; reflexivity|]). split; [|split; vm_compute; reflexivity].
  repeat constructor; unfold plain_or_plural; vm_compute; try reflexivity; discriminate.
Qed.

(** [Q83] has a group and a single singular sequence [q83]: each is in the other although they
    differ. The lexeme with [Q83] is not in the one with [q83]. *)
Definition Q83 : pm := mk_pm [A_; B_; C_; D_; text "e."] [([text "u."], 1)].
Definition q83 : pm := mk_pm [A_; B_; C_; D_; text "e."] [].
Lemma Q83_built : built Q83 /\ built q83.
Proof. split; [exists [A_; B_; C_; D_; text "e."], [([text "u."], 1)]; split; [good; text_reg|split; [good; good; text_reg|reflexivity]]|exists [A_; B_; C_; D_; text "e."], []; split; [good; text_reg|split; [constructor|reflexivity]]]. Qed.
Theorem C83_lexemes_refuted : exists a b, built_lexeme a /\ built_lexeme b /\ check_lexeme a = Ok tt /\ check_lexeme b = Ok tt /\ usl_len ident (ULexeme a) = Ok 1 /\ 
  usl_in ident (UPm (pm_flexion a)) (UPm (pm_flexion b)) = Ok true /\ usl_in ident (UPm (pm_content a)) (UPm (pm_content b)) = Ok true /\ usl_in ident (ULexeme a) (ULexeme b) = Ok false.
Proof.
  assert (F : built (mk_pm [A_] [])) by (exists [A_], []; split; [good|split; [constructor|reflexivity]]).
  exists {| pm_flexion := mk_pm [A_] []; pm_content := Q83 |}, {| pm_flexion := mk_pm [A_] []; pm_content := q83 |}. split; [split; [exact F|apply Q83_built]|split; [split; [exact F|apply Q83_built]|]]. repeat split; vm_compute; reflexivity.
Qed.
Print Assumptions C83_lexemes_refuted.
(** Containment both ways is not equality. *)
Theorem C83_antisymmetric_refuted : exists a b, proper a /\ proper b /\ usl_in ident a b = Ok true /\ usl_in ident b a = Ok true /\ usl_singular ident a = Ok true /\ usl_eqb a b = false.
Proof. exists (UPm Q83), (UPm q83). split; [split; [apply Q83_built|reflexivity]|split; [split; [apply Q83_built|reflexivity]|]]. repeat split; vm_compute; reflexivity. Qed.
Print Assumptions C83_antisymmetric_refuted.
(** A polymorpheme whose constants are already too many has no sequence: it is in every word. *)
Theorem C83_kinds_refuted : exists p, proper (UPm p) /\ usl_len ident (UPm p) = Ok 0 /\ usl_in ident (UPm p) (UWord W83) = Ok true.
Proof.
  exists (mk_pm [A_; B_; C_; D_; text "e."; text "t."] [([text "u."], 1)]).
  split; [split; [exists [A_; B_; C_; D_; text "e."; text "t."], [([text "u."], 1)]; split; [good; text_reg|split; [good; good; text_reg|reflexivity]]|reflexivity]|]. split; vm_compute; reflexivity.
Qed.
Print Assumptions C83_kinds_refuted.
(** A script is in the polymorpheme with its text, which is not in the script. *)
Theorem C83_scripts_refuted : exists s p, regular s /\ built p /\ usl_in ident (UScript s) (UPm p) = Ok true /\ usl_in ident (UPm p) (UScript s) = Ok false /\ usl_eqb (UPm p) (UScript s) = true.
Proof.
  exists A_, (mk_pm [A_] []). assert (F : built (mk_pm [A_] [])) by (exists [A_], []; split; [good|split; [constructor|reflexivity]]). split; [destruct F as (cs & gs & F1 & _)|]; [|split; [exact F|repeat split; vm_compute; reflexivity]].
  clear. text_reg.
Qed.
Print Assumptions C83_scripts_refuted.
