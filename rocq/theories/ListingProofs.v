(** Proofs about the list of all described expressions. *)
From Coq Require Import List String Ascii Bool NArith Arith Lia Permutation Sorted.
From Verif Require Import Base Script ScriptParser Commons CommonsProofs Tables Factor Dictionary Database Git Cache Transactions TransactionsProofs
  Usl Sfun UslParser Paradigms SortProofs ScriptWf ScriptStrProofs ScriptAlgProofs TablesGridProofs DictLoadProofs Listing ListingSpec.
Import ListNotations.
Local Open Scope string_scope.

Lemma filter_insert {A} (lt : A -> A -> bool) (P : A -> bool) x l : (forall y, P y = true -> P x = true -> lt y x = false) ->
  filter P (insert lt x l) = filter P (x :: l).
Proof.
  intros H. induction l as [|y l IH]; [reflexivity|]. cbn [insert]. destruct (lt y x) eqn:E; [|reflexivity].
  cbn [filter] in *. rewrite IH. destruct (P x) eqn:Px, (P y) eqn:Py; try reflexivity. rewrite (H y Py eq_refl) in E. discriminate.
Qed.
(** The sort keeps the order of what is not ordered. *)
Lemma filter_sort {A} (lt : A -> A -> bool) (P : A -> bool) l : (forall x y, P x = true -> P y = true -> lt x y = false) ->
  filter P (sort lt l) = filter P l.
Proof.
  intros H. induction l as [|x l IH]; [reflexivity|]. cbn [sort]. rewrite filter_insert by auto. cbn [filter]. rewrite IH. reflexivity.
Qed.

Section Read.
  Variable so : list script -> list script.
  Variable d : dictionary.
  Notation parse_in := (parse_in so d).

  Lemma tokens_in w m : In m (morpheme_tokens w) <-> In (UMorpheme m) w.
  Proof.
    unfold morpheme_tokens. rewrite in_flat_map. split.
    - intros (t & Ht & Hm). destruct t; cbn in Hm; try tauto. destruct Hm as [<-|[]]. exact Ht.
    - intros H. exists (UMorpheme m). split; [exact H|]. now left.
  Qed.
  Lemma known_ok t s : known so d t = Ok s <-> parse so t = Ok s /\ in_dictionary d s = true.
  Proof.
    unfold known. destruct (parse so t) as [x|e]; cbn [bind].
    - destruct (in_dictionary d x) eqn:E; split; intros H; try discriminate.
      + apply Ok_inj in H. subst x. auto.
      + destruct H as (H & _). exact H.
      + destruct H as (H & E'). apply Ok_inj in H. congruence.
    - split; [discriminate|intros (H & _); discriminate].
  Qed.
  Lemma mapM_all {A B} (f : A -> res B) l : (exists r, mapM f l = Ok r) <-> forall x, In x l -> exists y, f x = Ok y.
  Proof.
    induction l as [|a l IH].
    - split; [intros _ x []|intros _; exists []; reflexivity].
    - cbn [mapM]. split.
      + intros (r & H) x Hx. destruct (f a) as [y|e] eqn:E; cbn [bind] in H; [|discriminate].
        destruct (mapM f l) as [r'|e] eqn:E2; cbn [bind] in H; [|discriminate].
        destruct Hx as [<-|Hx]; [eauto|]. apply (proj1 IH); eauto.
      + intros H. destruct (H a) as (y & E); [now left|]. rewrite E. cbn [bind]. destruct (proj2 IH) as (r & E2).
        { intros x Hx. apply H. now right. }
        rewrite E2. cbn [bind]. eauto.
  Qed.
  (** The parser with a dictionary reads what the parser without one reads, if the morphemes are known. *)
  Lemma parse_in_ok t x : parse_in t = Ok x <-> readable so d t x.
  Proof.
    unfold Listing.parse_in, readable, usl_parse. destruct (String.eqb t "") eqn:Et.
    - apply String.eqb_eq in Et. subst t. split; [intros H; split; [exact H|intros m []]|intros (H & _); exact H].
    - destruct (p_proposition (ulex 0 false t)) as [[u ds]|]; [|split; [discriminate|intros (H & _); discriminate]].
      destruct (mapM (known so d) (morpheme_tokens (ulex 0 false t))) as [l|e] eqn:E; cbn [bind].
      + split; [intros H; split; [exact H|]|intros (H & _); exact H].
        intros m Hm. apply tokens_in in Hm. destruct (proj1 (mapM_all (known so d) _) (ex_intro _ l E) m Hm) as (s & Hs).
        apply known_ok in Hs. eauto.
      + split; [destruct e; discriminate|]. intros (_ & H). exfalso.
        destruct (proj2 (mapM_all (known so d) (morpheme_tokens (ulex 0 false t)))) as (r & Hr).
        { intros m Hm. apply tokens_in in Hm. destruct (H m Hm) as (s & Hs). exists s. apply known_ok. exact Hs. }
        rewrite E in Hr. discriminate.
  Qed.

  (** ** The loop *)
  Variable decorated : string -> usl -> list (string * string) -> res entry.
  Hypothesis DEC : decorated_ok decorated.
  Notation new_entry := (new_entry so d decorated).
  Notation list_step := (list_step so d decorated).
  Notation list_rows := (list_rows so d decorated).

  Definition same_head (a b : entry) : Prop :=
    e_ieml a = e_ieml b /\ e_type a = e_type b /\ e_paradigm a = e_paradigm b /\ e_class a = e_class b /\ e_index a = e_index b /\ e_cardinality a = e_cardinality b.

  Lemma new_entry_plain t u e : parse_in t = Ok (u, []) -> new_entry t u [] = Ok e ->
    usl_str u = t /\ e_ieml e = t /\ e_values e = [] /\ exists k, get_index d u = Ok k /\ entry_of so d (fst k) (snd k) (unwrap (fst k) u) = Ok e.
  Proof.
    intros Hp. cbn [Listing.new_entry]. destruct (String.eqb_spec (usl_str u) t) as [Ht|]; [|discriminate].
    intros H. destruct (get_index d u) as [[i r]|x] eqn:E; cbn [bind fst snd] in H; [|discriminate].
    assert (S : usl_str (unwrap i u) = t).
    { destruct u as [s|p|l|w]; cbn [unwrap] in *; try (destruct i; exact Ht). destruct i; [|exact Ht].
      cbn [get_index] in E. destruct (constant p) as [|s [|s' cs]] eqn:Ec; [cbn [unwrap]; rewrite Ec; exact Ht| |].
      - destruct (groups p) as [|g gs] eqn:Eg.
        + cbn [usl_str] in *. unfold pm_str in Ht. rewrite Ec, Eg in Ht. cbn [filter_empty filter map app] in Ht. unfold filter_empty in Ht. cbn [filter] in Ht.
          cbn [unwrap]. rewrite Ec. cbn [usl_str]. match type of Ht with context [if ?b then _ else _] => destruct b end; cbn in Ht; [exact Ht|]. subst t. discriminate Hp.
        + destruct (polymorph_idx d p); discriminate E.
      - assert (X : exists n, (do i <- polymorph_idx d p; Ok (1, "1" ++ int2base i)) = Ok (0, n)) by (destruct (groups p); eauto).
        destruct X as (n & X). destruct (polymorph_idx d p); discriminate X. }
    pose proof H as H0. unfold entry_of in H. destruct (usl_cardinal so (unwrap i u)) as [n|]; cbn [bind] in H; [|discriminate].
    destruct (class_name (unwrap i u)) as [c|]; cbn [bind] in H; [|discriminate]. apply Ok_inj in H. subst e. cbn [e_ieml e_values].
    split; [exact Ht|]. split; [exact S|]. split; [reflexivity|]. exists (i, r). auto.
  Qed.
  Lemma new_entry_head t u ds e : parse_in t = Ok (u, ds) -> new_entry t u ds = Ok e -> e_ieml e = t /\ e_values e = [].
  Proof.
    intros Hp. destruct ds as [|x ds]; intros H.
    - destruct (new_entry_plain _ _ _ Hp H) as (_ & A & B & _). auto.
    - cbn [Listing.new_entry] in H. destruct (DEC _ _ _ _ H) as (A & _ & _ & B). auto.
  Qed.

  Definition good_entry (e : entry) : Prop := forall c x, get_key c (e_values e) = Some x -> map fst x = LANGUAGES.
  Lemma set_key_keys {A} (k : string) (v : A) l : In k (map fst l) -> map fst (set_key k v l) = map fst l.
  Proof.
    induction l as [|[k' v'] l IH]; [intros []|]. cbn [set_key map fst In]. destruct (String.eqb_spec k k') as [<-|N]; [reflexivity|].
    intros [E|H]; [congruence|]. cbn [map fst]. now rewrite IH.
  Qed.
  Lemma set_key_new {A} (k : string) (v : A) l : ~ In k (map fst l) -> map fst (set_key k v l) = (map fst l ++ [k])%list.
  Proof.
    induction l as [|[k' v'] l IH]; [reflexivity|]. cbn [set_key map fst In]. intros N. destruct (String.eqb_spec k k') as [E|_]; [destruct N; now left|].
    cbn [map fst app]. rewrite IH; [reflexivity|]. intros H. apply N. now right.
  Qed.
  Lemma add_value_spec e c l v : good_entry e ->
    (forall e', add_value e c l v = Ok e' ->
       same_head e' e /\ good_entry e' /\
       (forall c' l', listed_values e' c' l' = (listed_values e c' l' ++ (if (String.eqb l l' && String.eqb c c')%bool then [v] else []))%list) /\
       (forall c', get_key c' (e_values e') <> None <-> c' = c \/ get_key c' (e_values e) <> None)) /\
    ((exists e', add_value e c l v = Ok e') <-> In l LANGUAGES /\ ~ In c RESERVED).
  Proof.
    intros G. unfold add_value. set (langs := match get_key c (e_values e) with Some x => x | None => map (fun l => (l, [])) LANGUAGES end).
    assert (Hl : map fst langs = LANGUAGES). { unfold langs. destruct (get_key c (e_values e)) as [x|] eqn:E; [exact (G _ _ E)|reflexivity]. }
    assert (Hr : memb String.eqb c RESERVED = true <-> In c RESERVED).
    { unfold memb. rewrite existsb_exists. split; [intros (x & H & E); apply String.eqb_eq in E; subst; exact H|intros H; exists c; split; [exact H|apply String.eqb_refl]]. }
    destruct (memb String.eqb c RESERVED) eqn:Em.
    - split; [discriminate|]. split; [intros (e' & H); discriminate|]. intros (_ & N). exfalso. apply N, Hr. reflexivity.
    - assert (Nr : ~ In c RESERVED). { intros H. apply Hr in H. discriminate. }
      destruct (get_key l langs) as [vs|] eqn:El.
      + assert (Il : In l LANGUAGES). { rewrite <- Hl. apply get_key_in in El. change l with (fst (l, vs)). now apply in_map. }
        split; [|split; [auto|eauto]]. intros e' H. apply Ok_inj in H. subst e'. split; [repeat split|]. split; [|split].
        * intros c' x. cbn [e_values]. rewrite get_set. destruct (String.eqb_spec c c') as [<-|N]; [|apply G].
          intros H. injection H as <-. rewrite set_key_keys; [exact Hl|]. rewrite Hl. exact Il.
        * intros c' l'. unfold listed_values. cbn [e_values]. rewrite get_set. destruct (String.eqb_spec c c') as [<-|N].
          -- rewrite get_set. rewrite andb_true_r. fold langs in El. destruct (String.eqb_spec l l') as [<-|Nl].
             ++ assert (X : vs = match get_key c (e_values e) with Some x => match get_key l x with Some v => v | None => [] end | None => [] end).
                { unfold langs in El. destruct (get_key c (e_values e)) as [x|]; [now rewrite El|].
                  apply get_key_in in El. apply in_map_iff in El as (k & Ek & _). congruence. }
                rewrite <- X. reflexivity.
             ++ rewrite app_nil_r. unfold langs. destruct (get_key c (e_values e)) as [x|]; [reflexivity|].
                destruct (get_key l' (map (fun l => (l, [])) LANGUAGES)) as [v'|] eqn:E'; [|reflexivity].
                apply get_key_in in E'. apply in_map_iff in E' as (k & Ek & _). congruence.
          -- rewrite andb_false_r, app_nil_r. reflexivity.
        * intros c'. cbn [e_values]. rewrite get_set. destruct (String.eqb_spec c c') as [<-|N].
          -- split; [auto|discriminate].
          -- split; [auto|]. intros [E|H]; [congruence|exact H].
      + split; [discriminate|]. split; [intros (e' & H); discriminate|]. intros (Il & _). exfalso.
        apply get_key_none in El. rewrite Hl in El. contradiction.
  Qed.

  (** What has been listed for a text: the head of its entry *)
  Definition started (t : string) (e : entry) : Prop :=
    exists u ds e0, parse_in t = Ok (u, ds) /\ new_entry t u ds = Ok e0 /\ same_head e e0.
  Definition sound (acc : list (string * entry)) : Prop :=
    NoDup (map fst acc) /\ forall t e, In (t, e) acc -> started t e /\ good_entry e.
  Definition is_row (t l c : string) (r : string * string * string * string) : bool :=
    let '(t', l', c', _) := r in (String.eqb t' t && String.eqb l' l && String.eqb c' c)%bool.
  Definition values_in (acc : list (string * entry)) (t c l : string) : list (option string) :=
    match get_key t acc with Some e => listed_values e c l | None => [] end.
  Definition has_class (acc : list (string * entry)) (t c : string) : Prop :=
    exists e, get_key t acc = Some e /\ get_key c (e_values e) <> None.
  (** The row can be read into the list. *)
  Definition row_ok (r : string * string * string * string) : Prop :=
    let '(t, l, c, _) := r in
    match parse_in t with
    | Err CannotParse => True
    | Err _ => False
    | Ok (u, ds) => (exists e, new_entry t u ds = Ok e) /\ In l LANGUAGES /\ ~ In c RESERVED
    end.

  Lemma same_head_trans a b c : same_head a b -> same_head b c -> same_head a c.
  Proof. unfold same_head. intuition congruence. Qed.
  Lemma listed_none e c l : e_values e = [] -> listed_values e c l = [].
  Proof. unfold listed_values. intros ->. reflexivity. Qed.
  Lemma sound_set acc t e : sound acc -> started t e -> good_entry e -> sound (set_key t e acc).
  Proof.
    intros (N & H) S G. split; [apply set_key_nodup, N|]. intros t' e' I. apply set_key_in in I as [E|I]; [injection E as -> ->; auto|auto].
  Qed.
  Lemma step_spec acc t l c v : sound acc ->
    (forall acc', list_step acc (t, l, c, v) = Ok acc' ->
       sound acc' /\
       ((acc' = acc /\ get_key t acc = None /\ forall x, parse_in t <> Ok x) \/
        (exists e', acc' = set_key t e' acc /\ (exists x, parse_in t = Ok x) /\
           (forall c' l', listed_values e' c' l' = (values_in acc t c' l' ++ (if (String.eqb l l' && String.eqb c c')%bool then [pandas_cell v] else []))%list) /\
           (forall c', get_key c' (e_values e') <> None <-> c' = c \/ has_class acc t c')))) /\
    ((exists acc', list_step acc (t, l, c, v) = Ok acc') <-> row_ok (t, l, c, v)).
  Proof.
    intros S. cbn [Listing.list_step row_ok]. unfold values_in, has_class. destruct (get_key t acc) as [e|] eqn:Eg.
    - pose proof (get_key_in _ _ _ Eg) as I. destruct (proj2 S t e I) as ((u & ds & e0 & Hp & Hn & Hh) & G).
      destruct (add_value_spec e c l (pandas_cell v) G) as (A & B). rewrite Hp. split.
      + intros acc' H. destruct (add_value e c l (pandas_cell v)) as [e'|x] eqn:Ea; cbn [bind] in H; [|discriminate]. apply Ok_inj in H. subst acc'.
        destruct (A e' eq_refl) as (Hh' & G' & Hv & Hc). split.
        * apply sound_set; [exact S| |exact G']. exists u, ds, e0. split; [exact Hp|]. split; [exact Hn|]. eapply same_head_trans; eauto.
        * right. exists e'. split; [reflexivity|]. split; [eauto|]. split; [exact Hv|]. intros c'. rewrite Hc. split; (intros [?|X]; [auto|right]); [eauto|].
          destruct X as (e1 & E1 & X). congruence.
      + split.
        * intros (acc' & H). destruct (add_value e c l (pandas_cell v)) as [e'|x] eqn:Ea; cbn [bind] in H; [|discriminate].
          split; [eauto|]. apply B. eauto.
        * intros (_ & H). apply B in H as (e' & H). rewrite H. cbn [bind]. eauto.
    - destruct (parse_in t) as [[u ds]|x] eqn:Hp.
      + destruct (new_entry t u ds) as [e|x] eqn:Hn; cbn [bind].
        * destruct (new_entry_head _ _ _ _ Hp Hn) as (Ht & Hv0).
          assert (G : good_entry e). { intros c' x. rewrite Hv0. discriminate. }
          destruct (add_value_spec e c l (pandas_cell v) G) as (A & B). split.
          -- intros acc' H. destruct (add_value e c l (pandas_cell v)) as [e'|x] eqn:Ea; cbn [bind] in H; [|discriminate]. apply Ok_inj in H. subst acc'.
             destruct (A e' eq_refl) as (Hh' & G' & Hv & Hc). split.
             ++ apply sound_set; [exact S| |exact G']. exists u, ds, e. auto.
             ++ right. exists e'. split; [reflexivity|]. split; [eauto|]. split.
                ** intros c' l'. rewrite Hv, listed_none by exact Hv0. reflexivity.
                ** intros c'. rewrite Hc, Hv0. split; (intros [?|X]; [auto|]); [now destruct X|]. destruct X as (e1 & E1 & _). discriminate.
          -- split.
             ++ intros (acc' & H). destruct (add_value e c l (pandas_cell v)) as [e'|x] eqn:Ea; cbn [bind] in H; [|discriminate].
                split; [eauto|]. apply B. eauto.
             ++ intros (_ & H). apply B in H as (e' & H). rewrite H. cbn [bind]. eauto.
        * split; [discriminate|]. split; [intros (a & H); discriminate|]. intros ((e & H) & _). discriminate.
      + assert (X : x = CannotParse \/ x <> CannotParse) by (destruct x; auto; right; discriminate).
        destruct X as [->|X].
        * split; [|split; [auto|eauto]]. intros acc' H. apply Ok_inj in H. subst acc'. split; [exact S|]. left. split; [reflexivity|]. split; [reflexivity|]. discriminate.
        * split; [destruct x; try discriminate; contradiction|]. split; [intros (a & H); destruct x; try discriminate; contradiction|].
          intros H. destruct x; contradiction.
  Qed.

  Lemma rows_spec rows : forall acc, sound acc ->
    (forall acc', list_rows acc rows = Ok acc' ->
       sound acc' /\
       (forall t, In t (map fst acc') <-> In t (map fst acc) \/ (described rows t /\ exists x, parse_in t = Ok x)) /\
       (forall t, In t (map fst acc') -> forall c l, values_in acc' t c l = (values_in acc t c l ++ described_by rows t l c)%list) /\
       (forall t, In t (map fst acc') -> forall c, has_class acc' t c <-> has_class acc t c \/ exists l v, In (t, l, c, v) rows)) /\
    ((exists acc', list_rows acc rows = Ok acc') <-> Forall row_ok rows).
  Proof.
    induction rows as [|[[[t l] c] v] rows IH]; intros acc S.
    - split.
      + intros acc' H. apply Ok_inj in H. subst acc'. split; [exact S|]. split; [|split].
        * intros t. split; [auto|]. intros [H|((l & c & v & []) & _)]. exact H.
        * intros t _ c l. unfold described_by. cbn. now rewrite app_nil_r.
        * intros t _ c. split; [auto|]. intros [H|(l & v & [])]. exact H.
      + split; [constructor|]. intros _. exists acc. reflexivity.
    - destruct (step_spec acc t l c v S) as (A & B). cbn [Listing.list_rows]. split.
      + intros acc' H. destruct (list_step acc (t, l, c, v)) as [acc1|x] eqn:E; cbn [bind] in H; [|discriminate].
        destruct (A acc1 eq_refl) as (S1 & C). destruct (IH acc1 S1) as (D & _). destruct (D acc' H) as (S' & K & V & Hc). clear D IH A B.
        split; [exact S'|]. 
        assert (Kacc : forall t', In t' (map fst acc1) <-> In t' (map fst acc) \/ (t' = t /\ exists x, parse_in t = Ok x)).
        { intros t'. destruct C as [(-> & _ & N)|(e' & -> & P & _)].
          - split; [auto|]. intros [?|(_ & x & P)]; [auto|]. now apply N in P.
          - rewrite set_key_fst. intuition. }
        split; [|split].
        * intros t'. rewrite K, Kacc. split.
          -- intros [[?|(-> & P)]|((l' & c' & v' & I) & P)]; [auto| |]; right; (split; [|exact P]).
             ++ exists l, c, v. now left.
             ++ exists l', c', v'. now right.
          -- intros [?|((l' & c' & v' & [I|I]) & P)]; [auto| |].
             ++ injection I as <- _ _ _. auto.
             ++ right. split; [exists l', c', v'; exact I|exact P].
        * intros t' I' c' l'. rewrite (V t' I'). unfold described_by. cbn [filter].
          destruct C as [(-> & _ & N)|(e' & -> & P & Hv & _)].
          -- assert (t' <> t). { intros ->. apply K in I' as [I'|(_ & x & P)]; [|now apply N in P].
               apply in_map_iff in I' as ([k e] & Ek & I'). cbn [fst] in Ek. subst k. destruct (proj2 S t e I') as ((u & ds & e0 & P & _) & _). now apply N in P. }
             destruct (String.eqb_spec t t'); [congruence|]. reflexivity.
          -- unfold values_in at 1. rewrite get_set. destruct (String.eqb_spec t t') as [<-|Nt].
             ++ rewrite Hv. cbn [andb]. rewrite <- app_assoc. destruct (String.eqb l l' && String.eqb c c')%bool; reflexivity.
             ++ reflexivity.
        * intros t' I' c'. rewrite (Hc t' I').
          destruct C as [(-> & _ & N)|(e' & -> & P & _ & Hk)].
          -- assert (Nt : t' <> t). { intros ->. apply K in I' as [I'|(_ & x & P)]; [|now apply N in P].
               apply in_map_iff in I' as ([k e] & Ek & I'). cbn [fst] in Ek. subst k. destruct (proj2 S t e I') as ((u & ds & e0 & P & _) & _). now apply N in P. }
             split; (intros [?|(l' & v' & I)]; [auto|right]); exists l', v'; [now right|]. destruct I as [I|I]; [congruence|exact I].
          -- unfold has_class at 1. rewrite get_set. destruct (String.eqb_spec t t') as [<-|Nt].
             ++ split.
                ** intros [(e1 & E1 & X)|(l' & v' & I)]; [|right; exists l', v'; now right]. injection E1 as <-. apply Hk in X as [->|X]; [|auto]. right. exists l, v. now left.
                ** intros [X|(l' & v' & [I|I])]; [left; exists e'; split; [reflexivity|]; apply Hk; auto| |right; eauto].
                   injection I as _ <- _. left. exists e'. split; [reflexivity|]. apply Hk. auto.
             ++ split; (intros [?|(l' & v' & I)]; [auto|right]); exists l', v'; [now right|]. destruct I as [I|I]; [congruence|exact I].
      + split.
        * intros (acc' & H). destruct (list_step acc (t, l, c, v)) as [acc1|x] eqn:E; cbn [bind] in H; [|discriminate].
          constructor; [apply B; eauto|]. destruct (A acc1 eq_refl) as (S1 & _). apply (proj2 (IH acc1 S1)). eauto.
        * intros F. apply Forall_cons_iff in F as (F1 & F). apply B in F1 as (acc1 & E). rewrite E. cbn [bind].
          destruct (A acc1 E) as (S1 & _). apply (proj2 (IH acc1 S1)), F.
  Qed.
End Read.

(** * The order of the list *)
Lemma stable_lex {A} (key : A -> string) (R : A -> A -> Prop) (l : list A) : StronglySorted R l ->
  StronglySorted (fun a b => string_lt (key a) (key b) = true \/ (key a = key b /\ R a b)) (sort (fun a b => string_lt (key a) (key b)) l).
Proof.
  set (lt := fun a b => string_lt (key a) (key b)). set (Q := fun a b => string_lt (key a) (key b) = true \/ (key a = key b /\ R a b)).
  assert (I : forall x l, Forall (R x) l -> StronglySorted Q l -> StronglySorted Q (insert lt x l)).
  { intros x l0 F S. induction S as [|y l0 S IH Hy]; [repeat constructor|]. apply Forall_cons_iff in F as (Rxy & F). cbn [insert].
    unfold lt at 1. destruct (string_lt (key y) (key x)) eqn:E.
    - constructor; [apply IH, F|]. apply (Permutation_Forall (Permutation_sym (insert_perm lt x l0))). constructor; [now left|exact Hy].
    - constructor; [constructor; assumption|]. 
      assert (W : forall z, R x z -> string_lt (key z) (key x) = false -> Q x z).
      { intros z Rz Ez. destruct (string_lt (key x) (key z)) eqn:E2; [now left|]. right. split; [apply string_lt_total; assumption|exact Rz]. }
      constructor; [apply W; assumption|]. rewrite Forall_forall in *. intros z Hz. apply W; [auto|]. specialize (Hy z Hz). 
      apply string_le_trans with (b := key y); [exact E|]. destruct Hy as [Hy|(Hy & _)].
      + destruct (string_lt (key z) (key y)) eqn:E3; [|reflexivity]. rewrite <- (string_lt_irrefl (key y)). symmetry. eapply string_lt_trans; eassumption.
      + rewrite Hy. apply string_lt_irrefl. }
  intros S. induction S as [|x l S IH Hx]; [constructor|]. cbn [sort]. apply I; [|exact IH].
  apply (Permutation_Forall (Permutation_sym (sort_perm lt l))). exact Hx.
Qed.

Definition text_of (r : string * string * string * string) : string := fst (fst (fst r)).
Lemma row4_text x y : row4_lt y x = false -> string_lt (text_of y) (text_of x) = false.
Proof.
  destruct x as [[[i k] c] v], y as [[[j l] c'] v']. unfold row4_lt, text_of. cbn [fst]. intros H. apply orb_false_iff in H as (H & _). exact H.
Qed.
Lemma row4_irr a : row4_lt a a = false.
Proof. destruct a as [[[i k] c] v]. unfold row4_lt. rewrite !string_lt_irrefl. rewrite !andb_false_r. reflexivity. Qed.
(** Lexicographic orders *)
Definition lex (a b : string) (x : bool) : bool := (string_lt a b || (String.eqb a b && x))%bool.
Lemma lex_false a b x : lex a b x = false <-> string_lt a b = false /\ (a = b -> x = false).
Proof.
  unfold lex. destruct (string_lt a b) eqn:E; cbn [orb]; [split; [discriminate|intros (H & _); discriminate]|].
  destruct (String.eqb_spec a b); cbn [andb]; intuition.
Qed.
Lemma lex_true a b x : lex a b x = true <-> string_lt a b = true \/ (a = b /\ x = true).
Proof.
  unfold lex. destruct (string_lt a b) eqn:E; cbn [orb]; [intuition|].
  destruct (String.eqb_spec a b); cbn [andb]; intuition; discriminate.
Qed.
Lemma lex_trans a b c x y z : (x = true -> y = true -> z = true) -> lex a b x = true -> lex b c y = true -> lex a c z = true.
Proof.
  intros H. rewrite !lex_true. intros [A|(-> & A)] [B|(-> & B)]; auto. left. eapply string_lt_trans; eauto.
Qed.
Lemma lex_neg a b c x y z : (x = false -> y = false -> z = false) -> lex b a x = false -> lex c b y = false -> lex c a z = false.
Proof.
  intros H. rewrite !lex_false. intros (A & A') (B & B'). split; [eapply string_le_trans; eauto|]. intros ->.
  assert (a = b) by (apply string_lt_total; assumption). subst. auto.
Qed.
Lemma row4_lex x y : row4_lt x y = let '(i, k, c, _) := x in let '(j, l, c', _) := y in lex i j (lex k l (string_lt c c')).
Proof. destruct x as [[[i k] c] v], y as [[[j l] c'] v']. reflexivity. Qed.
Lemma rows_sorted rows : StronglySorted (fun x y => string_lt (text_of y) (text_of x) = false) (sort row4_lt rows).
Proof.
  assert (S : StronglySorted (fun x y => row4_lt y x = false) (sort row4_lt rows)).
  { apply (sort_sorted row4_lt (fun _ => True)).
    - intros [[[i k] c] v] [[[i' k'] c'] v'] [[[i2 k2] c2] v2] _ _ _. rewrite !row4_lex. apply lex_trans. apply lex_trans. apply string_lt_trans.
    - apply row4_irr.
    - intros [[[i k] c] v] [[[i' k'] c'] v'] [[[i2 k2] c2] v2] _ _ _. rewrite !row4_lex. apply lex_neg. apply lex_neg. intros A B. eapply string_le_trans; eauto.
    - apply Forall_forall. auto. }
  induction S as [|x l S IH Hx]; constructor; [exact IH|]. eapply Forall_impl; [|exact Hx]. intros y. apply row4_text.
Qed.

Section Order.
  Variable so : list script -> list script.
  Variable d : dictionary.
  Variable decorated : string -> usl -> list (string * string) -> res entry.
  Hypothesis DEC : decorated_ok decorated.
  Notation sound := (sound so d decorated).

  Definition keys_before (rows : list (string * string * string * string)) (acc : list (string * entry)) : Prop :=
    StronglySorted (fun a b => string_lt a b = true) (map fst acc) /\ forall r k, In r rows -> In k (map fst acc) -> string_lt (text_of r) k = false.
  Lemma sorted_snoc {A} (R : A -> A -> Prop) l x : StronglySorted R l -> Forall (fun a => R a x) l -> StronglySorted R (l ++ [x]).
  Proof.
    induction 1 as [|y l S IH Hy]; intros F; [repeat constructor|]. apply Forall_cons_iff in F as (F1 & F). cbn [app]. constructor; [auto|].
    apply Forall_app. auto.
  Qed.
  Lemma rows_keys rows : forall acc acc', sound acc -> StronglySorted (fun x y => string_lt (text_of y) (text_of x) = false) rows -> keys_before rows acc ->
    list_rows so d decorated acc rows = Ok acc' -> StronglySorted (fun a b => string_lt a b = true) (map fst acc').
  Proof.
    induction rows as [|[[[t l] c] v] rows IH]; intros acc acc' S Hs (K1 & K2) H.
    - apply Ok_inj in H. subst. exact K1.
    - cbn [list_rows] in H. destruct (list_step so d decorated acc (t, l, c, v)) as [acc1|x] eqn:E; cbn [bind] in H; [|discriminate].
      destruct (proj1 (step_spec so d decorated DEC acc t l c v S) acc1 E) as (S1 & C). inversion Hs as [|? ? Hs' Hr]; subst.
      refine (IH acc1 acc' S1 Hs' _ H). rewrite Forall_forall in Hr. split.
      + destruct C as [(-> & _)|(e' & -> & _)]; [exact K1|]. destruct (in_dec string_dec t (map fst acc)) as [I|N].
        * rewrite set_key_keys by exact I. exact K1.
        * rewrite set_key_new by exact N. apply sorted_snoc; [exact K1|]. apply Forall_forall. intros k Hk.
          specialize (K2 (t, l, c, v) k (or_introl eq_refl) Hk). unfold text_of in K2. cbn [fst] in K2.
          destruct (string_lt k t) eqn:E2; [reflexivity|]. exfalso. apply N. rewrite (string_lt_total t k K2 E2). exact Hk.
      + intros r k Ir Ik. destruct C as [(-> & _)|(e' & -> & _)]; [apply K2; [now right|exact Ik]|].
        apply set_key_fst in Ik as [->|Ik]; [|apply K2; [now right|exact Ik]]. apply (Hr r Ir).
  Qed.
End Order.

(** * The fields *)
Lemma maxl_lt l : Forall (fun n => n < 3) l -> maxl l < 3.
Proof. unfold maxl. induction 1 as [|x l Hx _ IH]; cbn [fold_right]; lia. Qed.
Lemma script_class_lt s : script_class s < 3.
Proof.
  induction s as [l|p|a b c IHa IHb IHc|cs IH] using script_ind'; cbn [script_class]; [lia|destruct p; lia|exact IHa|].
  apply maxl_lt. apply Forall_map. exact IH.
Qed.
Lemma pm_class_lt p : pm_class p < 3.
Proof. unfold pm_class. apply maxl_lt, Forall_map, Forall_forall. intros s _. apply script_class_lt. Qed.
Lemma class_named n : n < 3 -> exists c, nth_error CLASS_NAMES n = Some c.
Proof. intros H. destruct n as [|[|[|n]]]; cbn; eauto; lia. Qed.

Lemma index_some x l i : Tables.index_of x l = Ok i -> i < List.length l /\ exists y, nth_error l i = Some y /\ str y = str x.
Proof.
  unfold Tables.index_of. destruct (find _ _) as [[i' y]|] eqn:E; [|discriminate]. intros H. apply Ok_inj in H. subst i'.
  apply find_some in E as (I & E). apply in_rev in I. cbn [snd] in E. apply String.eqb_eq in E.
  assert (N : nth_error l i = Some y).
  { assert (X : forall l k i (y : script), In (i, y) (combine (seq k (List.length l)) l) -> k <= i /\ nth_error l (i - k) = Some y).
    { clear. induction l as [|a l IH]; intros k i y; [intros []|]. cbn [List.length seq combine In]. intros [H|H].
      - injection H as <- <-. split; [lia|]. now rewrite Nat.sub_diag.
      - apply IH in H as (L & H). split; [lia|]. replace (i - k) with (S (i - S k)) by lia. exact H. }
    destruct (X l 0 i y I) as (_ & N). now rewrite Nat.sub_0_r in N. }
  split; [apply nth_error_Some; congruence|eauto].
Qed.
Lemma index_ok x l : (exists i, Tables.index_of x l = Ok i) <-> memb script_eqb x l = true.
Proof.
  split.
  - intros (i & H). apply index_some in H as (_ & y & N & E). apply nth_error_In in N. unfold memb. apply existsb_exists. exists y. split; [exact N|].
    unfold script_eqb. rewrite E. apply String.eqb_refl.
  - intros H. unfold memb in H. apply existsb_exists in H as (y & I & E). unfold Tables.index_of. destruct (find _ _) as [[i z]|] eqn:F; [eauto|]. exfalso.
    assert (X : exists i, In (i, y) (combine (seq 0 (List.length l)) l)).
    { generalize 0 as k. revert I. clear. induction l as [|a l IH]; intros I k; [destruct I|]. cbn [List.length seq combine]. destruct I as [->|I].
      - exists k. now left.
      - destruct (IH I (S k)) as (i & H). exists i. now right. }
    destruct X as (i & X). apply in_rev in X. apply (find_none _ _ F) in X. cbn [snd] in X. unfold script_eqb in *. apply String.eqb_eq in E. rewrite E, String.eqb_refl in X. discriminate.
Qed.

Section Fields.
  Variable so : list script -> list script.
  Variable d : dictionary.
  Variable decorated : string -> usl -> list (string * string) -> res entry.
  Hypothesis DEC : decorated_ok decorated.
  Notation parse_in := (parse_in so d).

  Definition single (p : pm) : bool := match constant p, groups p with [_], [] => true | _, _ => false end.
  Lemma entry_ok i r u : (exists e, entry_of so d i r u = Ok e) <-> match u with UWord _ => False | _ => True end.
  Proof.
    unfold entry_of. destruct u as [s|p|l|w]; cbn [usl_cardinal class_name bind].
    - destruct (class_named _ (script_class_lt s)) as (c & ->). cbn [bind]. split; eauto.
    - destruct (class_named _ (pm_class_lt p)) as (c & ->). cbn [bind]. split; eauto.
    - destruct (class_named _ (pm_class_lt (pm_content l))) as (c & ->). cbn [bind]. split; eauto.
    - split; [|intros []]. intros (e & H). destruct (word_ss so w); discriminate.
  Qed.
  Lemma get_index_pm p : get_index d (UPm p) =
    if single p then (do i <- Dictionary.idx (d_scripts d) (hd (Null 0) (constant p)); Ok (0, "0" ++ int2base (N.of_nat i)))
    else (do i <- polymorph_idx d p; Ok (1, "1" ++ int2base i)).
  Proof. cbn [get_index]. unfold single. destruct (constant p) as [|s [|s' cs]], (groups p); reflexivity. Qed.
  Lemma polymorph_ok p : (exists n, polymorph_idx d p = Ok n) <-> Forall (fun s => in_dictionary d s = true) (constant p).
  Proof.
    unfold polymorph_idx. rewrite Forall_forall. split.
    - intros (n & H) s Hs. destruct (mapM (Dictionary.idx (d_scripts d)) (constant p)) as [l|e] eqn:E; [|discriminate].
      apply index_ok. apply (proj1 (mapM_all (Dictionary.idx (d_scripts d)) (constant p)) (ex_intro _ l E) s Hs).
    - intros H. destruct (proj2 (mapM_all (Dictionary.idx (d_scripts d)) (constant p))) as (l & E).
      { intros s Hs. apply index_ok. apply H, Hs. }
      rewrite E. cbn [bind]. eauto.
  Qed.
  Lemma new_entry_ok t u : (exists e, new_entry so d decorated t u [] = Ok e) <-> usl_str u = t /\ listable d u.
  Proof.
    cbn [new_entry]. destruct (String.eqb_spec (usl_str u) t) as [Et|N]; [|split; [intros (e & H); discriminate|intros (H & _); contradiction]].
    assert (X : (exists e, (do k <- get_index d u; entry_of so d (fst k) (snd k) (unwrap (fst k) u)) = Ok e) <-> listable d u); [|intuition].
    destruct u as [s|p|l|w].
    - cbn [get_index listable]. split.
      + intros (e & H). destruct (Dictionary.idx (d_scripts d) s) as [i|] eqn:E; cbn [bind] in H; [|discriminate]. apply index_ok. exists i. exact E.
      + intros H. apply index_ok in H as (i & H). unfold Dictionary.idx. rewrite H. cbn [bind fst snd unwrap]. apply entry_ok. exact Logic.I.
    - rewrite get_index_pm. cbn [listable]. destruct (single p) eqn:Es.
      + unfold single in Es. destruct (constant p) as [|s [|s' cs]] eqn:Ec, (groups p) eqn:Eg; try discriminate. cbn [hd]. split.
        * intros (e & H). destruct (Dictionary.idx (d_scripts d) s) as [i|] eqn:E; cbn [bind] in H; [|discriminate]. constructor; [|constructor]. apply index_ok. exists i. exact E.
        * intros H. apply Forall_cons_iff in H as (H & _). apply index_ok in H as (i & H). unfold Dictionary.idx. rewrite H. cbn [bind fst snd unwrap]. rewrite Ec. apply entry_ok. exact Logic.I.
      + rewrite <- polymorph_ok. split.
        * intros (e & H). destruct (polymorph_idx d p) as [i|] eqn:E; cbn [bind] in H; [|discriminate]. eauto.
        * intros (n & ->). cbn [bind fst snd unwrap]. apply entry_ok. exact Logic.I.
    - cbn [get_index bind fst snd unwrap listable]. rewrite entry_ok. tauto.
    - cbn [get_index bind fst snd unwrap listable]. rewrite entry_ok. tauto.
  Qed.

  (** The type and the key of an entry *)
  Definition kind (t : string) (u : usl) (ds : list (string * string)) (e : entry) : Prop :=
    (e_type e = "morpheme" /\ exists s i, str s = t /\ Dictionary.idx (d_scripts d) s = Ok i /\ e_index e = "0" ++ int2base (N.of_nat i)) \/
    (e_type e = "polymorpheme" /\ exists p n, u = UPm p /\ ds = [] /\ single p = false /\ polymorph_idx d p = Ok n /\ e_index e = "1" ++ int2base n) \/
    (e_type e = "word" /\ e_index e = "3" ++ int2base 0).
  Lemma started_kind t e : started so d decorated t e -> exists u ds, parse_in t = Ok (u, ds) /\ kind t u ds e.
  Proof.
    intros (u & ds & e0 & Hp & Hn & (H1 & H2 & _ & _ & H5 & _)). exists u, ds. split; [exact Hp|]. unfold kind. rewrite H2, H5. clear e H1 H2 H5.
    destruct ds as [|x ds].
    - destruct (new_entry_plain so d decorated t u e0 Hp Hn) as (Ht & He & _ & (k & Hk & He0)).
      assert (F : e_type e0 = nth (fst k) TYPES "" /\ e_index e0 = snd k /\ e_ieml e0 = usl_str (unwrap (fst k) u)).
      { unfold entry_of in He0. destruct (usl_cardinal so (unwrap (fst k) u)) as [n|]; cbn [bind] in He0; [|discriminate].
        destruct (class_name (unwrap (fst k) u)) as [c|]; cbn [bind] in He0; [|discriminate]. apply Ok_inj in He0. subst e0. auto. }
      destruct F as (-> & -> & Hi). destruct u as [s|p|l|w].
      + cbn [get_index] in Hk. destruct (Dictionary.idx (d_scripts d) s) as [i|] eqn:E; cbn [bind] in Hk; [|discriminate]. apply Ok_inj in Hk. subst k. cbn [fst snd].
        left. split; [reflexivity|]. exists s, i. auto.
      + rewrite get_index_pm in Hk. destruct (single p) eqn:Es.
        * left. destruct (Dictionary.idx (d_scripts d) (hd (Null 0) (constant p))) as [i|] eqn:E; cbn [bind] in Hk; [|discriminate]. apply Ok_inj in Hk. subst k. cbn [fst snd] in *.
          split; [reflexivity|]. exists (hd (Null 0) (constant p)), i. split; [|auto]. unfold single in Es. destruct (constant p) as [|s [|s' cs]] eqn:Ec; try discriminate.
          cbn [unwrap] in Hi. rewrite Ec in Hi. cbn [usl_str hd] in *. congruence.
        * right. left. destruct (polymorph_idx d p) as [n|] eqn:E; cbn [bind] in Hk; [|discriminate]. apply Ok_inj in Hk. subst k. cbn [fst snd]. split; [reflexivity|]. exists p, n. auto.
      + right. right. cbn [get_index] in Hk. apply Ok_inj in Hk. subst k. auto.
      + exfalso. cbn [get_index] in Hk. apply Ok_inj in Hk. subst k. cbn [fst snd unwrap] in He0. apply (proj1 (entry_ok 2 ("2" ++ int2base 0) (UWord w))). eauto.
    - right. right. cbn [new_entry] in Hn. destruct (DEC _ _ _ _ Hn) as (_ & A & B & _). rewrite A, B. split; [reflexivity|]. vm_compute. reflexivity.
  Qed.

  Lemma number_inj b : forall l l', Forall (fun i => (N.of_nat i < b)%N) l -> Forall (fun i => (N.of_nat i < b)%N) l' -> List.length l = List.length l' ->
    number b l = number b l' -> l = l'.
  Proof.
    induction l as [|i l IH]; intros [|j l'] F F' L E; try discriminate; [reflexivity|]. apply Forall_cons_iff in F as (Fi & F). apply Forall_cons_iff in F' as (Fj & F').
    cbn [number] in E. assert (B : b <> 0%N) by lia.
    assert (X : N.of_nat i = N.of_nat j).
    { apply (f_equal (fun n => N.modulo n b)) in E. rewrite !(N.mul_comm b), !N.mod_add in E by exact B. rewrite !N.mod_small in E by assumption. exact E. }
    f_equal; [lia|]. apply IH; [exact F|exact F'|cbn [List.length] in L; lia|]. nia.
  Qed.
  Lemma number_bound b l : Forall (fun i => (N.of_nat i < b)%N) l -> (number b l < b ^ N.of_nat (List.length l))%N \/ l = [].
  Proof.
    induction 1 as [|i l Hi F IH]; [now right|]. left. cbn [number List.length]. rewrite Nat2N.inj_succ, N.pow_succ_r'. destruct IH as [IH|E]; [nia|].
    subst l. cbn. nia.
  Qed.
End Fields.
