(** C86: the selections of variable parts listed by enumerate_partitions. *)
From Coq Require Import List String Bool Arith NArith.
From Verif Require Import Base Script ScriptParser Usl UslSpec Sfun SfunProofs SfunListProofs SfunWordProofs SfunSpec Properties9 UslParser Path PathSpec PathProofs PathAlgProofs PathDerefProofs Instance UslTable MemberSpec MemberProofs Properties11 Partitions PartitionsSpec PartitionsProofs.
Import ListNotations.
Local Open Scope list_scope.

Lemma snode_selection so u t l : (forall n, snode t n <-> part so u n) -> (valid t l <-> selection so u l).
Proof. intros H. unfold valid, selection, antichain. split; intros (N & S & A); (split; [exact N|split; [|exact A]]); intros n Hn; now apply H, S. Qed.

(** For every USL and every order of sets: the lists given are exactly the sets of parts none of which is in
    another, each set once; the number given is that of the smallest parts. *)
Theorem C86_selections : forall so u d R, enumerate_partitions so u = Ok (d, R) ->
  (forall r, In r R -> selection so u (map texts r)) /\
  (forall l, selection so u l -> exists r, In r R /\ same_set (map texts r) l) /\
  ForallOrdPairs (fun a b => ~ same_set (map texts a) (map texts b)) R /\
  (exists leaves, NoDup leaves /\ List.length leaves = d /\ forall a, In a leaves <-> smallest so u a).
Proof.
  intros so u d R E. destruct (enumerate_spec so u d R E) as (t & U & N & ER & ->). destruct (sparts_exact t U) as (V & C & D). rewrite <- ER in V, C, D.
  split; [|split; [|split]].
  - intros r Hr. apply (snode_selection so u t); auto. apply V. now apply in_map.
  - intros l Hl. apply (snode_selection so u t) in Hl; auto. destruct Hl as (_ & S & A). destruct (C l S A) as (r & Hr & Er). apply in_map_iff in Hr. destruct Hr as (r0 & <- & Hr). eauto.
  - clear - D. induction R as [|r R IH]; [constructor|]. inversion D as [|? ? F D']; subst. constructor; auto. rewrite Forall_map in F. exact F.
  - destruct (sleaves_spec t U) as (ND & S). exists (sleaves t). split; [exact ND|]. split; [symmetry; apply scount_leaves|]. intros a. rewrite S. unfold maximal, smallest. rewrite N.
    split; intros (Ha & M); (split; [exact Ha|]); intros b Hb; apply M; now apply N.
Qed.
Print Assumptions C86_selections.

(** It answers for every expression in which no lexeme is missing, and raises AttributeError for the others. *)
Theorem C86_answers : forall so u, usable u ->
  (filled_usl u -> exists r, enumerate_partitions so u = Ok r) /\
  (~ filled_usl u -> enumerate_partitions so u = Err AttributeError).
Proof.
  intros so u U. pose proof (C31_listing u U) as L. destruct (iter_path u) as [items|e] eqn:EI.
  - split.
    + intros Fl. assert (EV : exists L, varying so u = Ok L).
      { unfold varying. rewrite EI. cbn [bind].
        assert (M : exists bs, mapM (fun e => do x <- element (fst e) u; do n <- size so x; Ok (fst e, negb (Nat.eqb n 1))) items = Ok bs).
        { assert (G : forall e, In e items -> exists y, (do x <- element (fst e) u; do n <- size so x; Ok (fst e, negb (Nat.eqb n 1))) = Ok y).
          { intros [p x] I. cbn [fst].
            assert (D : exists y, deref p (Some u) = Ok (Some y)).
            { assert (T : tail p = PLex Flexion None \/ tail p <> PLex Flexion None) by (destruct (tail p) as [| | |[|] [|]|]; try (right; discriminate); now left).
              destruct T as [T|T]; [|eauto using C31_elements_partial].
              destruct U as [v B|l B|l r w W F]; cbn [iter_path] in EI.
              - injection EI as <-. apply iter_pm_item in I. exfalso. destruct I; discriminate.
              - apply Ok_inj in EI. subst items. destruct (lexeme_deref_flexion l p x I T) as [-> _]. eauto.
              - pose proof (iter_word_in _ _ _ _ EI I) as [[-> ->]|(r' & l' & f & Hl & Hp)]; [eexists; reflexivity|].
                assert (G : sfun_get (w_fun w) r' = Ok (Some l')).
                { apply word_of_inv in W. destruct W as (c & g & Hf & Hw). destruct (mk_word_fields _ _ _ _ Hw) as (E1 & E2 & E3). apply from_list_inv in Hf. destruct Hf as [V _].
                  rewrite <- E1, <- E3 in *. eapply sfun_get_ok; eauto. }
                destruct Hp as [[-> ->]|(q & -> & Hq)]; [cbn in T; discriminate|]. rewrite deref_eq. cbn [deref_step child_of]. rewrite G. cbn [bind option_map].
                destruct (lexeme_deref_flexion l' q x Hq T) as [-> _]. eauto. }
            destruct D as (y & D). rewrite (proj2 (element_deref p u y) D). cbn [bind].
            assert (Z : exists n, size so y = Ok n).
            { destruct y as [s|v|l|w]; cbn; eauto. apply deref_word in D. subst u. inversion U as [| |l r w' W F]; subst. cbn in Fl.
              assert (V : wval w).
              { apply word_of_inv in W. destruct W as (c & g & Hf & Hw). destruct (mk_word_fields _ _ _ _ Hw) as (E1 & E2 & E3). apply from_list_inv in Hf. destruct Hf as [V _].
                rewrite <- E1, <- E2, <- E3 in *. split; auto. }
              destruct (word_ss_spec so w V Fl) as (ws & xs & -> & _). cbn. eauto. }
            destruct Z as (n & ->). cbn [bind]. eauto. }
          clear - G. induction items as [|e items IH]; cbn; [eauto|]. destruct (G e (or_introl eq_refl)) as (y & ->). cbn [bind]. destruct IH as (r & ->); [intros; apply G; now right|]. cbn [bind]. eauto. }
        destruct M as (bs & ->). cbn [bind]. eauto. }
      destruct EV as (L' & EV). eapply enumerate_ok; eauto.
    + intros N. exfalso. apply N. destruct u; cbn in *; auto.
  - destruct L as (-> & w & r & -> & I). split.
    + intros Fl. exfalso. apply (Fl _ I). reflexivity.
    + intros _. unfold enumerate_partitions, varying. now rewrite EI.
Qed.
Print Assumptions C86_answers.

Definition ident_ (l : list script) := l.
Definition text_of (s : string) : usl := match usl_parse ident_ s with Ok (u, _) => u | Err _ => UScript (Null 0) end.
Definition listed (s : string) : res (nat * list (list string)) := do r <- enumerate_partitions ident_ (text_of s); Ok (fst r, map (map path_str) (snd r)).
(** A lexeme with two groups: five selections, two smallest parts. *)
Example C86_case : listed "(wa.)(a. m1(e. a.)m1(i. b.))" = Ok
  (2, [[">content"]; [">content>group_0 1"; ">content>group_1 1"]; [">content>group_1 1"]; [">content>group_0 1"]; []])%string.
Proof. vm_compute. reflexivity. Qed.

(** They are not partitions: for every expression the empty list is among them, ... *)
Theorem C86_partition_refuted : forall so u d R, enumerate_partitions so u = Ok (d, R) -> In [] R /\ (d <> 0 -> ~ partition so u []).
Proof.
  intros so u d R E. destruct (C86_selections so u d R E) as (_ & C & _ & leaves & ND & Hd & S). split.
  - destruct (C []) as (r & Hr & Er); [split; [constructor|split; [intros ? []|intros ? ? []]]|]. destruct r as [|p r]; [exact Hr|]. destruct (proj1 (Er (texts p))). now left.
  - intros N P. destruct leaves as [|a leaves]; [cbn in Hd; congruence|]. destruct (P a) as (b & [] & _). apply S. now left.
Qed.
Print Assumptions C86_partition_refuted.
(** ... and the path [>] of a word is counted as one more dimension, next to the dimensions in the word: the word
    of the test of the library (ieml/test/test_variations.py 13-16, which waits for 1) has the number 2. *)
Theorem C86_dimension_refuted : exists w R,
  text_of "[! E:B:. ()(k.a.-k.a.-' l.o.-k.o.-') > E:.f.- ()(m1(p.E:A:S:.- p.E:A:B:.- p.E:A:T:.- t.i.-l.i.-' c.-'B:.-'k.o.-t.o.-',))]" = UWord w /\
  enumerate_partitions ident_ (UWord w) = Ok (2, R) /\
  map (map path_str) R = [[">"; ">role>E:.f.-"]; [">role>E:.f.-"]; [">"; ">role>E:.f.->content"]; [">"; ">role>E:.f.->content>group_0 1"]; [">"];
                          [">role>E:.f.->content"]; [">role>E:.f.->content>group_0 1"]; []]%string.
Proof. eexists. eexists. split; [vm_compute; reflexivity|]. split; vm_compute; reflexivity. Qed.
Print Assumptions C86_dimension_refuted.
(** In general: the path [>] of a word that varies is always a smallest part. *)
Theorem C86_word_counted_refuted : forall so w n, usable (UWord w) -> filled w -> counts so (UWord w) n -> n <> 1 -> smallest so (UWord w) [">"]%string.
Proof.
  intros so w n U Fl Cn N. pose proof (C31_listing (UWord w) U) as L. destruct (iter_path (UWord w)) as [items|e] eqn:EI; [|destruct L as (_ & w' & r & E & I); injection E as <-; exfalso; now apply (Fl _ I)].
  assert (I : In (PUsl None, UWord w) items).
  { cbn [iter_path] in EI. unfold iter_word in EI. destruct (mapM _ _); [|discriminate]. cbn [bind] in EI. apply Ok_inj in EI. subst items. now left. }
  split.
  - split; [discriminate|]. exists (PUsl None). split; [|exists []; reflexivity]. exists items, (UWord w), (UWord w), n. repeat split; auto.
  - intros b (Nb & p & (l & e & x & k & E & Ip & _) & (c & Ec)) (c' & Eb). rewrite EI in E. injection E as <-. cbn [iter_path] in EI. apply (iter_word_along w _ p e EI) in Ip.
    apply along_inv in Ip. destruct Ip as (s' & Ns & Cp). rewrite Eb in Ec. rewrite texts_eq in Ec. cbn in Ec. injection Ec as E1 E2.
    destruct p as [ch|? ? ? ?|? ?|[] ?|? ? ?]; cbn in Ns; try discriminate. injection Ns as <-. cbn in Cp, E2. destruct ch as [ch|].
    + exfalso. apply along_inv in Cp. destruct Cp as (s2 & N2 & _). discriminate.
    + destruct c'; [exact Eb|discriminate].
Qed.
Print Assumptions C86_word_counted_refuted.
