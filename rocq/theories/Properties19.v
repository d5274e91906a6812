(** Dictionaries are built: C66. *)
From Coq Require Import List String Ascii Bool NArith Arith Lia Permutation.
From Verif Require Import Base Script ScriptParser SortProofs ScriptWf ScriptOrderProofs ScriptSpec ScriptCtorProofs ScriptSeqProofs ScriptMoreProofs ScriptAlgProofs ScriptParseProofs ScriptEqProofs Tables TablesSpec TablesProofs TablesGridProofs Properties1 Properties14 Dictionary DictionarySpec DictTableProofs DictLoadProofs DictRelProofs DictTopProofs DictAcceptProofs DictParentProofs DictDetProofs DictBuildProofs Properties16 Properties17 Properties18.
Import ListNotations.
Local Open Scope string_scope.

(** C66, under [well_stated]: the dictionary is built, and its roots are those which are stated. Missing,
    and refuted in Properties16 ([C66_built_refuted]): singular roots, sums which repeat a singular
    sequence, three tables or more nested under a root, scripts which are ignored outside the roots. *)
Theorem C66_built_partial so paradigms rows : set_order so -> well_stated so paradigms rows ->
  exists d, make_dictionary so paradigms rows = Ok d /\ map str (d_root_scripts d) = flagged rows "is_root".
Proof. intros SO WS. exact (make_total so SO paradigms rows WS). Qed.
Print Assumptions C66_built_partial.

(** ** A case: two roots, tables nested twice, a table which is ignored *)
Definition P9 := ["O:"; "M:M:."; "S:M:."; "S:+B:M:."; "M:S:."; "T:M:."; "b."].
Definition R9 := [("O:", "is_root", "True"); ("M:M:.", "is_root", "true"); ("T:M:.", "is_ignored", "True"); ("S:M:.", "is_root", "False"); ("O:", "inhibition", "opposed")].
Definition words_of (s : script) : list string := match ss s with Ok l => map str l | Err _ => [] end.
Definition stated_b (P : list string) (R : list (string * string * string)) : bool :=
  let plain := fun p => match parse ident p with Ok s => s | Err _ => Null 0 end in
  let roots := flagged R "is_root" in
  let inside p q := included_b (plain p) (plain q) in
  forallb (fun p => match parse ident p with Ok s => String.eqb (str s) p | Err _ => false end) P &&
  forallb (fun row => negb (String.eqb (snd row) "")) R && distinct roots && distinct (flagged R "is_ignored") &&
  forallb (fun p => memb String.eqb p P && negb (N.eqb (cardinal (plain p)) 1)) roots &&
  forallb (fun p => forallb (fun q => String.eqb p q || forallb (fun x => negb (memb String.eqb x (words_of (plain q)))) (words_of (plain p))) roots) roots &&
  forallb (fun p => memb String.eqb p P && negb (memb String.eqb p roots) && negb (N.eqb (cardinal (plain p)) 1) && existsb (fun q => inside p q) roots) (flagged R "is_ignored") &&
  forallb (fun p => N.eqb (cardinal (plain p)) 1 || distinct (words_of (plain p)) && match tables (plain p) with Ok _ => true | Err _ => false end) P &&
  forallb (fun p => forallb (fun q => forallb (fun r => memb String.eqb p roots || memb String.eqb q roots || memb String.eqb r roots || N.eqb (cardinal (plain p)) 1 ||
    String.eqb p q || String.eqb p r || String.eqb q r || negb (inside p q && inside q r)) P) P) P.
Lemma memb_strings x l : memb String.eqb x l = true <-> In x l.
Proof.
  unfold memb. rewrite existsb_exists. split; [intros (y & H & E); apply String.eqb_eq in E; now subst|]. intros H. exists x. split; [exact H|apply String.eqb_refl].
Qed.
Lemma included_b_ok s t : wf s -> wf t -> included_b s t = true <-> included s t.
Proof. intros Ws Wt. unfold included_b. destruct (script_in_spec s t Ws Wt) as (b & -> & H). exact H. Qed.
Lemma stated P R : stated_b P R = true -> well_stated ident P R.
Proof.
  unfold stated_b. rewrite !andb_true_iff, !forallb_forall. intros ((((((((B1 & B2) & B3) & B4) & B5) & B6) & B7) & B8) & B9).
  assert (Pw : forall p s, parse ident p = Ok s -> wf s) by (intros p s E; exact (constructible_wf _ (parse_constructible ident ident_order p s E))).
  split.
  - intros p Hp. specialize (B1 p Hp). destruct (parse ident p) as [s|]; [|discriminate]. exists s. split; [reflexivity|now apply String.eqb_eq].
  - intros p key H. specialize (B2 _ H). discriminate.
  - now apply distinct_nodup.
  - intros p Hp. specialize (B5 p Hp). apply andb_true_iff in B5 as [B C]. split; [now apply memb_strings|]. intros s E. rewrite E in C. apply negb_true_iff, N.eqb_neq in C. exact C.
  - intros p q s t Hp Hq N Es Et w Hs Ht. specialize (B6 p Hp). rewrite forallb_forall in B6. specialize (B6 q Hq). rewrite Es, Et in B6. apply orb_true_iff in B6 as [B6|B6]; [apply String.eqb_eq in B6; contradiction|]. rewrite forallb_forall in B6.
    pose proof (Pw _ _ Es) as Ws. pose proof (Pw _ _ Et) as Wt. destruct (ss_total s Ws) as (l & El & _). destruct (ss_total t Wt) as (l' & El' & _). unfold words_of in B6. rewrite El, El' in B6.
    destruct (ss_find s l w Ws El Hs) as (x & Hx & Hxw & Sx). destruct (ss_find t l' w Wt El' Ht) as (y & Hy & Hyw & Sy). assert (L : layer t = layer s) by exact (means_layer t s w Wt Ws Ht Hs). rewrite L in Sy.
    assert (X : str x = str y). { apply (sing1_text (layer s) x y Sx Sy). destruct Sx as (Wx & Cx & _), Sy as (Wy & Cy & _). apply words_means in Hxw, Hyw. rewrite (words_single x Wx Cx) in Hxw. rewrite (words_single y Wy Cy) in Hyw. destruct Hxw as [<-|[]], Hyw as [Hyw|[]]. congruence. }
    specialize (B6 (str x) (in_map str _ _ Hx)). apply negb_true_iff in B6. assert (memb String.eqb (str x) (map str l') = true) by (apply memb_strings; rewrite X; now apply in_map). congruence.
  - now apply distinct_nodup.
  - intros p Hp. specialize (B7 p Hp). rewrite !andb_true_iff in B7. destruct B7 as (((H1 & H2) & H3) & H4). split; [now apply memb_strings|]. split; [intros X; apply memb_strings in X; rewrite X in H2; discriminate|].
    intros s E. rewrite E in H3, H4. split; [apply negb_true_iff, N.eqb_neq in H3; exact H3|]. intros w Hw. apply existsb_exists in H4 as (q & Hq & I). specialize (B5 q Hq). apply andb_true_iff in B5 as [Hq' _]. apply memb_strings in Hq'. specialize (B1 q Hq').
    destruct (parse ident q) as [r|] eqn:Eq; [|discriminate]. exists q, r. split; [exact Hq|]. split; [exact Eq|]. apply (included_b_ok s r (Pw _ _ E) (Pw _ _ Eq)) in I. apply I, Hw.
  - intros p s Hp E C. specialize (B8 p Hp). rewrite E in B8. apply orb_true_iff in B8 as [X|X]; [apply N.eqb_eq in X; contradiction|]. apply andb_true_iff in X as [X1 X2]. pose proof (Pw _ _ E) as Ws.
    assert (D : sums_disjoint s). { apply by_texts; [exact (parse_constructible ident ident_order p s E)|]. unfold words_of in X1. destruct (ss_total s Ws) as (l & El & _). rewrite El in *. exact X1. }
    split; [exact D|]. destruct (tables_w s Ws D C) as [(t & _ & _ & T)|[T _]]; [exact T|]. rewrite T in X2. discriminate.
  - intros p q r s t u N H Es Et Eu C I1 I2. destruct (H p) as [Hp Np]; [simpl; auto|]. destruct (H q) as [Hq Nq]; [simpl; auto|]. destruct (H r) as [Hr Nr]; [simpl; auto|].
    specialize (B9 p Hp). rewrite forallb_forall in B9. specialize (B9 q Hq). rewrite forallb_forall in B9. specialize (B9 r Hr). rewrite Es, Et, Eu in B9. rewrite !orb_true_iff, !memb_strings in B9.
    apply (included_b_ok s t (Pw _ _ Es) (Pw _ _ Et)) in I1. apply (included_b_ok t u (Pw _ _ Et) (Pw _ _ Eu)) in I2. rewrite I1, I2 in B9. rewrite !String.eqb_eq in B9.
    inversion N as [|? ? N1 N2]; subst. inversion N2 as [|? ? N3 N4]; subst. simpl in N1, N3. cbn in B9. destruct (N.eqb_spec (cardinal s) 1); [contradiction|]. intuition congruence.
Qed.
Example C66_case : well_stated ident P9 R9 /\ exists d, make_dictionary ident P9 R9 = Ok d /\ map str (d_root_scripts d) = ["O:"; "M:M:."] /\
  outline d = [("O:", [("O:", K1D, 0, false, None)]);
               ("M:M:.", [("M:M:.", K2D, 0, false, None); ("S:+B:M:.", K2D, 2, false, Some "M:M:."); ("S:M:.", K1D, 3, true, Some "M:M:."); ("M:S:.", K1D, 3, true, Some "M:M:.")])].
Proof. split; [apply stated; vm_compute; reflexivity|]. eexists. split; [vm_compute; reflexivity|]. vm_compute. auto. Qed.
