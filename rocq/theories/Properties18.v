(** Properties of dictionaries built twice. *)
From Coq Require Import List String Ascii Bool NArith Arith Lia Permutation.
From Verif Require Import Base Script ScriptParser SortProofs ScriptWf ScriptOrderProofs ScriptSpec ScriptCtorProofs ScriptSeqProofs ScriptMoreProofs ScriptAlgProofs ScriptParseProofs ScriptEqProofs Tables TablesSpec TablesProofs TablesGridProofs Properties1 Properties14 Dictionary DictionarySpec DictTableProofs DictLoadProofs DictRelProofs DictTopProofs DictAcceptProofs DictParentProofs DictDetProofs Properties16 Properties17.
Import ListNotations.
Local Open Scope string_scope.

(** * C68: the same paradigms and rows give the same dictionary, whatever the order of the sets *)
(** Two dictionaries which no question tells apart: the scripts in their order, the answers of the relations, the root and the table of a script (with its parents, so its rank), the roots and their inhibitions. *)
Definition indistinguishable (d d' : dictionary) : Prop :=
  d_scripts d' = d_scripts d /\ d_root_scripts d' = d_root_scripts d /\
  (forall s, lookup d' s = lookup d s) /\ (forall s rel, object d' s rel = object d s rel) /\ (forall s o, relation d' s o = relation d s o) /\
  (forall s, root_of d' s = root_of d s) /\ (forall s, table_of (d_forest d') s = table_of (d_forest d) s) /\
  (forall r t, (exists ts, In (r, ts) (d_forest d') /\ In t ts) <-> (exists ts, In (r, ts) (d_forest d) /\ In t ts)) /\
  (forall r rel, inhibited (d_inhibitions d') r rel = inhibited (d_inhibitions d) r rel).
(** Two paradigms of the same length, one of which has all the words of the other, are the same. *)
Theorem C68_same_partial : forall so so' paradigms rows d, set_order so -> set_order so' -> tidy so paradigms ->
  (forall p q s t, In p paradigms -> In q paradigms -> parse so p = Ok s -> parse so q = Ok t -> cardinal s <> 1%N -> cardinal s = cardinal t -> included s t -> p = q) ->
  make_dictionary so paradigms rows = Ok d -> exists d', make_dictionary so' paradigms rows = Ok d' /\ indistinguishable d d'.
Proof.
  intros so so' paradigms rows d SO SO' Td Nr M. destruct (make_det so so' paradigms rows d SO SO' Td) as (d' & M' & Es & Er & Ei & F2 & Ob & T); [|exact M|].
  { intros p q s t Hp Hq Ep Eq C1 C I. assert (p = q) by (apply (Nr p q s t); auto). subst q. congruence. }
  exists d'. split; [exact M'|]. split; [exact Es|]. split; [exact Er|]. split; [intros s; unfold lookup; rewrite Es; reflexivity|]. split; [exact Ob|].
  split; [intros s o; unfold relation; rewrite (mapM_ext_in _ (fun r => do x <- object d s r; Ok (if memb script_eqb o x then [r] else []))); [reflexivity|intros r _; rewrite Ob; reflexivity]|].
  split; [|split; [exact T|split; [|intros r rel; rewrite Ei; reflexivity]]].
  - intros s. unfold root_of. rewrite T. destruct (table_of (d_forest d) s) as [t0|]; [|reflexivity]. clear t0.
    assert (G : forall f f', Forall2 alike f f' -> Forall2 alike (rev f) (rev f')).
    { induction 1 as [|e e' f f' A F IH]; cbn [rev]; [constructor|]. apply Forall2_app; [exact IH|constructor; [exact A|constructor]]. }
    specialize (G _ _ F2). induction G as [|[r ts] [r' ts'] f f' [E P] F IH]; cbn [find option_map]; [reflexivity|]. cbn [fst snd] in *. subst r'.
    assert (X : existsb (fun t => script_eqb (tscript t) s) ts' = existsb (fun t => script_eqb (tscript t) s) ts) by (apply eq_true_iff_eq; rewrite !existsb_exists; split; intros (t & Ht & Et); exists t; (split; [|exact Et]); [apply (Permutation_in _ (Permutation_sym P)), Ht|apply (Permutation_in _ P), Ht]).
    rewrite X. destruct (existsb _ ts); [reflexivity|exact IH].
  - intros r t. split; intros (ts & He & Ht).
    + clear - F2 He Ht. induction F2 as [|[r1 ts1] [r2 ts2] f f' [E P] F IH]; [destruct He|]. cbn [fst snd] in *. subst r2. destruct He as [He|He]; [injection He as -> ->; exists ts1; split; [simpl; auto|apply (Permutation_in _ (Permutation_sym P)), Ht]|]. destruct (IH He) as (ts0 & H0 & H1). exists ts0. simpl. auto.
    + clear - F2 He Ht. induction F2 as [|[r1 ts1] [r2 ts2] f f' [E P] F IH]; [destruct He|]. cbn [fst snd] in *. subst r2. destruct He as [He|He]; [injection He as -> ->; exists ts2; split; [simpl; auto|apply (Permutation_in _ P), Ht]|]. destruct (IH He) as (ts0 & H0 & H1). exists ts0. simpl. auto.
Qed.
Print Assumptions C68_same_partial.
(** The dictionary of Properties17 meets the hypotheses. *)
Definition included_b (s t : script) : bool := match script_in s t with Ok b => b | Err _ => false end.
Lemma rev_order : set_order (@rev script).
Proof. intros l. apply Permutation_sym, Permutation_rev. Qed.
Example C68_case : make_dictionary ident P7 R7 = Ok d7 /\ tidy ident P7 /\
  (forall p q s t, In p P7 -> In q P7 -> parse ident p = Ok s -> parse ident q = Ok t -> cardinal s <> 1%N -> cardinal s = cardinal t -> included s t -> p = q) /\
  exists d', make_dictionary (@rev script) P7 R7 = Ok d' /\ map (fun e => map tscript (snd e)) (d_forest d') <> map (fun e => map tscript (snd e)) (d_forest d7).
Proof.
  split; [vm_compute; reflexivity|]. split; [|split].
  - intros p s H. cbn [P7 In] in H. repeat destruct H as [<-|H]; try contradiction; intros E; vm_compute in E; apply Ok_inj in E; subst s; vm_compute; reflexivity.
  - assert (B : forallb (fun p => forallb (fun q => match parse ident p, parse ident q with Ok s, Ok t => N.eqb (cardinal s) 1 || negb (N.eqb (cardinal s) (cardinal t)) || negb (included_b s t) || String.eqb p q | _, _ => true end) P7) P7 = true) by (vm_compute; reflexivity).
    intros p q s t Hp Hq Ep Eq C1 C I. rewrite forallb_forall in B. specialize (B p Hp). rewrite forallb_forall in B. specialize (B q Hq). rewrite Ep, Eq in B.
    pose proof (constructible_wf _ (parse_constructible ident ident_order p s Ep)) as Ws. pose proof (constructible_wf _ (parse_constructible ident ident_order q t Eq)) as Wt.
    unfold included_b in B. destruct (script_in_spec s t Ws Wt) as (b & Eb & Hb). rewrite Eb in B. assert (b = true) by (apply Hb; exact I). subst b. destruct (N.eqb_spec (cardinal s) 1); [contradiction|]. destruct (N.eqb_spec (cardinal s) (cardinal t)); [|contradiction]. cbn in B. apply String.eqb_eq. exact B.
  - eexists. split; [vm_compute; reflexivity|]. vm_compute. discriminate.
Qed.

(** Two paradigms with the same words: which one is the parent of the other, and their ranks, depend on the order of a set. *)
Definition P8 := ["O:O:."; "U:O:."; "wo.+wa."].
Definition R8 := [("O:O:.", "is_root", "True")].
Definition d8 (so : list script -> list script) : dictionary := match make_dictionary so P8 R8 with Ok d => d | Err _ => none end.
Theorem C68_twin_paradigms_refuted : set_order ident /\ set_order (@rev script) /\ tidy ident P8 /\
  make_dictionary ident P8 R8 = Ok (d8 ident) /\ make_dictionary (@rev script) P8 R8 = Ok (d8 (@rev script)) /\
  outline (d8 ident) = [("O:O:.", [("O:O:.", K2D, 0, false, None); ("wo.+wa.", K1D, 3, true, Some "O:O:."); ("U:O:.", K1D, 5, true, Some "wo.+wa.")])] /\
  outline (d8 (@rev script)) = [("O:O:.", [("O:O:.", K2D, 0, false, None); ("U:O:.", K1D, 3, true, Some "O:O:."); ("wo.+wa.", K1D, 5, true, Some "U:O:.")])].
Proof.
  split; [exact ident_order|]. split; [exact rev_order|]. split; [|repeat split; vm_compute; reflexivity].
  intros p s H. cbn [P8 In] in H. repeat destruct H as [<-|H]; try contradiction; intros E; vm_compute in E; apply Ok_inj in E; subst s; vm_compute; reflexivity.
Qed.
Print Assumptions C68_twin_paradigms_refuted.
