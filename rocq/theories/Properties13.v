(** Properties of instanced USLs: C34 (no literal is left) and C60 (the decorations listed). *)
From Coq Require Import List String Bool Arith Lia Permutation.
From Verif Require Import Base Script ScriptParser Commons Usl UslSpec Properties1 Properties8 Sfun SfunSpec Properties9 UslParser UslGrammar Properties10
  Path PathSpec Instance InstanceSpec InstanceProofs.
Import ListNotations.
Local Open Scope string_scope.

(** * C34 *)
(** A construction, whether it returns or raises: the objects that received a literal have
    none, the other objects keep theirs, and nothing is left on the stack. *)
Theorem C34_no_literal_left : forall (obj : Type) (eqb : obj -> obj -> bool), (forall a b, eqb a b = true <-> a = b) ->
  forall sorted w u ds h h' r, instanced obj eqb sorted w u ds h = (h', r) ->
  cleaned w u ds h h' /\ none_new h h' /\ stack _ h' = [].
Proof.
  intros obj eqb S sorted w u ds h h' r E. apply instanced_run in E. subst h'.
  destruct (ops_cleaned eqb S w u ds h) as [A B]. split; [exact A|]. split; [exact (cleaned_none_new eqb S _ _ _ _ _ A)|exact B].
Qed.
Print Assumptions C34_no_literal_left.

(** Any sequence of constructions, computations of singular sequences (a construction inside a
    context for each) and readings of decorated USLs leaves no literal that was not there. *)
Theorem C34_history : forall (obj : Type) (eqb : obj -> obj -> bool), (forall a b, eqb a b = true <-> a = b) ->
  forall h h', activity eqb h h' -> none_new h h'.
Proof. intros obj eqb S. exact (activity_none eqb S). Qed.
Print Assumptions C34_history.

(** What the construction does to the shared state: enter the context, put literals, leave. *)
Theorem C34_steps : forall (obj : Type) (eqb : obj -> obj -> bool) sorted w u ds h h' r,
  instanced obj eqb sorted w u ds h = (h', r) -> h' = run obj eqb h (ops obj w u ds).
Proof. intros obj eqb sorted w u ds h h' r. exact (instanced_run eqb sorted w u ds h h' r). Qed.
Print Assumptions C34_steps.

Definition no_literal : heap string := {| literal := fun _ => None; stack := [] |}.
Definition D_words : decoration := (PLex Content (Some (PPoly Constant (Some B_) None None)), "one").
Definition D_none : decoration := (PLex Content (Some (PPoly Constant (Some A_) None None)), "two").
Definition as_it_is (l : list decoration) : res (list decoration) := Ok l.
Example C34_case :
  (let (h, r) := instanced string String.eqb as_it_is (parsed (ULexeme X1)) (ULexeme X1) [Some D_words] no_literal in
   r = Ok {| i_usl := ULexeme X1; i_flexion := false; i_decorations := [D_words] |} /\ map (literal _ h) ["script b."; "script wa."] = [None; None]) /\
  put (ULexeme X1) [Some D_words; Some D_none] D_words /\
  (let (h, r) := instanced string String.eqb as_it_is (parsed (ULexeme X1)) (ULexeme X1) [Some D_words; Some D_none] no_literal in
   r = Err KeyError /\ map (literal _ h) ["script b."; "script wa."] = [None; None]) /\
  (let (h, r) := instanced string String.eqb as_it_is (parsed (ULexeme X1)) (ULexeme X1) [Some D_words; None] no_literal in
   r = Err ValueError /\ map (literal _ h) ["script b."; "script wa."] = [None; None]) /\
  literal _ (run string String.eqb no_literal (removelast (ops string (parsed (ULexeme X1)) (ULexeme X1) [Some D_words; Some D_none]))) "script b." = Some "one".
Proof.
  split; [vm_compute; split; reflexivity|]. split; [|split; [vm_compute; split; reflexivity|split; [vm_compute; split; reflexivity|vm_compute; reflexivity]]].
  exists [], [Some D_none]. split; [reflexivity|]. constructor; [|constructor]. exists (UScript B_). vm_compute. reflexivity.
Qed.

(** Two threads: the context is one for the program, so that the entry of the second thread
    forgets the objects of the first. *)
Theorem C34_threads_refuted : exists u ds1 ds2 s o v,
  interleaved (ops string (parsed u) u (map Some ds1)) (ops string (parsed u) u (map Some ds2)) s /\
  Forall (finds u) (ds1 ++ ds2) /\
  literal _ (run string String.eqb no_literal s) o = Some v /\ literal _ no_literal o = None.
Proof.
  exists (ULexeme X1), [D_words], [], [Enter _; Set_ _ "script b." "one"; Enter _; Leave _; Leave _], "script b.", "one".
  split; [|split; [|split; [vm_compute; reflexivity|reflexivity]]].
  - assert (E : ops string (parsed (ULexeme X1)) (ULexeme X1) (map Some [D_words]) = [Enter _; Set_ _ "script b." "one"; Leave _]) by (vm_compute; reflexivity).
    rewrite E. cbn. repeat constructor.
  - cbn. constructor; [|constructor]. exists (UScript B_). vm_compute. reflexivity.
Qed.
Print Assumptions C34_threads_refuted.

(** * C60 *)
(** The decorations of an instanced USL are the listed paths whose object has a literal when all
    the decorations are put: the value of the last decoration of the object. *)
Lemma in_numbered_from {A} (l : list A) : forall k n p, In (n, p) (combine (seq k (List.length l)) l) <-> k <= n /\ nth_error l (n - k) = Some p.
Proof.
  induction l as [|x l IH]; intros k n p; cbn [List.length seq combine].
  - split; [intros []|intros [_ E]; destruct (n - k); discriminate].
  - split.
    + intros [E|H]; [injection E as <- <-; split; [lia|]; rewrite Nat.sub_diag; reflexivity|].
      apply IH in H as [H1 H2]. split; [lia|]. replace (n - k) with (S (n - S k)) by lia. exact H2.
    + intros [H1 H2]. destruct (Nat.eq_dec k n) as [->|N].
      * left. rewrite Nat.sub_diag in H2. injection H2 as ->. reflexivity.
      * right. apply IH. split; [lia|]. replace (n - k) with (S (n - S k)) in H2 by lia. exact H2.
Qed.
Lemma in_numbered {A} (l : list A) n p : In (n, p) (numbered l) <-> nth_error l n = Some p.
Proof. unfold numbered. rewrite in_numbered_from, Nat.sub_0_r. intuition lia. Qed.
Lemma nodup_numbered {A} (l : list A) : NoDup (map fst (numbered l)).
Proof.
  unfold numbered. enough (E : forall k, map fst (combine (seq k (List.length l)) l) = seq k (List.length l)) by (rewrite E; apply seq_NoDup).
  induction l as [|x l IH]; intros k; cbn; [reflexivity|]. rewrite IH. reflexivity.
Qed.
Theorem C60_decorations : forall (obj : Type) (eqb : obj -> obj -> bool), (forall a b, eqb a b = true <-> a = b) ->
  forall sorted w u ds h h' i, (forall l l', sorted l = Ok l' -> Permutation l l') ->
  instanced obj eqb sorted w u (map Some ds) h = (h', Ok i) ->
  i_usl i = u /\ Forall (finds u) ds /\ exists items, iter_path u = Ok items /\
    forall p v, In (p, v) (i_decorations i) <-> exists n x, nth_error items n = Some (p, x) /\ value_at w ds h (element _ w n) v.
Proof.
  intros obj eqb S sorted w u ds h h' i P E. apply instanced_ok in E as (F & U & _ & items & I & L).
  split; [exact U|]. split; [exact F|]. exists items. split; [exact I|]. intros p v. apply P in L. split.
  - intros H. apply (Permutation_in _ (Permutation_sym L)), in_flat_map in H as ([n q] & Hq & H).
    cbn [fst snd] in H. destruct (literal _ _ _) as [v'|] eqn:V; [|destruct H]. destruct H as [H|[]]. injection H as -> ->.
    apply in_numbered in Hq. rewrite nth_error_map in Hq. destruct (nth_error items n) as [[p' x]|] eqn:Hn; [|discriminate]. injection Hq as ->.
    exists n, x. split; [exact Hn|]. apply (value_at_fun eqb S) in V. exact V.
  - intros (n & x & H & V). apply (Permutation_in _ L). apply in_flat_map. exists (n, p).
    split; [apply in_numbered; rewrite nth_error_map, H; reflexivity|]. cbn [fst snd].
    assert (V' : value_at w ds (enter obj h) (element _ w n) v) by exact V. apply (value_at_fun eqb S) in V'. rewrite V'. left. reflexivity.
Qed.
Print Assumptions C60_decorations.

(** The object that deference gives for [p] is listed once, with the path [p]. *)
Definition own_object {obj} (w : world obj) (items : list (path * usl)) (p : path) : Prop :=
  exists n x, nth_error items n = Some (p, x) /\ element _ w n = target _ w p /\
    forall m, m < List.length items -> element _ w m = target _ w p -> m = n.

Lemma NoDup_options {A B} (f : A -> option B) l :
  (forall a x b y c v, l = (a ++ x :: b ++ y :: c)%list -> f x = Some v -> f y <> Some v) ->
  NoDup (flat_map (fun x => match f x with Some v => [v] | None => [] end) l).
Proof.
  induction l as [|x l IH]; intros H; [constructor|]. cbn [flat_map].
  assert (N : NoDup (flat_map (fun x => match f x with Some v => [v] | None => [] end) l)).
  { apply IH. intros a y b z c v E. apply (H (x :: a) y b z c v). rewrite E. reflexivity. }
  destruct (f x) as [v|] eqn:V; [|exact N]. cbn [app]. constructor; [|exact N].
  intros I. apply in_flat_map in I as (y & Hy & I). destruct (f y) as [v'|] eqn:V'; [|destruct I]. destruct I as [->|[]].
  apply in_split in Hy as (b & c & ->). exact (H [] x b y c v eq_refl V V').
Qed.

(** Decorations of different objects that are listed with their own paths only, in a USL that
    has no literal: the instanced USL has exactly these decorations. Missing: see the
    refutation. *)
Theorem C60_own_decorations_partial : forall (obj : Type) (eqb : obj -> obj -> bool), (forall a b, eqb a b = true <-> a = b) ->
  forall sorted w u ds h h' i items, (forall l l', sorted l = Ok l' -> Permutation l l') ->
  instanced obj eqb sorted w u (map Some ds) h = (h', Ok i) -> (forall o, literal _ h o = None) ->
  iter_path u = Ok items -> (forall d, In d ds -> own_object w items (fst d)) -> NoDup (map (fun d => target _ w (fst d)) ds) ->
  Permutation (i_decorations i) ds.
Proof.
  intros obj eqb S sorted w u ds h h' i items P E N I O D. apply instanced_ok in E as (F & U & _ & items' & I' & L).
  rewrite I in I'. injection I' as <-. apply P in L. eapply Permutation_trans; [exact (Permutation_sym L)|].
  set (h1 := fold_left (fun (h : heap obj) (d : path * string) => set_literal obj eqb (target obj w (fst d)) (snd d) h) ds (enter obj h)) in *.
  assert (V : forall o v, literal _ h1 o = Some v -> exists p, In (p, v) ds /\ target _ w p = o).
  { intros o v X. apply (value_at_fun eqb S) in X as [(b & p & a & -> & T & _)|[_ X]].
    - exists p. split; [apply in_or_app; right; left; reflexivity|exact T].
    - cbn in X. rewrite N in X. discriminate. }
  assert (V' : forall p v, In (p, v) ds -> literal _ h1 (target _ w p) = Some v).
  { intros p v X. apply (value_at_fun eqb S). left. apply in_split in X as (b & a & ->). exists b, p, a. split; [reflexivity|]. split; [reflexivity|].
    rewrite map_app in D. cbn [map fst] in D. apply NoDup_remove_2 in D. apply Forall_forall. intros d Hd X. apply D. apply in_or_app. right.
    rewrite <- X. apply in_map_iff. exists d. split; [reflexivity|exact Hd]. }
  assert (Q : forall n q v, In (n, q) (numbered (map fst items)) -> literal _ h1 (element _ w n) = Some v -> In (q, v) ds /\ element _ w n = target _ w q).
  { intros n q v Hq X. apply V in X as (p & Hp & T). destruct (O _ Hp) as (m & x & Hm & Em & One). cbn [fst] in *.
    apply in_numbered in Hq. assert (n < List.length items) by (rewrite <- (map_length fst); apply nth_error_Some; congruence).
    assert (n = m) by (apply One; congruence). subst m. rewrite nth_error_map, Hm in Hq. injection Hq as ->. split; [exact Hp|congruence]. }
  apply NoDup_Permutation.
  - assert (G : forall e : nat * path, match literal _ h1 (element _ w (fst e)) with Some v => [(snd e, v)] | None => [] end =
      match option_map (fun v => (snd e, v)) (literal _ h1 (element _ w (fst e))) with Some v => [v] | None => [] end) by (intros e; destruct (literal _ _ _); reflexivity).
    rewrite (flat_map_ext _ _ G). apply NoDup_options. intros a [nx x] b [ny y] c v Ei Ex Ey. cbn [fst snd] in *.
    destruct (literal _ h1 (element _ w nx)) as [vx|] eqn:Vx; [|discriminate]. cbn in Ex. injection Ex as <-.
    destruct (literal _ h1 (element _ w ny)) as [vy|] eqn:Vy; [|discriminate]. cbn in Ey. injection Ey as -> ->.
    assert (Ix : In (nx, x) (numbered (map fst items))) by (rewrite Ei; apply in_or_app; right; left; reflexivity).
    assert (Iy : In (ny, x) (numbered (map fst items))) by (rewrite Ei; apply in_or_app; right; right; apply in_or_app; right; left; reflexivity).
    destruct (Q _ _ _ Ix Vx) as [Hx Tx], (Q _ _ _ Iy Vy) as [Hy Ty]. destruct (O _ Hx) as (m & z & _ & _ & One). cbn [fst] in One.
    assert (Lt : forall n q, In (n, q) (numbered (map fst items)) -> n < List.length items).
    { intros n q Hq. apply in_numbered in Hq. rewrite <- (map_length fst). apply nth_error_Some. congruence. }
    assert (nx = ny) by (rewrite (One nx), (One ny); eauto). subst ny.
    pose proof (nodup_numbered (map fst items)) as ND. rewrite Ei, map_app in ND. cbn [map fst] in ND. apply NoDup_remove_2 in ND. apply ND.
    apply in_or_app. right. rewrite map_app. apply in_or_app. right. left. reflexivity.
  - exact (NoDup_map_inv _ _ D).
  - intros [p v]. split.
    + intros H. apply in_flat_map in H as ([n q] & He & H). cbn [fst snd] in H. destruct (literal _ h1 (element _ w n)) as [v'|] eqn:X; [|destruct H].
      destruct H as [H|[]]. injection H as -> ->. exact (proj1 (Q _ _ _ He X)).
    + intros H. pose proof (V' _ _ H) as X. destruct (O _ H) as (n & x & Hn & T & _). cbn [fst] in *. apply in_flat_map.
      exists (n, p). split; [apply in_numbered; rewrite nth_error_map, Hn; reflexivity|]. cbn [fst snd]. rewrite T, X. left. reflexivity.
Qed.
Print Assumptions C60_own_decorations_partial.

Lemma own_by u items n x p : iter_path u = Ok items -> nth_error items n = Some (p, x) ->
  forallb (fun m => Bool.eqb (String.eqb (element _ (parsed u) m) (target _ (parsed u) p)) (Nat.eqb m n)) (seq 0 (List.length items)) = true ->
  own_object (parsed u) items p.
Proof.
  intros I N F. rewrite forallb_forall in F. assert (L : forall m, m < List.length items -> String.eqb (element _ (parsed u) m) (target _ (parsed u) p) = Nat.eqb m n).
  { intros m H. apply eqb_prop, F, in_seq. lia. }
  exists n, x. split; [exact N|]. split.
  - apply String.eqb_eq. rewrite L; [apply Nat.eqb_refl|]. apply nth_error_Some. congruence.
  - intros m H E. apply Nat.eqb_eq. rewrite <- (L m H). apply String.eqb_eq. exact E.
Qed.
Definition D60 : list decoration :=
  [(PRole [INITIATOR] true (Some (PLex Content (Some (PPoly Group0 (Some D_) (Some 1) None)))), "d"); (PRole [INITIATOR] true None, "lexeme");
   (PUsl None, "word"); (PRole ["E:T:."] false (Some (PLex Flexion None)), "flexion")].
Example C60_case : exists items h' i, iter_path (UWord U23) = Ok items /\ List.length items = 28 /\
  (forall d, In d D60 -> own_object (parsed (UWord U23)) items (fst d)) /\ NoDup (map (fun d => target _ (parsed (UWord U23)) (fst d)) D60) /\
  instanced string String.eqb as_it_is (parsed (UWord U23)) (UWord U23) (map Some D60) no_literal = (h', Ok i) /\
  map (fun d => (path_str (fst d), snd d)) (i_decorations i) =
    [(">", "word"); (">role>E:T:.>flexion", "flexion"); (">role>! E:.n.-", "lexeme"); (">role>! E:.n.->content>group_0 1>a.", "d")].
Proof.
  destruct (iter_path (UWord U23)) as [items|] eqn:I; [|vm_compute in I; discriminate].
  destruct (instanced string String.eqb as_it_is (parsed (UWord U23)) (UWord U23) (map Some D60) no_literal) as [h' [i|e]] eqn:E;
    [|assert (X : snd (instanced string String.eqb as_it_is (parsed (UWord U23)) (UWord U23) (map Some D60) no_literal) = Err e) by (rewrite E; reflexivity); vm_compute in X; discriminate].
  exists items, h', i. split; [reflexivity|].
  assert (I' : items = match iter_path (UWord U23) with Ok l => l | Err _ => [] end) by (rewrite I; reflexivity).
  split; [rewrite I'; vm_compute; reflexivity|]. split; [|split; [|split; [reflexivity|]]].
  - assert (O : forall n x p, nth_error items n = Some (p, x) ->
      forallb (fun m => Bool.eqb (String.eqb (element _ (parsed (UWord U23)) m) (target _ (parsed (UWord U23)) p)) (Nat.eqb m n)) (seq 0 (List.length items)) = true -> own_object (parsed (UWord U23)) items p)
      by (intros n x p; apply own_by; exact I).
    intros d [<-|[<-|[<-|[<-|[]]]]]; cbn [fst].
    + eapply (O 17); [rewrite I'; vm_compute; reflexivity|rewrite I'; vm_compute; reflexivity].
    + eapply (O 8); [rewrite I'; vm_compute; reflexivity|rewrite I'; vm_compute; reflexivity].
    + eapply (O 0); [rewrite I'; vm_compute; reflexivity|rewrite I'; vm_compute; reflexivity].
    + eapply (O 2); [rewrite I'; vm_compute; reflexivity|rewrite I'; vm_compute; reflexivity].
  - vm_compute. repeat constructor; cbn; intuition discriminate.
  - assert (X : Ok i = snd (instanced string String.eqb as_it_is (parsed (UWord U23)) (UWord U23) (map Some D60) no_literal)) by (rewrite E; reflexivity).
    assert (Y : match snd (instanced string String.eqb as_it_is (parsed (UWord U23)) (UWord U23) (map Some D60) no_literal) with Ok i => map (fun d => (path_str (fst d), snd d)) (i_decorations i) | Err _ => [] end = 
      [(">", "word"); (">role>E:T:.>flexion", "flexion"); (">role>! E:.n.-", "lexeme"); (">role>! E:.n.->content>group_0 1>a.", "d")]) by (vm_compute; reflexivity).
    rewrite <- X in Y. exact Y.
Qed.

(** What is listed for the decorations [ds] of the USL [u] read by the parser. *)
Definition shown (u : usl) (ds : list decoration) : res (list (string * string)) :=
  do i <- snd (instanced string String.eqb as_it_is (parsed u) u (map Some ds) no_literal);
  Ok (map (fun d => (path_str (fst d), snd d)) (i_decorations i)).
(** A morpheme that is at two places has one object: the decoration of one place is listed for
    both. The decorations of a constant, of a group, and of a whole lexeme are lost. A decoration
    by the path of a flexion cannot be put on a polymorpheme. *)
Theorem C60_refuted :
  (exists p, shown (ULexeme (lx (mk_pm [A_] []) (mk_pm [A_] []))) [(p, "x")] = Ok [(">flexion>wa.", "x"); (">content>constant>wa.", "x")] /\ path_str p = ">content>constant>wa.") /\
  (exists p, shown (UPm P22) [(p, "x")] = Ok [] /\ path_str p = ">constant") /\
  (exists p, shown (UPm P22) [(p, "x")] = Ok [] /\ path_str p = ">group_0 1") /\
  (exists p, shown (ULexeme X1) [(p, "x")] = Ok [] /\ path_str p = ">") /\
  (exists p, shown (UPm P22) [(p, "x")] = Err AssertionError /\ finds (UPm P22) (p, "x")).
Proof.
  split; [exists (PLex Content (Some (PPoly Constant (Some A_) None None))); split; vm_compute; reflexivity|].
  split; [exists (PPoly Constant None None None); split; vm_compute; reflexivity|].
  split; [exists (PPoly Group0 None (Some 1) None); split; vm_compute; reflexivity|].
  split; [exists (PUsl None); split; vm_compute; reflexivity|].
  exists (PFlex A_ None). split; [vm_compute; reflexivity|]. exists (UScript A_). vm_compute. reflexivity.
Qed.
Print Assumptions C60_refuted.

(** * C61 *)
Lemma contained_kept ds u dec : contained_in ds u = Ok dec ->
  dec = filter (fun d => match deref (fst d) (Some u) with Ok _ => true | Err _ => false end) ds /\
  Forall (fun d => deref (fst d) (Some u) = Err KeyError \/ exists x, deref (fst d) (Some u) = Ok x) ds.
Proof.
  revert dec. induction ds as [|d ds IH]; intros dec E; cbn [contained_in] in E; [injection E as <-; auto|].
  unfold contained in E. cbn [filter]. destruct (deref (fst d) (Some u)) as [x|e] eqn:D.
  - cbn [bind] in E. destruct (contained_in ds u) as [r|]; cbn [bind] in E; [|discriminate]. injection E as <-. destruct (IH r eq_refl) as [-> F]. split; [reflexivity|]. constructor; [right; eauto|exact F].
  - destruct e; cbn [bind] in E; try discriminate. destruct (contained_in ds u) as [r|]; cbn [bind] in E; [|discriminate]. injection E as <-. destruct (IH r eq_refl) as [-> F]. split; [reflexivity|]. constructor; [left; exact D|exact F].
Qed.
Lemma kept_filter ds u dec : contained_in ds u = Ok dec -> Forall (finds u) dec -> dec = filter (found u) ds.
Proof.
  intros E F. apply contained_kept in E as [E _]. subst dec. induction ds as [|d ds IH]; [reflexivity|]. cbn [filter] in *. unfold found at 1.
  destruct (deref (fst d) (Some u)) as [[x|]|e] eqn:D; [|exfalso|apply IH, F]; apply Forall_cons_iff in F as [Fd F].
  - f_equal. apply IH, F.
  - destruct Fd as [x X]. congruence.
Qed.
(** The singular sequences of an instanced USL are those of its USL. One where no decoration finds
    a component is the plain USL. The others are instanced with the decorations which find
    a component in it, listed at every place of their objects. *)
Lemma usl_ss_variants so u us : usl_ss so u = Ok us -> variants so u us.
Proof.
  destruct u as [s|p|l|w]; cbn [usl_ss variants]; intros E; [discriminate|now injection E as <-..|].
  destruct (word_ss so w) as [ws|e]; [|discriminate]. injection E as <-. eauto.
Qed.
Lemma variants_usl_ss so u us : variants so u us -> usl_ss so u = Ok us.
Proof.
  destruct u as [s|p|l|w]; cbn [usl_ss variants]; intros E; [easy|now subst..|]. destruct E as (ws & -> & ->). reflexivity.
Qed.
Theorem C61_singular_sequences : forall (obj : Type) (eqb : obj -> obj -> bool), (forall a b, eqb a b = true <-> a = b) ->
  forall sorted so ws i h h' l, (forall l l', sorted l = Ok l' -> Permutation l l') -> (forall o, literal _ h o = None) ->
  instanced_ss obj eqb sorted so ws i h = (h', Ok l) ->
  exists us, variants so (i_usl i) us /\ List.length l = List.length us /\
  forall n u x, nth_error us n = Some u -> nth_error l n = Some x ->
    let ds := filter (found u) (i_decorations i) in
    match x with
    | inl u' => u' = u /\ ds = []
    | inr i' => i_usl i' = u /\ ds <> [] /\ exists items, iter_path u = Ok items /\
        forall p v, In (p, v) (i_decorations i') <-> exists m y, nth_error items m = Some (p, y) /\ value_at (ws n) ds h (element _ (ws n) m) v
    end.
Proof.
  intros obj eqb S sorted so ws i h h' l P N E. unfold instanced_ss in E. destruct (usl_ss so (i_usl i)) as [us|e] eqn:Eu; [|discriminate]. exists us. split; [apply usl_ss_variants; auto|]. clear Eu.
  assert (X : forall k (g : heap obj) g' l, (forall o, literal _ g o = None) -> all_ss obj eqb sorted ws (i_decorations i) k us g = (g', Ok l) -> List.length l = List.length us /\
    forall n u x, nth_error us n = Some u -> nth_error l n = Some x ->
    let ds := filter (found u) (i_decorations i) in
    match x with
    | inl u' => u' = u /\ ds = []
    | inr i' => i_usl i' = u /\ ds <> [] /\ exists items, iter_path u = Ok items /\
        forall p v, In (p, v) (i_decorations i') <-> exists m y, nth_error items m = Some (p, y) /\ value_at (ws (k + n)) ds h (element _ (ws (k + n)) m) v
    end).
  2:{ destruct (X 0 h h' l N E) as [L Q]. split; [exact L|exact Q]. }
  clear E l h'. induction us as [|u us IH]; intros k g g' l Ng E; cbn [all_ss] in E.
  - injection E as _ <-. split; [reflexivity|]. intros [|n] u x Hu; discriminate.
  - unfold andthen in E. destruct (one_ss obj eqb sorted (ws k) (i_decorations i) u g) as [g1 [x1|e]] eqn:O; [|discriminate].
    assert (Ng1 : forall o, literal _ g1 o = None).
    { intros o. pose proof (one_ss_none _ S _ _ _ _ _ _ _ O) as Q. destruct (literal _ g1 o) as [v|] eqn:V; [|reflexivity]. apply Q in V. rewrite Ng in V. discriminate. }
    destruct (all_ss obj eqb sorted ws (i_decorations i) (Datatypes.S k) us g1) as [g2 [l2|e]] eqn:A; [|discriminate]. injection E as _ <-.
    destruct (IH _ _ _ _ Ng1 A) as [L Q]. split; [simpl; congruence|]. intros [|n] u' x Hu Hx.
    + cbn in Hu, Hx. injection Hu as <-. injection Hx as <-. rewrite Nat.add_0_r. clear -O S P N Ng.
      unfold one_ss, in_context in O. destruct (contained_in (i_decorations i) u) as [dec|] eqn:C; [|discriminate]. destruct dec as [|d dec].
      * injection O as _ <-. split; [reflexivity|]. symmetry. apply (kept_filter _ _ _ C). constructor.
      * unfold andthen in O. destruct (instanced obj eqb sorted (ws k) u (map Some (d :: dec)) (enter obj g)) as [g3 [i'|]] eqn:I; [|discriminate]. injection O as _ <-.
        apply (C60_decorations obj eqb S) in I; [|exact P]. destruct I as (U & F & items & It & Q). pose proof (kept_filter _ _ _ C F) as K. split; [exact U|]. rewrite <- K. split; [discriminate|]. exists items. split; [exact It|].
        intros p v. rewrite Q. split; intros (m & y & Hm & V); exists m, y; (split; [exact Hm|]); (destruct V as [V|[_ V]]; [left; exact V|]); cbn in V; [rewrite Ng in V|rewrite N in V]; discriminate.
    + cbn in Hu, Hx. specialize (Q n u' x Hu Hx). replace (k + Datatypes.S n) with (Datatypes.S k + n) by lia. exact Q.
Qed.
Print Assumptions C61_singular_sequences.
(** Decorations which find nothing in the singular sequences are no error. *)
Theorem C61_nothing_found : forall (obj : Type) (eqb : obj -> obj -> bool) sorted so ws i h us,
  variants so (i_usl i) us -> (forall u d, In u us -> In d (i_decorations i) -> deref (fst d) (Some u) = Err KeyError) ->
  exists h', instanced_ss obj eqb sorted so ws i h = (h', Ok (map inl us)).
Proof.
  intros obj eqb sorted so ws i h us E K. unfold instanced_ss. rewrite (variants_usl_ss _ _ _ E). clear E. generalize 0 as k. revert h. induction us as [|u us IH]; intros h k; cbn [all_ss map]; [eexists; reflexivity|].
  unfold andthen. assert (C : contained_in (i_decorations i) u = Ok []).
  { specialize (K u). clear -K. induction (i_decorations i) as [|d ds IH]; [reflexivity|]. cbn [contained_in]. unfold contained. rewrite (K d) by (simpl; auto). cbn [bind]. rewrite IH by (intros; apply K; simpl; auto). reflexivity. }
  unfold one_ss, in_context. rewrite C. destruct (IH (fun u' d Hu Hd => K u' d (or_intror Hu) Hd) (leave obj eqb (enter obj h)) (S k)) as [h' ->]. eexists. reflexivity.
Qed.
Print Assumptions C61_nothing_found.
Definition D61 : list decoration := [(PPoly Constant (Some A_) None None, "x"); (PPoly Group0 (Some D_) (Some 1) None, "y")].
Definition I61 : instance :=
  match snd (instanced string String.eqb as_it_is (parsed (UPm P22)) (UPm P22) (map Some D61) no_literal) with
  | Ok i => i
  | Err _ => {| i_usl := UPm P22; i_flexion := false; i_decorations := [] |}
  end.
Definition W61 (n : nat) : world string := parsed (UPm (nth n (pm_ss (fun l => l) P22) P22)).
(** The decoration of the constant stays in the nine singular sequences, that of the group does not. *)
Example C61_case : map (fun d => (path_str (fst d), snd d)) (i_decorations I61) = [(">constant>wa.", "x"); (">group_0 1>a.", "y")] /\
  match snd (instanced_ss string String.eqb as_it_is (fun l => l) W61 I61 no_literal) with
  | Ok l => map (fun x => match x with inl u => (usl_str u, []) | inr i => (usl_str (i_usl i), map (fun d => (path_str (fst d), snd d)) (i_decorations i)) end) l
  | Err _ => []
  end = map (fun t => (t, [(">constant>wa.", "x")])) ["wa."; "wa. e."; "wa. a."; "wa. i."; "wa. b."; "wa. e. i."; "wa. e. b."; "wa. a. i."; "wa. a. b."].
Proof. split; vm_compute; reflexivity. Qed.
