(** Proofs about the literals of instanced USLs. *)
From Coq Require Import List String Bool Arith Lia Permutation.
From Verif Require Import Base Script Usl Sfun UslParser Path Instance InstanceSpec.
Import ListNotations.
Local Open Scope string_scope.

Section Proofs.
  Context {obj : Type} (eqb : obj -> obj -> bool).
  Hypothesis eqb_spec : forall a b, eqb a b = true <-> a = b.
  Local Notation heap := (heap obj).

  Lemma eqb_refl a : eqb a a = true.
  Proof. apply eqb_spec. reflexivity. Qed.
  Lemma eqb_neq a b : a <> b -> eqb a b = false.
  Proof. intros N. destruct (eqb a b) eqn:E; [apply eqb_spec in E; contradiction|reflexivity]. Qed.
  Lemma obj_dec (a b : obj) : a = b \/ a <> b.
  Proof. destruct (eqb a b) eqn:E; [left; apply eqb_spec; exact E|right; intros ->; rewrite eqb_refl in E; discriminate]. Qed.
  Lemma in_obj_dec (o : obj) l : In o l \/ ~ In o l.
  Proof.
    induction l as [|a l IH]; [right; intros []|].
    destruct (obj_dec a o) as [->|N]; [left; left; reflexivity|].
    destruct IH as [I|I]; [left; right; exact I|right; intros [E|E]; [exact (N E)|exact (I E)]].
  Qed.

  Lemma clear_all l (h : heap) o :
    (In o l -> literal _ (fold_left (clear_literal obj eqb) l h) o = None) /\
    (~ In o l -> literal _ (fold_left (clear_literal obj eqb) l h) o = literal _ h o).
  Proof.
    revert h. induction l as [|a l IH]; intros h; cbn [fold_left]; [split; [intros []|reflexivity]|].
    destruct (IH (clear_literal obj eqb h a)) as [I1 I2]. split.
    - intros [->|I]; [|exact (I1 I)].
      destruct (in_obj_dec o l) as [I|I]; [exact (I1 I)|]. rewrite (I2 I). cbn. rewrite eqb_refl. reflexivity.
    - intros N. rewrite I2 by (intros I; apply N; right; exact I). cbn.
      rewrite eqb_neq; [reflexivity|]. intros ->. apply N. left. reflexivity.
  Qed.

  Lemma leave_spec (h : heap) o :
    (In o (stack _ h) -> literal _ (leave obj eqb h) o = None) /\
    (~ In o (stack _ h) -> literal _ (leave obj eqb h) o = literal _ h o).
  Proof. exact (clear_all (stack _ h) h o). Qed.

  (** A computation inside a context: what changes is in the stack. *)
  Definition tracked (h h' : heap) : Prop :=
    (forall o, ~ In o (stack _ h') -> literal _ h' o = literal _ h o) /\ incl (stack _ h) (stack _ h').
  Lemma tracked_refl h : tracked h h.
  Proof. split; [reflexivity|intros x I; exact I]. Qed.
  Lemma tracked_trans h1 h2 h3 : tracked h1 h2 -> tracked h2 h3 -> tracked h1 h3.
  Proof.
    intros [A B] [C D]. split; [|intros x I; exact (D _ (B _ I))].
    intros o N. rewrite (C _ N). apply A. intros I. exact (N (D _ I)).
  Qed.

  (** Runs of steps. *)
  Lemma run_app h l1 l2 : run obj eqb h (l1 ++ l2) = run obj eqb (run obj eqb h l1) l2.
  Proof. apply fold_left_app. Qed.
  Lemma apply_all_run w u ds : forall flexion h h' r,
    apply_all obj eqb w u flexion ds h = (h', r) -> h' = run obj eqb h (sets obj w u ds).
  Proof.
    induction ds as [|[d|] ds IH]; intros fl h h' r E; cbn [apply_all sets] in *.
    - injection E as <- _. reflexivity.
    - unfold andthen, apply in E. destruct (deref (fst d) (Some u)) as [[x|]|e] eqn:Dx; cbv iota in E.
      + exact (IH _ _ _ _ E).
      + injection E as <- _. reflexivity.
      + injection E as <- _. reflexivity.
    - injection E as <- _. reflexivity.
  Qed.
  Lemma instanced_run sorted w u ds h h' r :
    instanced obj eqb sorted w u ds h = (h', r) -> h' = run obj eqb h (ops obj w u ds).
  Proof.
    unfold instanced, in_context, andthen. destruct (apply_all obj eqb w u false ds (enter obj h)) as [h1 [b|e]] eqn:A.
    - apply apply_all_run in A. intros E. unfold ops. cbn [run fold_left]. fold (run obj eqb).
      change (fold_left (step obj eqb) ?l ?x) with (run obj eqb x l). rewrite run_app. cbn [step]. rewrite <- A.
      destruct (do l <- list_decorations obj w u b h1; sorted l); injection E as <- _; reflexivity.
    - apply apply_all_run in A. intros E. unfold ops. cbn [run fold_left].
      change (fold_left (step obj eqb) ?l ?x) with (run obj eqb x l). rewrite run_app. cbn [step]. rewrite <- A.
      injection E as <- _. reflexivity.
  Qed.

  (** The objects put in a run of sets. *)
  Definition puts (l : list (op obj)) : list (obj * string) :=
    flat_map (fun x => match x with Set_ _ o v => [(o, v)] | _ => [] end) l.
  Lemma sets_only w u ds : Forall (fun x => exists o v, x = Set_ obj o v) (sets obj w u ds).
  Proof.
    induction ds as [|[d|] ds IH]; cbn [sets]; try constructor.
    destruct (deref (fst d) (Some u)) as [[x|]|e]; constructor; [eauto|exact IH].
  Qed.
  Lemma run_sets l : Forall (fun x => exists o v, x = Set_ obj o v) l -> forall h,
    stack _ (run obj eqb h l) = (stack _ h ++ map fst (puts l))%list /\
    forall o, ~ In o (map fst (puts l)) -> literal _ (run obj eqb h l) o = literal _ h o.
  Proof.
    induction 1 as [|x l (a & v & ->) F IH]; intros h; [split; [symmetry; apply app_nil_r|reflexivity]|].
    cbn [run fold_left step]. change (fold_left (step obj eqb) ?l ?x) with (run obj eqb x l).
    destruct (IH (set_literal obj eqb a v h)) as [S L]. cbn [puts flat_map app map] in *. fold (puts l).
    split.
    - rewrite S. cbn [stack set_literal fst]. rewrite <- app_assoc. reflexivity.
    - intros o N. rewrite L by (intros I; apply N; right; exact I). cbn.
      rewrite eqb_neq; [reflexivity|]. intros ->. apply N. left. reflexivity.
  Qed.
  Lemma sets_in w u ds o :
    In o (map fst (puts (sets obj w u ds))) <-> exists d, put u ds d /\ target _ w (fst d) = o.
  Proof.
    induction ds as [|[d|] ds IH]; cbn [sets].
    - split; [intros []|intros (d & (b & a & E & _) & _); destruct b; discriminate].
    - destruct (deref (fst d) (Some u)) as [[x|]|e] eqn:D.
      + cbn [puts flat_map app map]. split.
        * intros [E|I]; [exists d; split; [exists [], ds; split; [reflexivity|constructor; [exists x; exact D|constructor]]|exact E]|].
          apply (proj1 IH) in I as (d' & (b & a & E & F) & T).
          exists d'. split; [|exact T]. exists (d :: b), a. split; [cbn; rewrite E; reflexivity|].
          constructor; [exists x; exact D|exact F].
        * intros (d' & (b & a & E & F) & T). destruct b as [|d0 b]; cbn in E.
          -- injection E as -> _. left. exact T.
          -- injection E as -> E. right. apply IH. exists d'. split; [|exact T]. exists b, a. split; [exact E|].
             inversion F; assumption.
      + split; [intros []|]. intros (d' & (b & a & E & F) & T). exfalso.
        destruct b as [|d0 b]; cbn in E; injection E as -> E; inversion F as [|? ? (x & X) ?]; subst; congruence.
      + split; [intros []|]. intros (d' & (b & a & E & F) & T). exfalso.
        destruct b as [|d0 b]; cbn in E; injection E as -> E; inversion F as [|? ? (x & X) ?]; subst; congruence.
    - split; [intros []|]. intros (d' & (b & a & E & F) & T). destruct b; discriminate.
  Qed.

  Lemma ops_cleaned w u ds h : cleaned w u ds h (run obj eqb h (ops obj w u ds)) /\ stack _ (run obj eqb h (ops obj w u ds)) = [].
  Proof.
    unfold ops. cbn [run fold_left].
    change (fold_left (step obj eqb) ?l ?x) with (run obj eqb x l). rewrite run_app. cbn [step].
    change (run obj eqb ?x [Leave obj]) with (leave obj eqb x). split; [|reflexivity].
    destruct (run_sets _ (sets_only w u ds) (enter obj h)) as [S L]. cbn [stack enter app] in S.
    intros o. destruct (leave_spec (run obj eqb (enter obj h) (sets obj w u ds)) o) as [A B]. rewrite S in A, B. split.
    - intros I. apply A, sets_in, I.
    - intros N. assert (N' : ~ In o (map fst (puts (sets obj w u ds)))) by (intros I; apply N, sets_in, I).
      rewrite (B N'). exact (L _ N').
  Qed.
  Lemma cleaned_none_new (w : world obj) u ds (h h' : heap) : cleaned w u ds h h' -> none_new h h'.
  Proof.
    intros C o v E. destruct (C o) as [A B].
    destruct (in_obj_dec o (map fst (puts (sets obj w u ds)))) as [I|I].
    - rewrite A in E by (apply sets_in; exact I). discriminate.
    - rewrite <- B; [exact E|]. intros X. apply I, sets_in, X.
  Qed.
  Lemma none_new_trans (h1 h2 h3 : heap) : none_new h1 h2 -> none_new h2 h3 -> none_new h1 h3.
  Proof. intros A B o v E. exact (A _ _ (B _ _ E)). Qed.

  Lemma instanced_none sorted w u ds h h' r :
    instanced obj eqb sorted w u ds h = (h', r) -> none_new h h' /\ stack _ h' = [].
  Proof.
    intros E. apply instanced_run in E. subst h'. destruct (ops_cleaned w u ds h) as [A B].
    split; [exact (cleaned_none_new _ _ _ _ _ A)|exact B].
  Qed.
  Lemma one_ss_none sorted w ds u h h' r :
    one_ss obj eqb sorted w ds u h = (h', r) -> none_new h h'.
  Proof.
    unfold one_ss, in_context.
    assert (L : forall g : heap, stack _ g = [] -> none_new h g -> none_new h (leave obj eqb g)).
    { intros g S N o v E. apply N. destruct (leave_spec g o) as [_ B]. rewrite B in E; [exact E|]. rewrite S. intros []. }
    destruct (contained_in ds u) as [[|d l]|e].
    - intros E. injection E as <- _. apply L; [reflexivity|intros o v E; exact E].
    - unfold andthen. destruct (instanced obj eqb sorted w u (map Some (d :: l)) (enter obj h)) as [h1 r1] eqn:I.
      apply instanced_none in I as [N S].
      assert (N' : none_new h h1) by (intros o v E; exact (N o v E)).
      destruct r1; intros E; injection E as <- _; exact (L _ S N').
    - intros E. injection E as <- _. apply L; [reflexivity|intros o v E; exact E].
  Qed.
  Lemma all_ss_none sorted ws ds us : forall n h h' r,
    all_ss obj eqb sorted ws ds n us h = (h', r) -> none_new h h'.
  Proof.
    induction us as [|u us IH]; intros n h h' r; cbn [all_ss].
    - intros E. injection E as <- _. intros o v E. exact E.
    - unfold andthen. destruct (one_ss obj eqb sorted (ws n) ds u h) as [h1 r1] eqn:O. apply one_ss_none in O.
      destruct r1 as [x|e].
      + destruct (all_ss obj eqb sorted ws ds (S n) us h1) as [h2 r2] eqn:A. apply IH in A.
        destruct r2; intros E; injection E as <- _; exact (none_new_trans _ _ _ O A).
      + intros E. injection E as <- _. exact O.
  Qed.
  Lemma activity_none h h' : activity eqb h h' -> none_new h h'.
  Proof.
    induction 1 as [h|sorted w u ds h h' r E|sorted so ws i h h' r E|sorted w u h h' r E|h1 h2 h3 A IA B IB].
    - intros o v E. exact E.
    - exact (proj1 (instanced_none _ _ _ _ _ _ _ E)).
    - unfold instanced_ss in E. destruct (usl_ss so (i_usl i)).
      + exact (all_ss_none _ _ _ _ _ _ _ _ E).
      + injection E as <- _. intros o v X. exact X.
    - unfold from_usl in E. destruct (do l <- list_decorations obj w u false h; sorted l).
      + exact (proj1 (instanced_none _ _ _ _ _ _ _ E)).
      + injection E as <- _. intros o v X. exact X.
    - exact (none_new_trans _ _ _ IA IB).
  Qed.

  (** The literals when the decorations are listed. *)
  Lemma apply_all_ok w u ds : forall fl h h' b,
    apply_all obj eqb w u fl (map Some ds) h = (h', Ok b) -> h' = fold_left (fun h d => set_literal obj eqb (target _ w (fst d)) (snd d) h) ds h /\ Forall (finds u) ds /\ b = existsb flexion_first ds || fl.
  Proof.
    induction ds as [|d ds IH]; intros fl h h' b E; cbn [apply_all map] in E.
    - injection E as <- <-. split; [reflexivity|split; [constructor|reflexivity]].
    - unfold andthen, apply in E. destruct (deref (fst d) (Some u)) as [[x|]|e] eqn:Dx; cbv iota in E; try discriminate.
      apply IH in E as (-> & F & ->). split; [reflexivity|]. split; [constructor; [exists x; exact Dx|exact F]|].
      cbn [existsb]. destruct (flexion_first d), (existsb flexion_first ds), fl; reflexivity.
  Qed.
  Lemma apply_all_finds w u ds : forall fl h, Forall (finds u) ds ->
    apply_all obj eqb w u fl (map Some ds) h = (fold_left (fun h d => set_literal obj eqb (target _ w (fst d)) (snd d) h) ds h, Ok (existsb flexion_first ds || fl)).
  Proof.
    induction ds as [|d ds IH]; intros fl h F; cbn [apply_all map]; [reflexivity|].
    inversion F as [|? ? (x & X) F']; subst. unfold andthen, apply. rewrite X. rewrite IH by exact F'.
    cbn [fold_left existsb]. f_equal. f_equal. destruct (flexion_first d), (existsb flexion_first ds), fl; reflexivity.
  Qed.
  Lemma value_at_fun w ds (h : heap) o v :
    literal _ (fold_left (fun h d => set_literal obj eqb (target _ w (fst d)) (snd d) h) ds h) o = Some v <-> value_at w ds h o v.
  Proof.
    revert v h. induction ds as [|[p x] ds IH] using rev_ind; intros v h.
    - cbn [fold_left]. split.
      + intros E. right. split; [constructor|exact E].
      + intros [(b & q & a & E & _)|[_ E]]; [destruct b; discriminate|exact E].
    - rewrite fold_left_app. cbn [fold_left literal set_literal fst snd]. destruct (obj_dec o (target _ w p)) as [->|N].
      + rewrite eqb_refl. split.
        * intros E. injection E as <-. left. exists ds, p, []. split; [reflexivity|split; [reflexivity|constructor]].
        * intros [(b & q & a & E & T & F)|[F _]].
          -- destruct a as [|y a _] using rev_ind.
             ++ apply app_inj_tail in E as [_ E]. congruence.
             ++ rewrite app_comm_cons, app_assoc in E. apply app_inj_tail in E as [_ <-].
                apply Forall_app in F as [_ F]. inversion F; subst. contradiction.
          -- apply Forall_app in F as [_ F]. inversion F; subst. cbn in *. contradiction.
      + rewrite (eqb_neq _ _ N), IH. split.
        * intros [(b & q & a & -> & T & F)|[F E]].
          -- left. exists b, q, (a ++ [(p, x)])%list. split; [rewrite <- app_assoc; reflexivity|]. split; [exact T|].
             apply Forall_app. split; [exact F|]. constructor; [|constructor]. intros E. apply N. symmetry. exact E.
          -- right. split; [|exact E]. apply Forall_app. split; [exact F|]. constructor; [|constructor].
             intros X. apply N. symmetry. exact X.
        * intros [(b & q & a & E & T & F)|[F E]].
          -- destruct a as [|y a _] using rev_ind.
             ++ apply app_inj_tail in E as [_ E]. injection E as -> ->. exfalso. apply N. symmetry. exact T.
             ++ rewrite app_comm_cons, app_assoc in E. apply app_inj_tail in E as [-> <-].
                apply Forall_app in F as [F _]. left. exists b, q, a. split; [reflexivity|split; assumption].
          -- apply Forall_app in F as [F _]. right. split; assumption.
  Qed.

  Lemma instanced_ok sorted w u ds h h' i :
    instanced obj eqb sorted w u (map Some ds) h = (h', Ok i) ->
    Forall (finds u) ds /\ i_usl i = u /\ (i_flexion i = true <-> exists d, In d ds /\ flexion_first d = true) /\
    exists items, iter_path u = Ok items /\
      sorted (flat_map (fun e => match literal _ (fold_left (fun h d => set_literal obj eqb (target _ w (fst d)) (snd d) h) ds (enter obj h)) (element _ w (fst e)) with Some v => [(snd e, v)] | None => [] end) (numbered (map fst items))) = Ok (i_decorations i).
  Proof.
    unfold instanced, in_context, andthen.
    destruct (apply_all obj eqb w u false (map Some ds) (enter obj h)) as [h1 [b|e]] eqn:A; [|discriminate].
    apply apply_all_ok in A as (-> & F & ->). rewrite orb_false_r.
    destruct (list_decorations obj w u (existsb flexion_first ds) _) as [l|e] eqn:L; cbn [bind]; [|discriminate].
    destruct (sorted l) as [l'|e] eqn:S; [|discriminate]. intros E. injection E as _ <-. cbn [i_usl i_flexion i_decorations].
    split; [exact F|]. split; [reflexivity|]. split; [apply existsb_exists|].
    unfold list_decorations in L.
    assert (L' : (do items <- iter_path u;
      Ok (flat_map (fun e => match literal _ (fold_left (fun h d => set_literal obj eqb (target _ w (fst d)) (snd d) h) ds (enter obj h)) (element _ w (fst e)) with Some v => [(snd e, v)] | None => [] end) (numbered (map fst items)))) = Ok l)
      by (destruct u, (existsb flexion_first ds); first [exact L|discriminate]).
    destruct (iter_path u) as [items|e]; cbn [bind] in L'; [|discriminate]. injection L' as <-.
    exists items. split; [reflexivity|exact S].
  Qed.
End Proofs.
