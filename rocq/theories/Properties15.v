(** Properties of the factorisation: C10, C11, C62. *)
From Coq Require Import List String Bool NArith Arith Lia Permutation.
From Verif Require Import Base Script ScriptParser SortProofs ScriptWf ScriptStrProofs ScriptOrderProofs ScriptSpec ScriptCtorProofs ScriptParseProofs ScriptSeqProofs ScriptMoreProofs ScriptAlgProofs
  Properties1 TablesProofs Factor FactorSpec FactorTotalProofs FactorTopProofs.
Import ListNotations.
Local Open Scope string_scope.

(** * C10 *)
(** The words of the result are those of the script, no sum of the result has two terms with a
    common word, and its length is the number of distinct words of the script. *)
Theorem C10_script : forall so promoted s r, set_order so -> constructible s ->
  factorize so promoted (inl s) = Ok r -> exactly r (layer s) (means s).
Proof.
  intros so p s r SO H E. pose proof (one_script so SO p s (constructible_wf s H)) as G. rewrite E in G. apply G.
Qed.
Print Assumptions C10_script.

(** The same thing in terms of the singular sequences that the two scripts list. *)
Theorem C10_singular_sequences : forall so promoted s r, set_order so -> constructible s ->
  factorize so promoted (inl s) = Ok r ->
  exists l l', ss s = Ok l /\ ss r = Ok l' /\ NoDup (map str l') /\ cardinal r = N.of_nat (List.length l') /\
    forall t, In t (map str l') <-> In t (map str l).
Proof.
  intros so p s r SO H E. pose proof (constructible_wf s H) as W. pose proof (one_script so SO p s W) as G. rewrite E in G. destruct G as (Wr & L & M & D & _).
  destruct (ss_total s W) as (l & El & F & P & _). destruct (ss_total r Wr) as (l' & El' & F' & P' & C). exists l, l'. split; auto. split; auto.
  assert (Sw : forall w, In w (map wordof l') <-> In w (map wordof l)).
  { intros w. split; intros Hw.
    - apply (Permutation_in _ P'), words_means, M, words_means in Hw. apply (Permutation_in _ (Permutation_sym P)). auto.
    - apply (Permutation_in _ P), words_means, M, words_means in Hw. apply (Permutation_in _ (Permutation_sym P')). auto. }
  rewrite Forall_forall in F, F'. rewrite L in F'.
  split; [|split; [congruence|]].
  - assert (N : NoDup (map wordof l')) by (eapply Permutation_NoDup; [apply Permutation_sym, P'|now apply words_nodup]). clear -N F'.
    induction l' as [|x l' IH]; simpl in *; [constructor|]. inversion N as [|? ? N1 N2]; subst. constructor; [|auto].
    intros Hi. apply N1. apply in_map_iff in Hi as (y & Ey & Hy). apply in_map_iff. exists y. split; [|exact Hy]. apply (sing1_word (layer s) y x); auto. apply String.eqb_eq. exact Ey.
  - intros t. rewrite !in_map_iff. split; intros (x & <- & Hx).
    + assert (X : In (wordof x) (map wordof l)) by (apply Sw, in_map; auto). apply in_map_iff in X. destruct X as (y & Ey & Hy). exists y. split; auto. apply String.eqb_eq. apply (sing1_word (layer s) y x); auto.
    + assert (X : In (wordof x) (map wordof l')) by (apply Sw, in_map; auto). apply in_map_iff in X. destruct X as (y & Ey & Hy). exists y. split; auto. apply String.eqb_eq. apply (sing1_word (layer s) y x); auto.
Qed.
Print Assumptions C10_singular_sequences.

(** A list of scripts, promoted to the highest layer among them unless they all have it. Missing:
    lists with one-term sums, see [C10_refuted]. *)
Theorem C10_list_partial : forall so promoted l n r, set_order so -> (forall x, In x l -> regular x) -> top_layer l n ->
  (promoted = false -> forall x, In x l -> layer x = n) ->
  factorize so promoted (inr l) = Ok r -> exactly r n (gathered l n).
Proof.
  intros so p l n r SO H T Pr E. pose proof (script_list so SO p l n (fun x Hx => regular_nf x (H x Hx)) T Pr) as G. rewrite E in G. apply G.
Qed.
Print Assumptions C10_list_partial.

(** [factorize([script("U:+U:"), script("A:")])] is A: and U: is lost. *)
Theorem C10_refuted : exists l r, (forall x, In x l -> constructible x) /\ top_layer l 0 /\
  factorize ident true (inr l) = Ok r /\ gathered l 0 [Some PU] /\ ~ means r [Some PU].
Proof.
  exists [text "U:+U:"; text "A:"]. eexists. split; [intros x [<-|[<-|[]]]; text_ok|]. show "U:+U:". show "A:". split; [|split; [vm_compute; reflexivity|split]].
  - split; [exists (Prim PA); split; [simpl; auto|reflexivity]|]. intros x [<-|[<-|[]]]; apply Nat.le_refl.
  - exists (Add [Prim PU]), [Some PU]. split; [simpl; auto|]. split; [simpl; auto|reflexivity].
  - simpl. intros [X|[]]. discriminate.
Qed.
Print Assumptions C10_refuted.

Example C10_case : constructible (text "wo.+wa.+y.+U:M:.") /\
  str (text "wo.+wa.+y.+U:M:.") = "wo.+wa.+y.+U:M:." /\
  (exists r, factorize ident true (inl (text "wo.+wa.+y.+U:M:.")) = Ok r /\ str r = "U:F:.") /\
  (exists r, factorize ident true (inr [text "wo."; text "O:"; text "a.i.-+u.-"]) = Ok r /\ str r = "a.i.-+wo.+u.+O:.-") /\
  regular (text "wo.") /\ regular (text "O:") /\ regular (text "a.i.-+u.-") /\ top_layer [text "wo."; text "O:"; text "a.i.-+u.-"] 2.
Proof.
  split; [text_ok|]. split; [vm_compute; reflexivity|]. split; [eexists; split; vm_compute; reflexivity|]. split; [eexists; split; vm_compute; reflexivity|].
  split; [text_reg|]. split; [text_reg|]. split; [text_reg|]. split.
  - exists (text "a.i.-+u.-"). split; [simpl; auto|vm_compute; reflexivity].
  - intros x [<-|[<-|[<-|[]]]]; vm_compute; lia.
Qed.

(** * C11 *)
(** Five corners of a cube: the search asks for the relations of a corner that it has removed. *)
Theorem C11_refuted : exists s, regular s /\ sums_disjoint s /\ cardinal s = 5%N /\
  forall promoted, factorize ident promoted (inl s) = Err KeyError.
Proof.
  exists (text "U:U:U:.+U:A:A:.+A:U:A:.+A:A:U:.+A:A:A:."). split; [text_reg|]. split; [|split; [vm_compute; reflexivity|intros []; vm_compute; reflexivity]].
  apply words_nodup; [apply constructible_wf; text_ok|]. show "U:U:U:.+U:A:A:.+A:U:A:.+A:A:U:.+A:A:A:.". cbn.
  repeat (constructor; [cbn; intuition discriminate|]). constructor.
Qed.
Print Assumptions C11_refuted.

(** A list of two scripts, one of them a one-term sum. *)
Theorem C11_refuted_one_term_sum : exists l, (forall x, In x l -> constructible x) /\ top_layer l 1 /\
  factorize ident true (inr l) = Err IndexError.
Proof.
  exists [text "wo.+wo."; text "wa."]. split; [intros x [<-|[<-|[]]]; text_ok|]. split; [|vm_compute; reflexivity]. split.
  - exists (text "wa."). split; [simpl; auto|vm_compute; reflexivity].
  - intros x [<-|[<-|[]]]; vm_compute; lia.
Qed.
Print Assumptions C11_refuted_one_term_sum.

(** [factorize] of a script ends, and the only exception is that KeyError. *)
Theorem C11_outcome_partial : forall so promoted s, set_order so -> constructible s ->
  match factorize so promoted (inl s) with Ok r => exactly r (layer s) (means s) | Err e => e = KeyError end.
Proof.
  intros so p s SO H. pose proof (constructible_wf s H) as W. pose proof (one_script so SO p s W) as G.
  destruct (factorize so p (inl s)) as [r|e]; [apply G|]. destruct G as [(-> & _)|(_ & ws & N & I & C)]; auto. exfalso.
  assert (X : List.length ws <= List.length (words s)) by (apply NoDup_incl_length; [auto|intros w Hw; apply words_means; auto]).
  pose proof (length_words s W) as Y. assert (Z : (cardinal s <= MAX_SINGULAR_SEQUENCES)%N) by (destruct s; [unfold MAX_SINGULAR_SEQUENCES; cbn; lia..| |]; apply W). lia.
Qed.
Print Assumptions C11_outcome_partial.

(** For a list of scripts with at most 360 singular sequences too. *)
Theorem C11_list_outcome_partial : forall so promoted l n, set_order so -> (forall x, In x l -> regular x) -> top_layer l n ->
  (promoted = false -> forall x, In x l -> layer x = n) ->
  match factorize so promoted (inr l) with
  | Ok r => exactly r n (gathered l n)
  | Err e => e = KeyError \/ (e = TooManySingularSequences /\ too_many (gathered l n))
  end.
Proof.
  intros so p l n SO H T Pr. pose proof (script_list so SO p l n (fun x Hx => regular_nf x (H x Hx)) T Pr) as G.
  destruct (factorize so p (inr l)) as [r|e]; [apply G|]. destruct G as [(-> & _)|G]; auto.
Qed.
Print Assumptions C11_list_outcome_partial.

(** A script is returned when the words, or the thirds of which they are all the combinations, have
    a third in common and so on down to the letters. This is so for every script of layer 1 whose
    words agree on one of their three letters, and for the products of such sets. *)
Theorem C11_easy_partial : forall so promoted s, set_order so -> constructible s -> easy (layer s) (means s) ->
  exists r, factorize so promoted (inl s) = Ok r.
Proof.
  intros so p s SO H Ea. pose proof (C11_outcome_partial so p s SO H) as O. pose proof (one_script so SO p s (constructible_wf s H)) as G.
  destruct (factorize so p (inl s)) as [r|e]; [eauto|]. subst e. destruct G as [(_ & N)|(X & _)]; [elim N; auto|discriminate].
Qed.
Print Assumptions C11_easy_partial.
Theorem C11_easy_list_partial : forall so promoted l n, set_order so -> (forall x, In x l -> regular x) -> top_layer l n ->
  (promoted = false -> forall x, In x l -> layer x = n) -> easy n (gathered l n) -> ~ too_many (gathered l n) ->
  exists r, factorize so promoted (inr l) = Ok r.
Proof.
  intros so p l n SO H T Pr Ea Nm. pose proof (script_list so SO p l n (fun x Hx => regular_nf x (H x Hx)) T Pr) as G.
  destruct (factorize so p (inr l)) as [r|e]; [eauto|]. destruct G as [(_ & N)|(_ & X)]; [elim N; auto|elim Nm; auto].
Qed.
Print Assumptions C11_easy_list_partial.

(** An empty list is refused. *)
Theorem C11_empty : forall so, factorize so true (inr []) = Err ValueError /\ factorize so false (inr []) = Err StopIteration.
Proof. intros so. split; reflexivity. Qed.
Print Assumptions C11_empty.

Lemma easy_decide n W : flat n W -> easy n W.
Proof. destruct n; cbn [easy]; auto. Qed.
Example C11_case : easy 1 (means (text "wo.+wa.+y.+U:M:.")) /\ constructible (text "wo.+wa.+y.+U:M:.") /\ cardinal (text "wo.+wa.+y.+U:M:.") = 6%N.
Proof.
  split; [|split; [text_ok|vm_compute; reflexivity]]. apply easy_decide. split; [|cbn; auto]. left.
  assert (X : forall w, means (text "wo.+wa.+y.+U:M:.") w -> third 0 0 w = [Some PU]).
  { show "wo.+wa.+y.+U:M:.". cbn. intros w H. repeat match goal with H : _ \/ _ |- _ => destruct H | H : exists _, _ |- _ => destruct H | H : _ /\ _ |- _ => destruct H | H : False |- _ => destruct H end; subst; reflexivity. }
  intros w w' Hw Hw'. rewrite (X w), (X w'); auto.
Qed.

(** * C62 *)
Definition rot (l : list script) : list script := (skipn 3 l ++ firstn 3 l)%list.
Lemma rot_order : set_order rot.
Proof. intros l. unfold rot. eapply perm_trans; [apply Permutation_app_comm|]. rewrite firstn_skipn. auto. Qed.
(** Two runs which iterate over sets in different orders factorise a script differently; so one of
    the runs does not leave the factorisation of the other unchanged. *)
Theorem C62_refuted : exists s a b, regular s /\ set_order ident /\ set_order rot /\
  factorize ident true (inl s) = Ok a /\ factorize rot true (inl s) = Ok b /\ str a <> str b /\
  factorize ident true (inl a) = Ok a /\ exists a', factorize rot true (inl a) = Ok a' /\ str a' <> str a.
Proof.
  exists (text "wo.U:U:.-+wo.U:A:.-+wo.A:A:.-+wo.A:S:.-+wo.S:S:.-"), (text "wo.s.+U:O:.+A:A:+S:.-"), (text "wo.wo.+O:A:.+A:+S:S:.-").
  split; [text_reg|]. split; [apply set_order_id|]. split; [apply rot_order|].
  split; [vm_compute; reflexivity|]. split; [vm_compute; reflexivity|]. split; [vm_compute; discriminate|]. split; [vm_compute; reflexivity|].
  eexists. split; [vm_compute; reflexivity|vm_compute; discriminate].
Qed.
Print Assumptions C62_refuted.
