(** Properties of the tables of scripts: C15, C16. *)
From Coq Require Import List String Bool NArith Arith Lia Permutation.
From Verif Require Import Base Script ScriptParser SortProofs ScriptWf ScriptStrProofs ScriptOrderProofs ScriptSpec ScriptCtorProofs ScriptParseProofs ScriptSeqProofs ScriptMoreProofs ScriptAlgProofs
  Properties1 Tables TablesSpec TablesProofs TablesGridProofs TablesAllProofs.
Import ListNotations.
Local Open Scope string_scope.

Lemma texts_nodup s l : wf s -> sums_disjoint s -> ss s = Ok l -> NoDup (map str l).
Proof.
  intros W D E. destruct (ss_total s W) as (l' & E' & F & P & _). rewrite E in E'. apply Ok_inj in E'. subst l'.
  assert (N : NoDup (map wordof l)) by (eapply Permutation_NoDup; [apply Permutation_sym, P|now apply words_nodup]). clear -N F.
  induction l as [|x l IH]; simpl in *; [constructor|]. inversion N as [|? ? N1 N2]; subst. inversion F as [|? ? F1 F2]; subst. constructor; [|auto].
  intros H. apply N1. apply in_map_iff in H as (y & Ey & Hy). apply in_map_iff. exists y. split; [|exact Hy]. rewrite Forall_forall in F2. apply (sing1_word (layer s) y x); auto. apply String.eqb_eq. exact Ey.
Qed.
Lemma tables_single s : cardinal s = 1%N -> tables s = Ok {| t_cells := [[[[Some s]]]]; t_scripts := [s]; t_headers := [] |}.
Proof. intros C. destruct s; cbn [tables]; rewrite (proj2 (N.eqb_eq _ _) C); reflexivity. Qed.

(** * C15 *)
(** Whatever the script, the cells which are not empty are its singular sequences: each of them is
    one, and each one is shown. *)
Theorem C15_every_singular_sequence_is_shown : forall s t l, constructible s -> tables s = Ok t -> ss s = Ok l ->
  (forall x, In x l -> exists y, In (Some y) (flat_map all_cells (t_cells t)) /\ str y = str x) /\
  (forall y, In (Some y) (flat_map all_cells (t_cells t)) -> exists x, In x l /\ str y = str x).
Proof.
  intros s t l H E El. pose proof (constructible_wf s H) as W. destruct (tables_show s t W E) as [T1 T2]. destruct (ss_total s W) as (l' & El' & F & P & _). rewrite El in El'. apply Ok_inj in El'. subst l'.
  rewrite Forall_forall in F. split.
  - intros x Hx. destruct (T1 (wordof x)) as (y & Hy & Ey); [eapply Permutation_in; [exact P|now apply in_map]|]. exists y. split; [exact Hy|]. destruct (T2 y Hy) as [Sy _]. eapply sing1_text; eauto.
  - intros y Hy. destruct (T2 y Hy) as [Sy Hw]. apply (Permutation_in _ (Permutation_sym P)) in Hw. apply in_map_iff in Hw as (x & Ex & Hx). exists x. split; [exact Hx|]. eapply sing1_text; eauto.
Qed.
Print Assumptions C15_every_singular_sequence_is_shown.

(** When no sum in the script has overlapping terms, every cell is a singular sequence and each is
    shown exactly once. Missing: overlapping terms, see [C15_refuted]. *)
Theorem C15_exactly_once_partial : forall s t, constructible s -> sums_disjoint s -> tables s = Ok t ->
  exists l, ss s = Ok l /\ NoDup (map str l) /\
    Permutation (map (fun x => Some (str x)) l) (map (option_map str) (flat_map all_cells (t_cells t))).
Proof.
  intros s t H D E. pose proof (constructible_wf s H) as W. destruct (ss_total s W) as (l & El & F & P & _). exists l. split; [exact El|]. split; [eapply texts_nodup; eauto|].
  destruct (N.eq_dec (cardinal s) 1) as [C|N].
  - rewrite tables_single in E by exact C. apply Ok_inj in E. subst t. cbn. rewrite (words_single s W C) in P. destruct l as [|x [|y l]]; try (apply Permutation_length in P; simpl in P; lia).
    inversion F as [|? ? Sx _]; subst. apply Permutation_length_1 in P. cbn. rewrite (sing1_text (layer s) x s Sx); [apply Permutation_refl|split; auto|exact P].
  - destruct (tables_w s W D N) as [(t' & E' & (parts & R & _ & _ & _ & Pp) & _)|[E' _]]; [|congruence]. rewrite E in E'. apply Ok_inj in E'. subst t'.
    assert (X : Forall2 (has_word (layer s)) (flat_map all_cells (t_cells t)) (flat_map (fun p => all_cells (p_words p)) parts)).
    { rewrite <- (flat_map_map' p_words all_cells). eapply F2_flat_map; [|exact R]. intros x y. apply rel3_cells. }
    assert (Y : exists m, flat_map all_cells (t_cells t) = map Some m /\ Forall (sing1 (layer s)) m /\ map wordof m = flat_map (fun p => all_cells (p_words p)) parts).
    { clear -X. induction X as [|c w cs ws (x & -> & Sx & Ew) X (m & -> & Fm & Em)]; [exists []; auto|]. exists (x :: m). simpl. split; [reflexivity|]. split; [now constructor|congruence]. }
    destruct Y as (m & -> & Fm & Em). rewrite map_map. cbn [option_map]. rewrite <- (map_map str Some), <- (map_map str Some m). apply Permutation_map.
    apply (texts_perm (layer s)); auto. rewrite Em. eapply Permutation_trans; [exact P|apply Permutation_sym, Pp].
Qed.
Print Assumptions C15_exactly_once_partial.

(** When no sum has overlapping terms, the tables are built unless one has more than 12 headers in a
    dimension, and the exception is then ValueError. *)
Theorem C15_outcome_partial : forall s, constructible s -> sums_disjoint s ->
  match tables s with
  | Ok _ => ~ too_wide s
  | Err e => e = ValueError /\ too_wide s
  end.
Proof.
  intros s H D. pose proof (constructible_wf s H) as W. destruct (N.eq_dec (cardinal s) 1) as [C|N].
  - rewrite tables_single by exact C. intros T. now apply (too_wide_plural s W T).
  - destruct (tables_w s W D N) as [(t & -> & _ & T)|[-> T]]; auto.
Qed.
Print Assumptions C15_outcome_partial.

(** The table of a multiplication with two or three plural children: the product of the i-th, j-th
    and k-th singular sequences of its children is at the coordinates of the plural ones. *)
Theorem C15_coordinates_partial : forall a b c t la lb lc i j k x y z,
  constructible (Mul a b c) -> sums_disjoint (Mul a b c) -> 2 <= List.length (filter several [a; b; c]) ->
  tables (Mul a b c) = Ok t -> ss a = Ok la -> ss b = Ok lb -> ss c = Ok lc ->
  nth_error la i = Some x -> nth_error lb j = Some y -> nth_error lc k = Some z ->
  exists arr s s', t_cells t = [arr] /\ cell_at arr (coordinates a b c i j k) = Some (Some s) /\
    mk_mul_l [x; y; z] = Ok s' /\ str s = str s'.
Proof.
  intros a b c t la lb lc i j k x y z H D L E Ea Eb Ec Hx Hy Hz. pose proof (constructible_wf _ H) as W.
  assert (N : cardinal (Mul a b c) <> 1%N).
  { cbn [cardinal]. intros C. apply N.eq_mul_1 in C as [C Cc]. apply N.eq_mul_1 in C as [Ca Cb]. cbn [filter] in L. unfold several in L. rewrite Ca, Cb, Cc in L. simpl in L. lia. }
  rewrite tables_mul in E by exact N. eapply grid_at; eauto. rewrite <- plurals_filter, map_length in L. destruct (plurals a b c) as [|[n p] [|q l]]; simpl in L; try lia; exact E.
Qed.
Print Assumptions C15_coordinates_partial.

(** * C16 *)
(** The scripts and headers of the tables partition their cells. Missing: overlapping terms. *)
Theorem C16_headers_partial : forall s t, constructible s -> sums_disjoint s -> cardinal s <> 1%N -> tables s = Ok t ->
  exists parts, t_cells t = map (fun p => fst (fst p)) parts /\ t_scripts t = flat_map (fun p => snd (fst p)) parts /\
    t_headers t = flat_map snd parts /\ Forall (fun p => described (fst (fst p)) (snd (fst p)) (snd p)) parts.
Proof.
  intros s t H D N E. pose proof (constructible_wf s H) as W. destruct (tables_w s W D N) as [(t' & E' & (parts & R & St & Hd & F & _) & _)|[E' _]]; [|congruence]. rewrite E in E'. apply Ok_inj in E'. subst t'.
  exists (combine (combine (t_cells t) (map p_scripts parts)) (map p_headers parts)). rewrite St, Hd. clear St Hd E. revert R. generalize (t_cells t) as cs. intros cs R.
  revert cs R. induction F as [|p parts Fp F IH]; intros cs R; cbn [map] in R; inversion R as [|c w cs' ws Rc R']; subst; [simpl; auto|]. destruct (IH cs' R') as (E1 & E2 & E3 & E4). cbn [map combine fst snd flat_map List.concat].
  split; [now rewrite <- E1|]. split; [now rewrite <- E2|]. split; [now rewrite <- E3|]. constructor; [|exact E4]. cbn [fst snd]. eapply wpart_described; eauto.
Qed.
Print Assumptions C16_headers_partial.

Definition T15 := text "O:M:.+s.".
Definition T16 := text "O:M:.t.-".
Definition T17 := text "O:O:O:.".
Definition shown_tables (s : script) :=
  match tables s with
  | Ok t => Ok (map (map (map (map (option_map str)))) (t_cells t), map str (t_scripts t), map (map (map str)) (t_headers t))
  | Err e => Err e
  end.
Fixpoint distinct (l : list string) : bool := match l with [] => true | x :: r => negb (memb String.eqb x r) && distinct r end.
Lemma distinct_nodup l : distinct l = true -> NoDup l.
Proof.
  induction l as [|x l IH]; simpl; [constructor|]. intros H. apply andb_prop in H as [H1 H2]. constructor; [|auto]. intros Hx. apply negb_true_iff in H1.
  enough (memb String.eqb x l = true) by congruence. apply existsb_exists. exists x. split; [exact Hx|apply String.eqb_refl].
Qed.
Lemma by_texts s : constructible s -> match ss s with Ok l => distinct (map str l) = true | Err _ => False end -> sums_disjoint s.
Proof.
  intros H N. destruct (C08_singular_sequences_are_sorted s H) as (l & E & _ & X & _). rewrite E in N. apply X. now apply distinct_nodup.
Qed.
Definition T18 := text "M:M:.+M:O:.+O:M:.O:.-".
Definition T19 := text "O:U:.+U:O:.U:M:.-".
Definition T20 := text "O:U:.+U:O:.O:U:.-U:.-'".
(** A column, a table inherited from the only plural child, a table for each tab, and a script
    with too many rows. *)
Example C15_case : constructible T15 /\ sums_disjoint T15 /\ constructible T16 /\ sums_disjoint T16 /\ constructible T17 /\ sums_disjoint T17 /\
  constructible T18 /\ sums_disjoint T18 /\ tables T18 = Err ValueError /\
  shown_tables T15 = Ok ([[[[Some "y."]]; [[Some "o."]]; [[Some "e."]]; [[Some "u."]]; [[Some "a."]]; [[Some "i."]]; [[Some "s."]]]], ["s.+O:M:."], [[["s.+O:M:."]]]) /\
  shown_tables T16 = Ok ([[[[Some "y.t.-"]; [Some "o.t.-"]; [Some "e.t.-"]]; [[Some "u.t.-"]; [Some "a.t.-"]; [Some "i.t.-"]]]], ["O:M:.t.-"],
    [[["U:M:.t.-"; "A:M:.t.-"]; ["O:S:.t.-"; "O:B:.t.-"; "O:T:.t.-"]]]).
Proof.
  split; [text_ok|]. split; [apply by_texts; [text_ok|vm_compute; reflexivity]|]. split; [text_ok|]. split; [apply by_texts; [text_ok|vm_compute; reflexivity]|]. split; [text_ok|]. split; [apply by_texts; [text_ok|vm_compute; reflexivity]|].
  split; [text_ok|]. split; [apply by_texts; [text_ok|vm_compute; reflexivity]|]. split; [vm_compute; reflexivity|]. split; vm_compute; reflexivity.
Qed.
(** With overlapping terms, a cell can be empty, and the tables of a script which is not too wide can
    raise KeyError. *)
Theorem C15_refuted : (exists s t, constructible s /\ tables s = Ok t /\ In None (flat_map all_cells (t_cells t))) /\
  (exists s, constructible s /\ ~ too_wide s /\ tables s = Err KeyError).
Proof.
  split.
  - exists T19. destruct (tables T19) as [t|] eqn:E; [|vm_compute in E; discriminate]. exists t. split; [text_ok|]. split; [reflexivity|].
    assert (X : tables T19 = Ok t) by exact E. vm_compute in X. apply Ok_inj in X. subst t. vm_compute. auto.
  - exists T20. split; [text_ok|]. split; [|vm_compute; reflexivity]. unfold T20. show "O:U:.+U:O:.O:U:.-U:.-'".
    intros T. repeat match goal with
    | H : too_wide (Mul _ _ _) |- _ => inversion H; clear H; subst
    | H : too_wide (Add _) |- _ => inversion H; clear H; subst
    | H : too_wide (Prim _) |- _ => inversion H
    | H : too_wide (Null _) |- _ => inversion H
    | H : filter several _ = [?x] |- _ => vm_compute in H; try discriminate H; injection H as <-
    | H : 2 <= List.length (filter several _) |- _ => vm_compute in H; try lia
    | H : In _ (_ :: _) |- _ => destruct H as [<-|H]
    | H : In _ [] |- _ => destruct H
    | H : (12 < cardinal _)%N |- _ => vm_compute in H; discriminate H
    end.
Qed.
Print Assumptions C15_refuted.
(** A row under a header which contains none of its cells. *)
Theorem C16_refuted : exists s t h r, constructible s /\ tables s = Ok t /\ hd_error (t_headers t) = Some [h; r] /\
  map str h = ["wo.U:M:.-"; "wo.U:M:.-"; "wa.U:M:.-"; "wu.U:M:.-"] /\ map (fun arr => row arr 0 0) (t_cells t) = [[None; None; None]].
Proof.
  destruct (tables T19) as [t|] eqn:E; [|vm_compute in E; discriminate]. pose proof E as X. vm_compute in X. apply Ok_inj in X. exists T19, t. rewrite <- X. do 2 eexists.
  split; [text_ok|]. split; [rewrite E, X; reflexivity|]. split; [reflexivity|]. split; vm_compute; reflexivity.
Qed.
Print Assumptions C16_refuted.
Example C16_case : cardinal T17 <> 1%N /\ shown_tables T17 = Ok ([[[[Some "U:U:U:."; Some "U:U:A:."]; [Some "U:A:U:."; Some "U:A:A:."]]; [[Some "A:U:U:."; Some "A:U:A:."]; [Some "A:A:U:."; Some "A:A:A:."]]]],
  ["O:O:U:."; "O:O:A:."], [[["U:O:U:."; "A:O:U:."]; ["O:U:U:."; "O:A:U:."]]; [["U:O:A:."; "A:O:A:."]; ["O:U:A:."; "O:A:A:."]]]).
Proof. split; vm_compute; [discriminate|reflexivity]. Qed.
