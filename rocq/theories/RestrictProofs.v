(** The calls of a history depend on the parser only through the expressions they name. *)
From Coq Require Import List String Ascii Bool NArith Arith Lia Permutation.
From Verif Require Import Base Script ScriptStrProofs Dictionary Database DatabaseSpec DatabaseProofs DatabaseRefine DatabasePath DatabasePathProofs Properties3.
Import ListNotations.
Local Open Scope string_scope.

Definition op_text (o : op) : string :=
  match o with AddDescriptor t _ _ _ => t | RemoveDescriptor t _ _ _ => t | AddStructure t _ _ => t | RemoveStructure t _ _ => t end.
(** The normal forms of the expressions named. *)
Definition named (parse : string -> res string) (ops : list op) (n : string) : Prop := exists o, In o ops /\ parse (op_text o) = Ok n.

Section Restrict.
  Variables parse parse' : string -> res string.
  Variable path : bool -> string -> string.
  Hypothesis idem : forall s n, parse s = Ok n -> parse n = Ok n.
  Definition same (s : string) : Prop := parse' s = parse s /\ forall n, parse s = Ok n -> parse' n = parse n.

  Lemma key_same p t k v b s : same t -> normalize_key parse' p t k v b s = normalize_key parse p t k v b s.
  Proof. intros [A _]. unfold normalize_key. rewrite A. reflexivity. Qed.
  Lemma key_text t k v b s x : normalize_key parse true t k v b s = Ok x -> (t = "" /\ fst (fst x) = "") \/ parse t = Ok (fst (fst x)).
  Proof.
    unfold normalize_key. destruct (negb _); [discriminate|]. destruct (String.eqb_spec t "") as [->|N]; cbn [negb andb].
    - intros H. left. split; auto. cbn [bind] in H. repeat match type of H with (if ?c then _ else _) = _ => destruct c | match ?c with _ => _ end = _ => destruct c end; try discriminate; injection H as <-; reflexivity.
    - destruct (parse t) as [n|]; [|discriminate]. intros H. right. f_equal. cbn [bind] in H. repeat match type of H with (if ?c then _ else _) = _ => destruct c | match ?c with _ => _ end = _ => destruct c end; try discriminate; injection H as <-; reflexivity.
  Qed.
  Lemma same_key t k v b s x : same t -> normalize_key parse true t k v b s = Ok x -> same (fst (fst x)).
  Proof.
    intros S H. apply key_text in H. destruct H as [[-> ->]|H]; [exact S|]. destruct S as [_ S]. split; [apply S, H|]. intros n E. rewrite (idem _ _ H) in E. injection E as <-. apply S, H.
  Qed.
  Lemma path_same b t : same t -> path_of parse' path b t = path_of parse path b t.
  Proof. intros [A _]. unfold path_of. rewrite A. reflexivity. Qed.
  Lemma fold_same {A B} (f g : A -> B -> A) l : forall a, (forall a b, f a b = g a b) -> fold_left f l a = fold_left g l a.
  Proof. induction l as [|b l IH]; intros a H; [reflexivity|]. cbn. rewrite H. apply IH, H. Qed.
  Lemma remove_lang_same fs t l d v : same t -> remove_lang parse' path fs t l d v = remove_lang parse path fs t l d v.
  Proof.
    intros S. unfold remove_lang. rewrite (key_same _ _ _ _ _ _ S). destruct (normalize_key parse true t (Some l) d true false) as [x|] eqn:E; [|reflexivity]. cbn [bind].
    pose proof (same_key _ _ _ _ _ _ S E) as S1. rewrite (path_same _ _ S1). destruct (path_of parse path true (fst (fst x))) as [p|]; [|reflexivity]. cbn [bind]. destruct (fs_get fs p); [|reflexivity]. destruct d as [d|]; [reflexivity|].
    apply fold_same. intros [fs'|] d; [|reflexivity]. cbn [bind]. rewrite (key_same _ _ _ _ _ _ S1). destruct (normalize_key parse true (fst (fst x)) (Some l) (Some d) true false) as [y|] eqn:E'; [|reflexivity]. cbn [bind]. rewrite (path_same _ _ (same_key _ _ _ _ _ _ S1 E')). reflexivity.
  Qed.
  Lemma exec_same fs o : same (op_text o) -> exec parse' path fs o = exec parse path fs o.
  Proof.
    destruct o as [t l d v|t l d v|t k v|t k v]; cbn [op_text exec]; intros S.
    - unfold add_descriptor. rewrite (key_same _ _ _ _ _ _ S). destruct (normalize_key parse true t (Some l) (Some d) false false) as [x|] eqn:E; [|reflexivity]. cbn [bind]. rewrite (path_same _ _ (same_key _ _ _ _ _ _ S E)). reflexivity.
    - unfold remove_descriptor. destruct l as [l|]; [now apply remove_lang_same|]. rewrite (key_same _ _ _ _ _ _ S). destruct (normalize_key parse true t None d true false) as [x|] eqn:E; [|reflexivity]. cbn [bind].
      pose proof (same_key _ _ _ _ _ _ S E) as S1. rewrite (path_same _ _ S1). destruct (path_of parse path true (fst (fst x))) as [p|]; [|reflexivity]. cbn [bind]. destruct (fs_get fs p); [|reflexivity].
      assert (F : forall d, fold_left (fun acc l => do fs' <- acc; remove_lang parse' path fs' (fst (fst x)) l d None) LANGUAGES (Ok fs) = fold_left (fun acc l => do fs' <- acc; remove_lang parse path fs' (fst (fst x)) l d None) LANGUAGES (Ok fs)).
      { intros d'. apply fold_same. intros [fs'|] l; [|reflexivity]. cbn [bind]. now apply remove_lang_same. }
      destruct d, v; rewrite ?F; reflexivity.
    - unfold add_structure. rewrite (key_same _ _ _ _ _ _ S). destruct (normalize_key parse true t (Some k) (Some v) false true) as [[[i k'] v']|] eqn:E; [|reflexivity]. cbn [bind]. pose proof (same_key _ _ _ _ _ _ S E) as S1. cbn [fst] in S1. rewrite (path_same _ _ S1). reflexivity.
    - unfold remove_structure. rewrite (key_same _ _ _ _ _ _ S). destruct (normalize_key parse true t k v true true) as [[[i k'] v']|] eqn:E; [|reflexivity]. cbn [bind]. pose proof (same_key _ _ _ _ _ _ S E) as S1. cbn [fst] in S1. rewrite (path_same _ _ S1). reflexivity.
  Qed.
  Lemma run_same ops : forall fs, (forall o, In o ops -> same (op_text o)) -> run parse' path fs ops = run parse path fs ops.
  Proof.
    induction ops as [|o ops IH]; intros fs H; [reflexivity|]. cbn [run fold_left]. unfold exec_step at 2 4. rewrite (exec_same fs o (H o (or_introl eq_refl))). apply IH. intros o' Ho. apply H. now right.
  Qed.
  Lemma spec_same langs descs sv kp sel ops : forall st, (forall o, In o ops -> same (op_text o)) -> spec_run parse' langs descs sv kp sel st ops = spec_run parse langs descs sv kp sel st ops.
  Proof.
    induction ops as [|o ops IH]; intros st H; [reflexivity|]. cbn [spec_run fold_left]. assert (E : spec_step parse' langs descs sv kp sel st o = spec_step parse langs descs sv kp sel st o).
    { destruct (H o (or_introl eq_refl)) as [A _]. destruct st as [D T], o; cbn [spec_step op_text] in *; rewrite A; reflexivity. }
    rewrite E. apply IH. intros o' Ho. apply H. now right.
  Qed.
End Restrict.

(** The parser which knows only these texts. *)
Definition restrict (parse : string -> res string) (T : list string) (t : string) : res string := if inb t T then parse t else Err CannotParse.
Definition texts (parse : string -> res string) (ops : list op) : list string :=
  flat_map (fun o => op_text o :: match parse (op_text o) with Ok n => [n] | Err _ => [] end) ops.
Lemma restrict_ok parse T t n : restrict parse T t = Ok n <-> In t T /\ parse t = Ok n.
Proof. unfold restrict. destruct (inb t T) eqn:E; [apply inb_In in E; tauto|]. split; [discriminate|intros [H _]; apply inb_In in H; congruence]. Qed.
Lemma texts_in parse ops t : In t (texts parse ops) <-> exists o, In o ops /\ (t = op_text o \/ parse (op_text o) = Ok t).
Proof.
  unfold texts. rewrite in_flat_map. split; intros (o & Ho & H); exists o; (split; [exact Ho|]).
  - destruct H as [H|H]; [auto|]. destruct (parse (op_text o)); [destruct H as [->|[]]; auto|destruct H].
  - destruct H as [->|H]; [now left|]. rewrite H. right. now left.
Qed.
Lemma restrict_same parse ops o : In o ops -> same parse (restrict parse (texts parse ops)) (op_text o).
Proof.
  intros H. split; [|intros n E]; unfold restrict.
  - assert (inb (op_text o) (texts parse ops) = true) as -> by (apply inb_In, texts_in; exists o; auto). reflexivity.
  - assert (inb n (texts parse ops) = true) as -> by (apply inb_In, texts_in; exists o; auto). reflexivity.
Qed.
(** A normal form known to it is named. *)
Lemma restrict_named parse ops i : (forall s n, parse s = Ok n -> parse n = Ok n) -> restrict parse (texts parse ops) i = Ok i -> named parse ops i.
Proof.
  intros idem H. apply restrict_ok in H. destruct H as [H E]. apply texts_in in H. destruct H as (o & Ho & [->|H]); exists o; auto.
Qed.
Lemma op_same (parse parse' : string -> res string) o : parse' (op_text o) = parse (op_text o) -> op_ok parse o -> op_ok parse' o.
Proof. destruct o; cbn [op_text op_ok]; intros ->; auto. Qed.
Lemma plain_same (parse parse' : string -> res string) o : parse' (op_text o) = parse (op_text o) -> plain_op parse o -> plain_op parse' o.
Proof. intros H [A B]. split; [eapply op_same; eauto|exact B]. Qed.
