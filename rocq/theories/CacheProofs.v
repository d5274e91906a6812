(** Proofs about the cache model. *)
From Coq Require Import List String Ascii Bool NArith Arith Lia.
From Verif Require Import Base Database DatabaseSpec Cache.
Import ListNotations.
Local Open Scope string_scope.

(** The content of a file written by the database: lines that start with a quote. *)
Definition quoted_lines (ls : list string) : string := sconcat (map (fun l => String """" (l ++ nl)) ls).
Definition database_file (c : string) : Prop :=
  exists ls, c = quoted_lines ls /\ Forall (fun l => ~ occurs "010" l) ls.

Lemma app_cancel_l a b c : a ++ b = a ++ c -> b = c.
Proof. induction a as [|x a IH]; simpl; [auto|]. intros [= E]. auto. Qed.

(** A text cut at the first occurrence of a character. *)
Lemma cut_first c a b x y : ~ occurs c a -> ~ occurs c b -> a ++ String c x = b ++ String c y -> a = b /\ x = y.
Proof.
  unfold occurs. revert b. induction a as [|u a IH]; intros [|v b] Ha Hb E; simpl in *.
  - injection E. auto.
  - injection E as <- _. exfalso. apply Hb. auto.
  - injection E as -> _. exfalso. apply Ha. auto.
  - injection E as <- E. destruct (IH b) as [-> ->]; auto.
Qed.

Definition head_is (c : ascii) (s : string) : Prop := exists r, s = String c r.

Lemma app_assoc_s (a b c : string) : (a ++ b) ++ c = a ++ (b ++ c).
Proof. induction a; simpl; congruence. Qed.

Lemma quoted_lines_cancel l1 : forall l2 t1 t2,
  Forall (fun l => ~ occurs "010" l) l1 -> Forall (fun l => ~ occurs "010" l) l2 ->
  ~ head_is """" t1 -> ~ head_is """" t2 ->
  quoted_lines l1 ++ t1 = quoted_lines l2 ++ t2 -> l1 = l2 /\ t1 = t2.
Proof.
  unfold quoted_lines. induction l1 as [|a l1 IH]; intros [|b l2] t1 t2 F1 F2 H1 H2 E; simpl in *.
  - auto.
  - subst t1. exfalso. apply H1. eexists. reflexivity.
  - subst t2. exfalso. apply H2. eexists. reflexivity.
  - injection E as E. rewrite !app_assoc_s in E. unfold nl in E. simpl in E.
    inversion_clear F1. inversion_clear F2. apply cut_first in E; auto. destruct E as [-> E].
    destruct (IH l2 t1 t2) as [-> ->]; auto.
Qed.

(** A path morpheme/FOLDER/NAME. *)
Definition morpheme_path (p : string) : Prop :=
  exists y n, p = "morpheme/" ++ y ++ "/" ++ n /\ ~ occurs "/" y /\ ~ occurs "/" n.

Lemma segments_nonempty s : segments s <> [].
Proof. destruct s as [|c r]; simpl; [discriminate|]. destruct (segments r); [discriminate|]. destruct (Ascii.eqb c "/"); discriminate. Qed.
Lemma segments_one s x : segments s = [x] -> s = x /\ ~ occurs "/" x.
Proof.
  unfold occurs. revert x. induction s as [|c r IH]; intros x; simpl.
  - intros [= <-]. simpl. auto.
  - destruct (segments r) as [|y l] eqn:E; [destruct (segments_nonempty r E)|].
    destruct (Ascii.eqb_spec c "/") as [->|N]; [discriminate|]. intros [= <- ->].
    destruct (IH y eq_refl) as [-> Hy]. simpl. split; [reflexivity|]. intros [H|H]; [auto|contradiction].
Qed.
Lemma segments_cons s x y l : segments s = x :: y :: l ->
  exists r, s = x ++ "/" ++ r /\ ~ occurs "/" x /\ segments r = y :: l.
Proof.
  unfold occurs. revert x. induction s as [|c r IH]; intros x; simpl; [discriminate|].
  destruct (segments r) as [|z l'] eqn:E; [destruct (segments_nonempty r E)|].
  destruct (Ascii.eqb_spec c "/") as [->|N].
  - intros [= <- -> ->]. exists r. simpl. auto.
  - intros [= <- ->]. destruct (IH z eq_refl) as (r' & -> & Hz & Er). exists r'. simpl. split; [reflexivity|].
    split; [|exact Er]. intros [H|H]; [auto|contradiction].
Qed.

Lemma morpheme_match y s p : glob_match [Name "morpheme"; y; s] (segments p) = true -> morpheme_path p.
Proof.
  destruct (segments p) as [|a [|b [|c [|d l]]]] eqn:E; cbn [glob_match]; rewrite ?andb_false_r; try discriminate.
  intros H. apply andb_true_iff in H. destruct H as [Ha _]. cbn [glob_segment] in Ha. apply String.eqb_eq in Ha. subst a.
  apply segments_cons in E. destruct E as (r & -> & _ & E). apply segments_cons in E. destruct E as (r' & -> & Hb & E).
  apply segments_one in E. destruct E as [-> Hc]. exists b, c. auto.
Qed.

(** What may follow the colon after a path. *)
Definition after_colon (t : string) : Prop := t = "" \/ head_is """" t \/ exists r, t = "morpheme/" ++ r.

Lemma name_cut n1 : forall n2 t1 t2, ~ occurs "/" n1 -> ~ occurs "/" n2 -> ~ occurs """" n1 -> ~ occurs """" n2 ->
  after_colon t1 -> after_colon t2 -> n1 ++ ":" ++ t1 = n2 ++ ":" ++ t2 -> n1 = n2 /\ t1 = t2.
Proof.
  assert (K : forall m t1 t2, ~ occurs "/" m -> ~ occurs """" m -> after_colon t1 -> t1 = m ++ ":" ++ t2 -> False).
  { unfold occurs. intros m t1 t2 Hs Hq [->|[[r ->]|[r ->]]] E.
    - destruct m; discriminate.
    - destruct m as [|c m]; [discriminate|]. injection E as <- _. apply Hq. simpl. auto.
    - repeat (destruct m as [|c m]; [discriminate|]; simpl in E; injection E as <- E).
      apply Hs. simpl. tauto. }
  unfold occurs in *. induction n1 as [|a n1 IH]; intros [|b n2] t1 t2 S1 S2 Q1 Q2 A1 A2 E.
  - injection E. auto.
  - exfalso. simpl in E. injection E as <- E. eapply (K n2); [| |exact A1|exact E]; simpl in *; tauto.
  - exfalso. simpl in E. injection E as -> E. symmetry in E. eapply (K n1); [| |exact A2|exact E]; simpl in *; tauto.
  - simpl in E. injection E as <- E. destruct (IH n2 t1 t2) as [-> ->]; simpl in *; auto; tauto.
Qed.

(** The digested text determines the files. *)
Definition database_folder (fs : fsys) : Prop :=
  Forall (fun f => morpheme_path (fst f) /\ ~ occurs """" (fst f) /\ database_file (snd f)) fs.

Lemma digest_cons p c fs : digest_text ((p, c) :: fs) = p ++ ":" ++ (c ++ digest_text fs).
Proof. unfold digest_text. simpl. rewrite app_assoc_s. reflexivity. Qed.
Lemma digest_head fs : database_folder fs -> digest_text fs = "" \/ exists r, digest_text fs = "morpheme/" ++ r.
Proof.
  intros F. destruct fs as [|[p c] fs]; [left; reflexivity|right]. apply Forall_cons_iff in F. destruct F as [[(y & n & Ep & _) _] _].
  simpl in Ep. subst p. rewrite digest_cons. eexists. reflexivity.
Qed.
Lemma digest_not_quote fs : database_folder fs -> ~ head_is """" (digest_text fs).
Proof. intros F [r E]. destruct (digest_head fs F) as [H|[r' H]]; rewrite H in E; discriminate. Qed.
Lemma digest_after fs c : database_folder fs -> database_file c -> after_colon (c ++ digest_text fs).
Proof.
  intros F (ls & -> & _). destruct ls as [|l ls].
  - simpl. destruct (digest_head fs F) as [->|H]; [left; reflexivity|right; right; exact H].
  - right. left. eexists. unfold quoted_lines. simpl. reflexivity.
Qed.
Lemma occurs_app_r c a b : ~ occurs c (a ++ b) -> ~ occurs c b.
Proof.
  unfold occurs. intros H C. apply H. clear H. induction a as [|x a IH]; simpl; auto.
Qed.

Lemma digest_inj a : forall b, database_folder a -> database_folder b -> digest_text a = digest_text b -> a = b.
Proof.
  induction a as [|[p c] a IH]; intros [|[q d] b] Fa Fb E; try reflexivity.
  - exfalso. rewrite digest_cons in E. apply Forall_cons_iff in Fb. destruct Fb as [[(y & n & Ep & _) _] _]. simpl in Ep. subst q. discriminate.
  - exfalso. rewrite digest_cons in E. apply Forall_cons_iff in Fa. destruct Fa as [[(y & n & Ep & _) _] _]. simpl in Ep. subst p. discriminate.
  - rewrite !digest_cons in E. apply Forall_cons_iff in Fa. destruct Fa as [[(y & n & Ep & Hy & Hn) [Qp Dc]] Fa'].
    apply Forall_cons_iff in Fb. destruct Fb as [[(y' & n' & Eq & Hy' & Hn') [Qq Dd]] Fb']. cbn [fst snd] in Ep, Eq, Qp, Qq, Dc, Dd. subst p. subst q.
    rewrite !app_assoc_s in E. apply app_cancel_l in E. apply cut_first in E; auto. destruct E as [-> E].
    apply (occurs_app_r _ "morpheme/") in Qp. apply (occurs_app_r _ "morpheme/") in Qq.
    apply occurs_app_r in Qp. apply occurs_app_r in Qq. apply (occurs_app_r _ "/") in Qp. apply (occurs_app_r _ "/") in Qq.
    apply name_cut in E; auto using digest_after. destruct E as [-> E].
    destruct Dc as (l1 & -> & F1), Dd as (l2 & -> & F2).
    apply quoted_lines_cancel in E; auto using digest_not_quote. destruct E as [-> E]. f_equal. auto.
Qed.

Lemma in_sort {A} (lt : A -> A -> bool) x l : In x (sort lt l) -> In x l.
Proof.
  assert (K : forall y m, In x (insert lt y m) -> x = y \/ In x m).
  { intros y m. induction m as [|z m IH]; simpl; [intros [->|[]]; auto|].
    destruct (lt z y); simpl; intros H; intuition auto. }
  induction l as [|y l IH]; simpl; [auto|]. intros H. apply K in H. intuition auto.
Qed.
