(** Properties of index keys and ordered dictionaries: C35, C36. *)
From Coq Require Import List String Ascii Bool NArith Arith Lia.
From Verif Require Import Base Commons CommonsProofs.
Import ListNotations.
Local Open Scope string_scope.

(** * C35 *)
Theorem C35_index_keys_have_fixed_width : forall i, (i < 62 ^ 30)%N -> String.length (int2base i) = 30.
Proof. exact int2base_length. Qed.
Print Assumptions C35_index_keys_have_fixed_width.

Theorem C35_index_keys_sort_like_indices : forall i j, (i < 62 ^ 30)%N -> (j < 62 ^ 30)%N ->
  (str_lt (int2base i) (int2base j) = true <-> (i < j)%N) /\
  (int2base i = int2base j <-> i = j).
Proof.
  intros i j Hi Hj. split; [apply int2base_order; auto|]. split; [apply int2base_inj; auto|congruence].
Qed.
Print Assumptions C35_index_keys_sort_like_indices.

Example C35_case : int2base 3844 = "000000000000000000000000000100" /\ str_lt (int2base 61) (int2base 62) = true.
Proof. vm_compute. auto. Qed.

(** Beyond 62^30 neither holds. *)
Theorem C35_large_indices_refuted : exists i j, (i < j)%N /\ str_lt (int2base j) (int2base i) = true /\
  String.length (int2base j) <> 30.
Proof. exists (2 * 62 ^ 29)%N, (62 ^ 30)%N. vm_compute. repeat split. discriminate. Qed.
Print Assumptions C35_large_indices_refuted.

(** * C36 *)
(** The position of the last assignment of a key. *)
Definition last_position {V} (k : string) (l : list (string * V)) (n : nat) : Prop :=
  option_map fst (nth_error l n) = Some k /\
  forall n', n < n' -> option_map fst (nth_error l n') <> Some k.

Theorem C36_items_are_the_last_assigned : forall (V : Type) (l : list (string * V)),
  let d := set_items String.eqb l in
  NoDup (map fst d) /\
  (forall k, In k (map fst d) <-> In k (map fst l)) /\
  (forall k, get_item String.eqb k d = last_assigned String.eqb k l) /\
  (forall i j k k' n n', nth_error (map fst d) i = Some k -> nth_error (map fst d) j = Some k' ->
     last_position k l n -> last_position k' l n' -> i < j -> n < n').
Proof.
  intros V l d.
  assert (Q : forall a b, String.eqb a b = true <-> a = b) by apply String.eqb_eq.
  split; [apply set_items_nodup; auto|]. split; [unfold d; intros; rewrite set_items_last by auto; apply last_items_keys; auto|].
  split; [apply set_items_get; auto|].
  unfold d. rewrite set_items_last by auto. clear d.
  induction l as [|[k0 v0] l IH]; intros i j k k' n n' Hi Hj Pn Pn' L; [destruct i; discriminate|].
  assert (Tail : forall x p, In x (map fst l) -> last_position x ((k0, v0) :: l) p -> exists q, p = S q /\ last_position x l q).
  { intros x p Hx [P1 P2]. destruct p as [|q].
    - exfalso. apply In_nth_error in Hx. destruct Hx as (q & Hq). rewrite nth_error_map in Hq.
      apply (P2 (S q)); [lia|]. exact Hq.
    - exists q. split; auto. split; auto. intros n0 Hn0. apply (P2 (S n0)). lia. }
  assert (In_l : forall x p, nth_error (map fst (last_items String.eqb l)) p = Some x -> In x (map fst l)).
  { intros x p Hx. apply nth_error_In in Hx. apply last_items_keys in Hx; auto. }
  cbn [last_items fst] in Hi, Hj. destruct (has_key String.eqb k0 l) eqn:H.
  - destruct (Tail k n (In_l _ _ Hi) Pn) as (q & -> & Pq), (Tail k' n' (In_l _ _ Hj) Pn') as (q' & -> & Pq').
    specialize (IH i j k k' q q' Hi Hj Pq Pq' L). lia.
  - destruct j as [|j]; [lia|]. simpl in Hj. destruct (Tail k' n' (In_l _ _ Hj) Pn') as (q' & -> & Pq').
    destruct i as [|i].
    + simpl in Hi. injection Hi as <-. destruct n as [|n]; [lia|]. exfalso. destruct Pn as [P1 _]. simpl in P1.
      apply Bool.not_true_iff_false in H. apply H. apply has_key_in; auto.
      destruct (nth_error l n) as [x|] eqn:E; [|discriminate]. simpl in P1. injection P1 as <-.
      apply in_map. apply nth_error_In in E. auto.
    + simpl in Hi. destruct (Tail k n (In_l _ _ Hi) Pn) as (q & -> & Pq).
      specialize (IH i j k k' q q' Hi Hj Pq Pq'). lia.
Qed.
Print Assumptions C36_items_are_the_last_assigned.

Example C36_case : set_items String.eqb [("a", 1); ("b", 2); ("a", 3)] = [("b", 2); ("a", 3)] /\
  last_position "a" [("a", 1); ("b", 2); ("a", 3)] 2.
Proof.
  split; [reflexivity|]. split; [reflexivity|]. intros [|[|[|[|n]]]] H; simpl; try lia; discriminate.
Qed.
