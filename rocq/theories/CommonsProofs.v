From Coq Require Import List String Ascii Bool NArith Arith Lia.
From Verif Require Import Base Commons.
From Coq Require Import PArith Pnat.
Import ListNotations.
Local Open Scope string_scope.

(** Python compares strings by code points. *)
Definition codes (s : string) : list N := map N_of_ascii (list_ascii_of_string s).
Definition str_lt (a b : string) : bool := bytes_lt (codes a) (codes b).

Lemma codes_app a b : codes (a ++ b) = (codes a ++ codes b)%list.
Proof. unfold codes. induction a; simpl; congruence. Qed.
Lemma codes_length a : List.length (codes a) = String.length a.
Proof. unfold codes. induction a; simpl; congruence. Qed.
Lemma codes_inj a b : codes a = codes b -> a = b.
Proof.
  unfold codes. revert b; induction a as [|x a IH]; intros [|y b] E; simpl in E; try discriminate; auto.
  injection E as E1 E2. f_equal; auto. rewrite <- (ascii_N_embedding x), <- (ascii_N_embedding y). congruence.
Qed.

Definition code (d : N) : N :=
  if N.ltb d 10 then (48 + d)%N else if N.ltb d 36 then (55 + d)%N else (61 + d)%N.

Lemma char_code d : (d < 62)%N -> codes (char_at d) = [code d].
Proof.
  intros H.
  assert (K : forallb (fun n => bytes_eqb (codes (char_at (N.of_nat n))) [code (N.of_nat n)]) (seq 0 62) = true)
    by (vm_compute; reflexivity).
  rewrite forallb_forall in K. specialize (K (N.to_nat d)). rewrite N2Nat.id in K.
  assert (E : forall a b, bytes_eqb a b = true -> a = b).
  { clear. induction a as [|x a IH]; intros [|y b] E; simpl in E; try discriminate; auto.
    apply andb_prop in E. destruct E as [E1 E2]. apply N.eqb_eq in E1. f_equal; auto. }
  apply E, K. apply in_seq. lia.
Qed.

Lemma code_lt d e : (d < 62)%N -> (e < 62)%N -> (code d < code e)%N <-> (d < e)%N.
Proof.
  intros. unfold code.
  destruct (N.ltb_spec d 10), (N.ltb_spec e 10), (N.ltb_spec d 36), (N.ltb_spec e 36); lia.
Qed.
Lemma code_eq d e : (d < 62)%N -> (e < 62)%N -> code d = code e <-> d = e.
Proof.
  intros. unfold code.
  destruct (N.ltb_spec d 10), (N.ltb_spec e 10), (N.ltb_spec d 36), (N.ltb_spec e 36); lia.
Qed.

(** Value of a list of digits, most significant first. *)
Fixpoint value (ds : list N) : N :=
  match ds with
  | [] => 0
  | d :: r => d * 62 ^ N.of_nat (List.length r) + value r
  end%N.

Definition digits (ds : list N) : Prop := Forall (fun d => (d < 62)%N) ds.

Lemma value_bound ds : digits ds -> (value ds < 62 ^ N.of_nat (List.length ds))%N.
Proof.
  induction 1 as [|d r Hd _ IH]; [simpl; lia|].
  cbn [value List.length]. rewrite Nat2N.inj_succ, N.pow_succ_r by lia. nia.
Qed.

Lemma value_app ds d : (value (ds ++ [d]) = value ds * 62 + d)%N.
Proof.
  induction ds as [|x ds IH]; [simpl; lia|].
  cbn [value app List.length]. rewrite IH, app_length, Nat2N.inj_add. simpl (N.of_nat (List.length [d])).
  rewrite N.add_1_r, N.pow_succ_r by lia. lia.
Qed.

Lemma value_lt ds es : digits ds -> digits es -> List.length ds = List.length es ->
  (bytes_lt (map code ds) (map code es) = true <-> (value ds < value es)%N).
Proof.
  intros H. revert es. induction H as [|d r Hd Hr IH]; intros [|e es] He L; simpl in L; try discriminate.
  - simpl. split; [discriminate|lia].
  - inversion He as [|? ? He1 He2]; subst. injection L as L. cbn [map bytes_lt value].
    pose proof (value_bound r Hr) as B1. pose proof (value_bound es He2) as B2. rewrite L in *.
    destruct (N.eqb_spec (code d) (code e)) as [E|E].
    + apply (proj1 (code_eq d e Hd He1)) in E. subst e. rewrite IH; auto. lia.
    + assert (d <> e) by (intros ->; auto). rewrite N.ltb_lt, code_lt by auto. nia.
Qed.

Lemma codes_zeros n : codes (zeros n) = map code (repeat 0%N n).
Proof. unfold codes. induction n as [|n IH]; [reflexivity|]. cbn. rewrite IH. reflexivity. Qed.
Lemma digits_zeros n : digits (repeat 0%N n).
Proof. induction n; constructor; auto; lia. Qed.
Lemma value_zeros n : value (repeat 0%N n) = 0%N.
Proof. induction n; simpl; lia. Qed.

Lemma int2base_digits fuel : forall i max, N.size_nat i < fuel -> 1 <= max -> (i < 62 ^ N.of_nat max)%N ->
  exists ds, codes (int2base_fuel fuel i max) = map code ds /\ digits ds /\ value ds = i /\ List.length ds = max.
Proof.
  induction fuel as [|f IH]; intros i max F M B; [lia|].
  cbn [int2base_fuel]. set (q := (i / 62)%N).
  assert (Eq : i = (62 * q + (i - q * 62))%N).
  { pose proof (N.mul_div_le i 62). unfold q. lia. }
  assert (Hr : (i - q * 62 < 62)%N).
  { pose proof (N.mod_lt i 62). rewrite N.mod_eq in H by lia. unfold q. lia. }
  destruct (N.eqb_spec q 0) as [Z|Z]; cbn [negb]; rewrite codes_app, char_code by auto.
  - exists (repeat 0%N (max - 1) ++ [(i - q * 62)%N])%list. rewrite codes_zeros, map_app. split; auto.
    split; [apply Forall_app; split; [apply digits_zeros|repeat constructor; auto]|].
    split; [rewrite value_app, value_zeros; lia|]. rewrite app_length, repeat_length. simpl. lia.
  - destruct max as [|m]; [lia|].
    assert (Bq : (q < 62 ^ N.of_nat m)%N).
    { rewrite Nat2N.inj_succ, N.pow_succ_r in B by lia. lia. }
    assert (Hm : 1 <= m). { destruct m; [simpl in Bq; lia|lia]. }
    assert (Fq : N.size_nat q < f).
    { assert (K : forall n, N.size_nat n = N.to_nat (N.size n)).
      { intros [|p]; auto. simpl. induction p; simpl; auto; rewrite IHp, Pos2Nat.inj_succ; auto. }
      assert (L : (N.size q < N.size i)%N).
      { assert (i <> 0)%N by lia. rewrite !N.size_log2 by auto.
        assert (N.log2 q < N.log2 i)%N; [|lia].
        apply N.lt_le_trans with (N.log2 (2 * q)).
        - rewrite N.log2_double by lia. lia.
        - apply N.log2_le_mono. lia. }
      rewrite K in *. lia. }
    destruct (IH q m Fq Hm Bq) as (ds & E & D & V & Len). replace (S m - 1) with m by lia.
    exists (ds ++ [(i - q * 62)%N])%list. rewrite E, map_app. split; auto.
    split; [apply Forall_app; split; [auto|repeat constructor; auto]|].
    split; [rewrite value_app, V; lia|]. rewrite app_length. simpl. lia.
Qed.

Lemma int2base_spec i : (i < 62 ^ 30)%N ->
  exists ds, codes (int2base i) = map code ds /\ digits ds /\ value ds = i /\ List.length ds = 30.
Proof. intros H. apply int2base_digits; [lia|lia|exact H]. Qed.

Lemma int2base_length i : (i < 62 ^ 30)%N -> String.length (int2base i) = 30.
Proof.
  intros H. destruct (int2base_spec i H) as (ds & E & _ & _ & L).
  rewrite <- codes_length, E, map_length. auto.
Qed.
Lemma int2base_order i j : (i < 62 ^ 30)%N -> (j < 62 ^ 30)%N ->
  (str_lt (int2base i) (int2base j) = true <-> (i < j)%N).
Proof.
  intros Hi Hj. destruct (int2base_spec i Hi) as (ds & E & D & V & L), (int2base_spec j Hj) as (es & E' & D' & V' & L').
  unfold str_lt. rewrite E, E', value_lt by (auto; congruence). rewrite V, V'. tauto.
Qed.
Lemma int2base_inj i j : (i < 62 ^ 30)%N -> (j < 62 ^ 30)%N -> int2base i = int2base j -> i = j.
Proof.
  intros Hi Hj E.
  pose proof (int2base_order i j Hi Hj) as A. pose proof (int2base_order j i Hj Hi) as B. rewrite E in *.
  destruct (N.lt_trichotomy i j) as [C|[C|C]]; auto.
  - pose proof C as D. apply A in D. apply B in D. lia.
  - pose proof C as D. apply B in D. apply A in D. lia.
Qed.

(** ** LastUpdatedOrderedDict *)
Section Dict.
  Context {K V : Type} (eqb : K -> K -> bool).
  Hypothesis eqb_eq : forall a b, eqb a b = true <-> a = b.

  (** The last value assigned to [k]. *)
  Fixpoint last_assigned (k : K) (l : list (K * V)) : option V :=
    match l with
    | [] => None
    | (k', v) :: r => match last_assigned k r with
                      | Some w => Some w
                      | None => if eqb k k' then Some v else None
                      end
    end.

  Lemma eqb_neq a b : eqb a b = false <-> a <> b.
  Proof. destruct (eqb a b) eqn:E; [apply eqb_eq in E; split; congruence|split; auto; intros _ X]; apply eqb_eq in X; congruence. Qed.

  Lemma del_absent k (d : @odict K V) : has_key eqb k d = false -> del_key eqb k d = d.
  Proof.
    unfold has_key, del_key. induction d as [|[k' v] d IH]; simpl; auto. intros H.
    apply orb_false_elim in H. destruct H as [-> H]. simpl. f_equal; auto.
  Qed.
  Lemma set_item_del (d : @odict K V) kv : set_item eqb d kv = (del_key eqb (fst kv) d ++ [kv])%list.
  Proof.
    unfold set_item. destruct (has_key eqb (fst kv) d) eqn:H; auto. rewrite del_absent; auto.
  Qed.

  (** The items left: those never assigned again, in order of their assignment. *)
  Fixpoint last_items (l : list (K * V)) : list (K * V) :=
    match l with
    | [] => []
    | kv :: r => if has_key eqb (fst kv) r then last_items r else kv :: last_items r
    end.

  Lemma has_key_in k (d : @odict K V) : has_key eqb k d = true <-> In k (map fst d).
  Proof.
    unfold has_key. rewrite existsb_exists, in_map_iff. split.
    - intros (x & H & E). apply eqb_eq in E. eauto.
    - intros (x & E & H). exists x. split; auto. apply eqb_eq; auto.
  Qed.
  Lemma last_items_snoc l kv : last_items (l ++ [kv]) = (del_key eqb (fst kv) (last_items l) ++ [kv])%list.
  Proof.
    induction l as [|[k v] l IH]; [reflexivity|].
    cbn [last_items app fst]. unfold has_key at 1. rewrite existsb_app. simpl. rewrite orb_false_r.
    fold (has_key eqb k l). destruct (has_key eqb k l) eqn:H; simpl; auto.
    destruct (eqb k (fst kv)) eqn:E.
    - rewrite IH. apply eqb_eq in E. subst k. unfold del_key at 2. simpl.
      replace (eqb (fst kv) (fst kv)) with true by (symmetry; apply eqb_eq; auto). simpl. auto.
    - rewrite IH. unfold del_key at 2. simpl.
      replace (eqb (fst kv) k) with false.
      2:{ symmetry. apply eqb_neq. apply eqb_neq in E. auto. }
      simpl. auto.
  Qed.
  Lemma set_items_last l : set_items eqb l = last_items l.
  Proof.
    unfold set_items. induction l as [|kv l IH] using rev_ind; [reflexivity|].
    rewrite fold_left_app. simpl. rewrite IH, set_item_del, last_items_snoc. auto.
  Qed.
  Lemma last_items_keys l k : In k (map fst (last_items l)) <-> In k (map fst l).
  Proof.
    induction l as [|[k' v] l IH]; [tauto|]. simpl. destruct (has_key eqb k' l) eqn:H.
    - apply has_key_in in H. rewrite IH. split; auto. intros [<-|]; auto.
    - simpl. rewrite IH. tauto.
  Qed.
  Lemma set_items_nodup (l : list (K * V)) : NoDup (map fst (set_items eqb l)).
  Proof.
    rewrite set_items_last. induction l as [|[k v] l IH]; simpl; [constructor|].
    destruct (has_key eqb k l) eqn:H; auto. simpl. constructor; auto. rewrite last_items_keys.
    intros X. apply has_key_in in X. congruence.
  Qed.
  Lemma set_items_get (l : list (K * V)) k : get_item eqb k (set_items eqb l) = last_assigned k l.
  Proof.
    rewrite set_items_last. unfold get_item. induction l as [|[k' v] l IH]; [reflexivity|].
    cbn [last_items last_assigned fst].
    assert (N : has_key eqb k l = true <-> last_assigned k l <> None).
    { clear IH. induction l as [|[k2 v2] l IH]; simpl; [split; congruence|].
      destruct (last_assigned k l); [split; [congruence|]|].
      - intros _. apply orb_true_iff. right. apply IH. congruence.
      - destruct (eqb k k2); simpl; [split; congruence|]. rewrite IH. tauto. }
    destruct (has_key eqb k' l) eqn:H.
    - rewrite IH. destruct (last_assigned k l) eqn:L; auto.
      destruct (eqb k k') eqn:E; auto. apply eqb_eq in E. subst k'. apply N in H. congruence.
    - cbn [find fst]. destruct (eqb k k') eqn:E; simpl.
      + apply eqb_eq in E. subst k'. destruct (last_assigned k l) eqn:L; auto.
        assert (X : has_key eqb k l = true) by (apply N; congruence). congruence.
      + rewrite IH. destruct (last_assigned k l); auto.
  Qed.
End Dict.
