(** Lemmas about get_descriptors(files_list). *)
From Coq Require Import List String Ascii Bool NArith Arith Lia.
From Verif Require Import Base ScriptStrProofs Database DatabaseSpec DatabaseProofs DatabasePath DatabasePathProofs FilesList FilesListSpec.
Import ListNotations.
Local Open Scope string_scope.

Lemma octal_first c : octal c <> None <-> In c ["0"; "1"; "2"; "3"; "4"; "5"; "6"; "7"]%char.
Proof.
  destruct c as [[] [] [] [] [] [] [] []]; vm_compute; split; intros H; try tauto; try discriminate;
  try (exfalso; apply H; reflexivity); repeat (destruct H as [H|H]; [discriminate H|]); destruct H.
Qed.
Lemma octal_none c r : ~ digit_first (String c r) -> octal c = None.
Proof. intros H. destruct (octal c) eqn:E; [|reflexivity]. elim H. exists c, r. split; [reflexivity|]. apply octal_first. rewrite E. discriminate. Qed.

Lemma echo_plain f rest : ~ occurs "\" f -> echo_e (f ++ rest) = f ++ echo_e rest.
Proof.
  induction f as [|c f IH]; intros H; [reflexivity|]. rewrite occurs_cons in H. cbn [append echo_e].
  destruct (Ascii.eqb_spec c "\") as [->|_]; [tauto|]. cbn [negb]. f_equal. apply IH. tauto.
Qed.

Definition tail_ok (rest : string) : Prop := rest = "" \/ exists r, rest = String "\" r.
Lemma echo_sep f rest : ~ occurs "\" f -> tail_ok rest -> exists c f',
  echo_e (String "\" (String "0" (f ++ rest))) = String c (f' ++ echo_e rest) /\
  (~ digit_first f -> c = "000"%char /\ f' = f) /\ (digit_first f -> String.length f' < String.length f).
Proof.
  intros H T.
  assert (R : forall g, ~ occurs "\" g -> match g ++ rest with EmptyString => g = "" | String d _ => octal d <> None -> exists g', g = String d g' end).
  { intros [|d g] _; [|cbn; eauto]. destruct T as [->|[r ->]]; [reflexivity|]. cbn. intros X. now elim X. }
  cbn [echo_e]. change (negb (Ascii.eqb "\" "\")) with false. change (escape "0") with (@None ascii). change (Ascii.eqb "0" "c") with false. change (Ascii.eqb "0" "0") with true. cbv iota.
  destruct f as [|d1 f].
  { destruct T as [->|[r ->]]; cbn [append].
    - exists "000"%char, "". split; [reflexivity|]. split; [auto|]. intros (c & r & E & _). discriminate.
    - change (octal "\") with (@None N). cbv iota. exists "000"%char, "". split; [reflexivity|]. split; [auto|]. intros (c & r' & E & _). discriminate. }
  cbn [append]. destruct (octal d1) as [n1|] eqn:E1.
  2:{ exists "000"%char, (String d1 f). split; [|split; [auto|]].
      - f_equal. exact (echo_plain (String d1 f) rest H).
      - intros (c & r & [= -> ->] & I1). apply octal_first in I1. contradiction. }
  assert (D : ~ ~ digit_first (String d1 f)). { intros X. apply X. exists d1, f. split; [reflexivity|]. apply octal_first. congruence. }
  assert (H1 : ~ occurs "\" f) by (rewrite occurs_cons in H; tauto).
  assert (P : forall g, ~ occurs "\" g -> echo_e (g ++ rest) = g ++ echo_e rest) by (intros g; apply echo_plain).
  assert (F : forall x c g, ~ occurs "\" g -> String.length g <= String.length f -> x = String c (echo_e (g ++ rest)) ->
    exists c f', x = String c (f' ++ echo_e rest) /\ (~ digit_first (String d1 f) -> c = "000"%char /\ f' = String d1 f) /\ (digit_first (String d1 f) -> String.length f' < String.length (String d1 f))).
  { intros x c g Hg L ->. exists c, g. rewrite P by auto. split; [reflexivity|]. split; [tauto|]. cbn. lia. }
  destruct (f ++ rest) as [|d2 t2] eqn:Ef.
  { specialize (R f H1). rewrite Ef in R. subst f. cbn in Ef. subst rest. apply (F _ (byte n1) ""); cbn; [|lia|reflexivity]. intros X. exact X. }
  destruct (octal d2) as [n2|] eqn:E2.
  2:{ apply (F _ (byte n1) f); auto. now rewrite Ef. }
  pose proof (R f H1) as R2. rewrite Ef in R2. destruct R2 as [f2 ->]; [congruence|]. cbn [append] in Ef. injection Ef as Ef.
  assert (H2 : ~ occurs "\" f2) by (rewrite occurs_cons in H1; tauto).
  destruct t2 as [|d3 t3].
  { destruct f2; [|discriminate]. cbn in Ef. subst rest. apply (F _ (byte (8 * n1 + n2)) ""); cbn; [|lia|reflexivity]. intros X. exact X. }
  destruct (octal d3) as [n3|] eqn:E3.
  2:{ apply (F _ (byte (8 * n1 + n2)) f2); auto; [cbn; lia|]. now rewrite Ef. }
  pose proof (R f2 H2) as R3. rewrite Ef in R3. destruct R3 as [f3 ->]; [congruence|]. cbn [append] in Ef. injection Ef as Ef.
  apply (F _ (byte (64 * n1 + 8 * n2 + n3)) f3); [rewrite occurs_cons in H2; tauto|cbn; lia|]. now rewrite Ef.
Qed.

(** The names separated by zeros. *)
Fixpoint zeros_between (l : list string) : string :=
  match l with [] => "" | [x] => x | x :: r => x ++ String "000" (zeros_between r) end.
Fixpoint total (l : list string) : nat := match l with [] => 0 | x :: r => String.length x + total r end.

Lemma echo_tail l : forall f, Forall (fun f => ~ occurs "\" f) (f :: l) -> exists f0 s,
  echo_e (String "\" (String "0" (join0 (f :: l)))) = String f0 s /\
  (~ Exists digit_first (f :: l) -> f0 = "000"%char /\ s = zeros_between (f :: l)) /\
  String.length s <= total (f :: l) + List.length l /\
  (Exists digit_first (f :: l) -> String.length s < total (f :: l) + List.length l).
Proof.
  induction l as [|g l IH]; intros f H; inversion_clear H as [|? ? Hf Hl].
  - cbn [join0]. destruct (echo_sep f "" Hf (or_introl eq_refl)) as (c & f' & E & A & B). rewrite string_app_nil in E. exists c, f'.
    cbn [echo_e] in E. rewrite string_app_nil in E. split; [exact E|]. assert (D : digit_first f \/ ~ digit_first f).
    { destruct f as [|d r]; [right; intros (? & ? & ? & _); discriminate|]. destruct (octal d) eqn:X; [left; exists d, r; split; [reflexivity|apply octal_first; congruence]|right; intros (c' & r' & [= <- <-] & I1); apply octal_first in I1; contradiction]. }
    cbn [zeros_between total List.length]. split; [|split].
    + intros N. apply A. intros D'. apply N. now left.
    + destruct D as [D|D]; [apply B in D; lia|]. apply A in D. destruct D as [_ ->]. lia.
    + intros X. inversion_clear X as [? ? D'|? ? D']; [apply B in D'; lia|inversion D'].
  - destruct (IH g Hl) as (f0 & s & E & A & B1 & B2).
    change (join0 (f :: g :: l)) with (f ++ String "\" (String "0" (join0 (g :: l)))).
    destruct (echo_sep f (String "\" (String "0" (join0 (g :: l)))) Hf (or_intror (ex_intro _ _ eq_refl))) as (c & f' & E' & A' & B').
    rewrite E in E'. exists c, (f' ++ String f0 s). split; [exact E'|].
    assert (D : digit_first f \/ ~ digit_first f).
    { destruct f as [|d r]; [right; intros (? & ? & ? & _); discriminate|]. destruct (octal d) eqn:X; [left; exists d, r; split; [reflexivity|apply octal_first; congruence]|right; intros (c' & r' & [= <- <-] & I1); apply octal_first in I1; contradiction]. }
    change (zeros_between (f :: g :: l)) with (f ++ String "000" (zeros_between (g :: l))).
    change (total (f :: g :: l)) with (String.length f + total (g :: l)). rewrite length_app. cbn [String.length List.length].
    assert (L : String.length f' <= String.length f) by (destruct D as [D|D]; [apply B' in D; lia|apply A' in D; destruct D as [_ ->]; lia]).
    split; [|split].
    + intros N. destruct A as [-> ->]; [intros X; apply N; now right|]. destruct A' as [-> ->]; [intros X; apply N; now left|]. auto.
    + lia.
    + intros X. inversion_clear X as [? ? D'|? ? D']; [apply B' in D'; lia|apply B2 in D'; lia].
Qed.

Lemma echo_join f l : Forall (fun f => ~ occurs "\" f) (f :: l) ->
  (~ Exists digit_first l -> echo_e (join0 (f :: l)) = zeros_between (f :: l)) /\
  String.length (echo_e (join0 (f :: l))) <= total (f :: l) + List.length l /\
  (Exists digit_first l -> String.length (echo_e (join0 (f :: l))) < total (f :: l) + List.length l).
Proof.
  intros H. destruct l as [|g l].
  - cbn [join0 zeros_between total List.length]. inversion_clear H as [|? ? Hf _]. rewrite <- (string_app_nil f) at 1 3 5. rewrite (echo_plain f "" Hf). cbn [echo_e]. rewrite string_app_nil. split; [auto|]. split; [lia|]. intros X. inversion X.
  - inversion_clear H as [|? ? Hf Hl]. destruct (echo_tail l g Hl) as (c & s & E & A & B1 & B2).
    change (join0 (f :: g :: l)) with (f ++ String "\" (String "0" (join0 (g :: l)))). rewrite (echo_plain f _ Hf), E.
    change (zeros_between (f :: g :: l)) with (f ++ String "000" (zeros_between (g :: l))).
    change (total (f :: g :: l)) with (String.length f + total (g :: l)). rewrite length_app. cbn [String.length List.length]. split; [|split].
    + intros N. destruct (A N) as [-> ->]. reflexivity.
    + lia.
    + intros X. apply B2 in X. lia.
Qed.

Fixpoint zeros (s : string) : nat := match s with EmptyString => 0 | String c r => (if Ascii.eqb c "000" then 1 else 0) + zeros r end.
Lemma xargs_total s : forall cur, total (xargs0 cur s) + zeros s = String.length cur + String.length s.
Proof.
  induction s as [|c s IH]; intros cur; cbn [xargs0 zeros String.length].
  - destruct (String.eqb_spec cur "") as [->|_]; cbn; lia.
  - destruct (Ascii.eqb c "000"); cbn [total].
    + specialize (IH ""). cbn in IH. lia.
    + rewrite Nat.add_0_l, IH, length_app. cbn. lia.
Qed.
Lemma xargs_count s : forall cur, List.length (xargs0 cur s) <= zeros s + 1 /\
  (List.length (xargs0 cur s) = zeros s + 1 -> last (xargs0 cur s) "" <> "").
Proof.
  induction s as [|c s IH]; intros cur; cbn [xargs0 zeros].
  - destruct (String.eqb_spec cur "") as [->|N]; cbn; (split; [lia|]); [lia|auto].
  - destruct (Ascii.eqb c "000"); [|apply IH]. destruct (IH "") as [A B]. cbn [List.length]. split; [lia|]. intros E.
    destruct (xargs0 "" s) as [|x l]; [cbn in *; lia|]. change (last (cur :: x :: l) "") with (last (x :: l) ""). apply B. cbn in *. lia.
Qed.
Lemma xargs_name f r : ~ occurs "000" f -> forall cur, xargs0 cur (f ++ r) = xargs0 (cur ++ f) r.
Proof.
  induction f as [|c f IH]; intros H cur; cbn [append xargs0]; [now rewrite string_app_nil|].
  rewrite occurs_cons in H. destruct (Ascii.eqb_spec c "000") as [->|_]; [tauto|]. rewrite IH by tauto. f_equal. rewrite string_app_assoc. reflexivity.
Qed.
Lemma xargs_between l : Forall (fun f => ~ occurs "000" f) l -> (l <> [] -> last l "" <> "") -> xargs0 "" (zeros_between l) = l.
Proof.
  induction l as [|f l IH]; intros H L; [reflexivity|]. inversion_clear H as [|? ? Hf Hl]. destruct l as [|g l].
  - cbn [zeros_between]. rewrite <- (string_app_nil f) at 1. rewrite (xargs_name f "" Hf). cbn [append xargs0]. destruct (String.eqb_spec f "") as [->|_]; [elim L; [discriminate|reflexivity]|reflexivity].
  - change (zeros_between (f :: g :: l)) with (f ++ String "000" (zeros_between (g :: l))). rewrite (xargs_name f _ Hf). cbn [append xargs0]. change (Ascii.eqb "000" "000") with true. cbv iota. f_equal. apply IH; [exact Hl|]. intros _. exact (L ltac:(discriminate)).
Qed.

Lemma no_option l : Forall printable l -> echo_ne (join0 l) = echo_e (join0 l).
Proof.
  intros H. unfold echo_ne. destruct l as [|f l]; [reflexivity|]. inversion_clear H as [|? ? (_ & _ & D) _].
  assert (N : forall r, join0 (f :: l) <> String "-" r).
  { intros r. destruct l as [|g l]; [apply D|]. change (join0 (f :: g :: l)) with (f ++ String "\" (String "0" (join0 (g :: l)))). destruct f as [|c f]; [discriminate|]. cbn. intros [= -> _]. now apply (D f). }
  destruct (join0 (f :: l)) as [|c [|c' r]]; try reflexivity; cbn [echo_option]; [destruct c as [[] [] [] [] [] [] [] []]; reflexivity|].
  destruct (Ascii.eqb_spec c "-") as [->|X]; [now elim (N (String c' r))|]. destruct c as [[] [] [] [] [] [] [] []]; try reflexivity. now elim X.
Qed.

Lemma names_exact l : Forall printable l ->
  (xargs0 "" (echo_ne (join0 l)) = l <-> ~ Exists digit_first (tl l) /\ (l <> [] -> last l "" <> "")).
Proof.
  intros H. rewrite (no_option l H). destruct l as [|f l]; [cbn; split; [intros _; split; [intros X; inversion X|congruence]|reflexivity]|].
  assert (B : Forall (fun f => ~ occurs "\" f) (f :: l)) by (eapply Forall_impl; [|exact H]; intros x (_ & X & _); exact X).
  assert (Z : Forall (fun f => ~ occurs "000" f) (f :: l)) by (eapply Forall_impl; [|exact H]; intros x (X & _); exact X).
  destruct (echo_join f l B) as (A1 & A2 & A3). cbn [tl]. split.
  - intros E. pose proof (xargs_total (echo_e (join0 (f :: l))) "") as T. destruct (xargs_count (echo_e (join0 (f :: l))) "") as [C1 C2]. rewrite E in T, C1, C2. cbn [String.length List.length] in *.
    split; [intros X; apply A3 in X; lia|]. intros _. apply C2. lia.
  - intros [N L]. rewrite (A1 N). now apply xargs_between.
Qed.
