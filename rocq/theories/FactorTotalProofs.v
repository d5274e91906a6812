(** Sets of words that are always factorised. *)
From Coq Require Import List String Bool NArith Arith Lia Permutation.
From Verif Require Import Base Script ScriptParser SortProofs ScriptWf ScriptStrProofs ScriptOrderProofs ScriptSpec ScriptCtorProofs ScriptSeqProofs ScriptMoreProofs TablesProofs Factor FactorBoxProofs FactorProofs FactorAllProofs FactorSpec.
Import ListNotations.

Lemma flat_sub n : forall W W' : word -> Prop, (forall w, W' w -> W w) -> flat n W -> flat n W'.
Proof.
  induction n as [|n IH]; intros W W' H; cbn [flat]; auto. intros (A & B & C & D).
  assert (X : forall k u, thirds k n W' u -> thirds k n W u) by (intros k u (w & Hw & ->); exists w; auto).
  split; [|split; [|split]]; [|eapply IH; [apply X|auto]..].
  unfold agree in *. destruct A as [A|[A|A]]; [left|right; left|right; right]; intros w w' Hw Hw'; apply A; auto.
Qed.
Lemma easy_ext n : forall W W' : word -> Prop, (forall w, W' w <-> W w) -> easy n W -> easy n W'.
Proof.
  induction n as [|n IH]; intros W W' H; cbn [easy]; [auto|]. intros [F|(F & A & B & C)]; [left; eapply flat_sub; [apply H|auto]|right].
  assert (X : forall k u, thirds k n W' u <-> thirds k n W u) by (intros k u; split; intros (w & Hw & ->); exists w; (split; [apply H; auto|auto])).
  split; [|split; [|split]]; [|eapply IH; [apply X|auto]..]. intros u v t Hu Hv Ht. apply H. apply F; apply H; auto.
Qed.
Lemma third_app n (a b c : word) : List.length a = 3 ^ n -> List.length b = 3 ^ n -> List.length c = 3 ^ n ->
  third 0 n (a ++ b ++ c) = a /\ third 1 n (a ++ b ++ c) = b /\ third 2 n (a ++ b ++ c) = c.
Proof.
  intros La Lb Lc. unfold third. split; [|split].
  - cbn [skipn Nat.mul]. rewrite <- La, firstn_app, Nat.sub_diag, firstn_all, firstn_O, app_nil_r. reflexivity.
  - rewrite Nat.mul_1_l. rewrite <- La at 2. rewrite skipn_app, Nat.sub_diag, skipn_all. cbn [skipn app]. rewrite <- Lb, firstn_app, Nat.sub_diag, firstn_all, firstn_O, app_nil_r. reflexivity.
  - replace (2 * 3 ^ n) with (List.length (a ++ b)) by (rewrite app_length; lia). rewrite app_assoc, skipn_app, Nat.sub_diag, skipn_all. cbn [skipn app].
    rewrite <- Lc. apply firstn_all.
Qed.

Section So.
  Variable so : list script -> list script.
  Hypothesis SO : set_order so.

  Section Step.
    Variables (n : nat) (seqs p0 p1 p2 : list script) (cs : list coord).
    Hypothesis F : Forall (sing (S n)) seqs.
    Hypothesis P : placed n seqs p0 p1 p2 cs.
    Let keys := map fst (places (combine cs seqs)).
    Let W : word -> Prop := fun w => In w (map wordof seqs).

    Lemma place_thirds k : In k keys -> third 0 n (at_place p0 p1 p2 k) = wordof (nth (c0 k) p0 (Null 0)) /\
      third 1 n (at_place p0 p1 p2 k) = wordof (nth (c1 k) p1 (Null 0)) /\ third 2 n (at_place p0 p1 p2 k) = wordof (nth (c2 k) p2 (Null 0)).
    Proof.
      intros H. destruct (keys_inside n seqs p0 p1 p2 cs P k H) as ((H0 & H1 & H2) & _). destruct P. apply third_app; apply sing_length, nth_sing; auto.
    Qed.
    Lemma key_word k : In k keys -> W (at_place p0 p1 p2 k).
    Proof. intros H. destruct (keys_inside n seqs p0 p1 p2 cs P k H) as (_ & s & Hs & <-). apply in_map. auto. Qed.

    Lemma flat_plane : agree 0 n W \/ agree 1 n W \/ agree 2 n W -> spans keys.
    Proof.
      intros A. apply plane_spans. destruct keys as [|k0 ks] eqn:Ek; [left; exists 0; easy|]. rewrite <- Ek in *.
      assert (K0 : In k0 keys) by (rewrite Ek; simpl; auto). clear Ek.
      pose proof P as [_ pl3 pl4 pl5 pn3 pn4 pn5 _ _].
      destruct A as [A|[A|A]]; [left; exists (c0 k0)|right; left; exists (c1 k0)|right; right; exists (c2 k0)]; intros k Hk;
        specialize (A _ _ (key_word k Hk) (key_word k0 K0)); destruct (place_thirds k Hk) as (T0 & T1 & T2); destruct (place_thirds k0 K0) as (U0 & U1 & U2);
        destruct (keys_inside n seqs p0 p1 p2 cs P k Hk) as ((I0 & I1 & I2) & _); destruct (keys_inside n seqs p0 p1 p2 cs P k0 K0) as ((J0 & J1 & J2) & _).
      - rewrite T0, U0 in A. eapply (nth_inj n p0); eauto.
      - rewrite T1, U1 in A. eapply (nth_inj n p1); eauto.
      - rewrite T2, U2 in A. eapply (nth_inj n p2); eauto.
    Qed.
    Lemma full_box : full n W -> box keys.
    Proof.
      intros Fu p q r Hp Hq Hr. pose proof (Fu _ _ _ (key_word p Hp) (key_word q Hq) (key_word r Hr)) as X.
      destruct (place_thirds p Hp) as (T0 & _ & _). destruct (place_thirds q Hq) as (_ & T1 & _). destruct (place_thirds r Hr) as (_ & _ & T2). rewrite T0, T1, T2 in X.
      unfold W in X. rewrite (words_keys n seqs p0 p1 p2 cs P) in X. destruct X as (k & Hk & E). fold keys in Hk.
      enough ((c0 p, c1 q, c2 r) = k) by (rewrite H; auto).
      apply (at_place_inj n seqs p0 p1 p2 cs P); auto.
      - destruct (keys_inside n seqs p0 p1 p2 cs P p Hp) as ((? & _ & _) & _). destruct (keys_inside n seqs p0 p1 p2 cs P q Hq) as ((_ & ? & _) & _).
        destruct (keys_inside n seqs p0 p1 p2 cs P r Hr) as ((_ & _ & ?) & _). split; auto.
      - apply (keys_inside n seqs p0 p1 p2 cs P k Hk).
    Qed.
    (** The thirds of the box are thirds of the words. *)
    Lemma side_thirds facto : incl facto keys -> facto <> [] ->
      (forall w, In w (map wordof (side so c0 p0 facto)) -> thirds 0 n W w) /\ (forall w, In w (map wordof (side so c1 p1 facto)) -> thirds 1 n W w) /\
      (forall w, In w (map wordof (side so c2 p2 facto)) -> thirds 2 n W w) /\
      ((forall k, In k keys <-> In k facto) ->
       (forall w, thirds 0 n W w -> In w (map wordof (side so c0 p0 facto))) /\ (forall w, thirds 1 n W w -> In w (map wordof (side so c1 p1 facto))) /\
       (forall w, thirds 2 n W w -> In w (map wordof (side so c2 p2 facto)))).
    Proof.
      intros If Nf. assert (In0 : forall f, In f facto -> inside p0 p1 p2 f) by (intros f Hf; apply (keys_inside n seqs p0 p1 p2 cs P f (If f Hf))).
      pose proof (pl0 _ _ _ _ _ _ P) as P0. pose proof (pl1 _ _ _ _ _ _ P) as P1. pose proof (pl2 _ _ _ _ _ _ P) as P2.
      destruct (side_ok so SO n seqs cs facto If c0 p0 P0 (fun f Hf => proj1 (In0 f Hf)) Nf) as (_ & _ & _ & W0).
      destruct (side_ok so SO n seqs cs facto If c1 p1 P1 (fun f Hf => proj1 (proj2 (In0 f Hf))) Nf) as (_ & _ & _ & W1).
      destruct (side_ok so SO n seqs cs facto If c2 p2 P2 (fun f Hf => proj2 (proj2 (In0 f Hf))) Nf) as (_ & _ & _ & W2).
      assert (X : forall f, In f facto -> W (at_place p0 p1 p2 f)) by (intros f Hf; apply key_word, If, Hf).
      split; [|split; [|split]].
      - intros w Hw. apply W0 in Hw. destruct Hw as (f & Hf & ->). exists (at_place p0 p1 p2 f). split; auto. symmetry. apply (place_thirds f (If f Hf)).
      - intros w Hw. apply W1 in Hw. destruct Hw as (f & Hf & ->). exists (at_place p0 p1 p2 f). split; auto. symmetry. apply (place_thirds f (If f Hf)).
      - intros w Hw. apply W2 in Hw. destruct Hw as (f & Hf & ->). exists (at_place p0 p1 p2 f). split; auto. symmetry. apply (place_thirds f (If f Hf)).
      - intros All. assert (Y : forall w, W w -> exists f, In f facto /\ w = at_place p0 p1 p2 f).
        { intros w Hw. unfold W in Hw. rewrite (words_keys n seqs p0 p1 p2 cs P) in Hw. destruct Hw as (k & Hk & ->). exists k. split; auto. apply All. auto. }
        split; [|split]; intros u (w & Hw & ->); destruct (Y w Hw) as (f & Hf & ->); destruct (place_thirds f (If f Hf)) as (T0 & T1 & T2).
        + rewrite T0. apply W0. exists f. auto.
        + rewrite T1. apply W1. exists f. auto.
        + rewrite T2. apply W2. exists f. auto.
    Qed.
  End Step.

  Section Sub.
    Variables (sub : list script -> res (list fact)) (n : nat).
    (** Flat sets *)
    Lemma factor_with_flat fuel : (forall l, Forall (sing n) l -> l <> [] -> flat n (fun w => In w (map wordof l)) -> exists fs, sub l = Ok fs) ->
      forall seqs, Forall (sing (S n)) seqs -> seqs <> [] -> List.length seqs <= fuel -> flat (S n) (fun w => In w (map wordof seqs)) ->
      exists fs, factor_with so sub fuel seqs = Ok fs.
    Proof.
      intros Sub. induction fuel as [|fuel IH]; intros seqs F NE Lf Fl; [destruct seqs; [easy|simpl in Lf; lia]|].
      destruct seqs as [|s [|t r]] eqn:Es; [easy| |].
      { eexists. apply (factor_one so sub _ (S n)). apply Forall_cons_iff in F. tauto. }
      rewrite <- Es in *. assert (L2 : 2 <= List.length seqs) by (rewrite Es; simpl; lia). clear s t r Es.
      destruct (factor_step so SO sub fuel n seqs F L2) as (p0 & p1 & p2 & cs & P & ->). unfold after.
      set (keys := map fst (places (combine cs seqs))) in *. pose proof (keys_nodup seqs cs) as Nk. fold keys in Nk.
      assert (Kn : keys <> []).
      { destruct seqs as [|s r]; [simpl in L2; lia|]. destruct (seqs_keys n (s :: r) p0 p1 p2 cs P s (or_introl eq_refl)) as (k & Hk & _). fold keys in Hk. intros Y. rewrite Y in Hk. easy. }
      cbn [flat] in Fl. destruct Fl as (Ag & T0 & T1 & T2).
      destruct (choose_total keys Nk Kn) as (facto & Ef); [exact (flat_plane n seqs p0 p1 p2 cs P Ag)|]. rewrite Ef. cbn [bind].
      destruct (choose_ok keys facto Nk Ef) as (Nf & Nd & If & Bx).
      destruct (done_ok n seqs p0 p1 p2 cs F P facto If) as (done & Ed & Fd & Wd). rewrite Ed. cbn [bind].
      pose proof (remaining_ok so SO n seqs p0 p1 p2 cs F P facto If done Fd Wd Nf) as R. cbv zeta in R. set (rem := isort _) in *. destruct R as (Fr & Nr & Lr & Wr).
      assert (In0 : forall f, In f facto -> inside p0 p1 p2 f) by (intros f Hf; apply (keys_inside n seqs p0 p1 p2 cs P f (If f Hf))).
      pose proof (pl0 _ _ _ _ _ _ P) as P0. pose proof (pl1 _ _ _ _ _ _ P) as P1. pose proof (pl2 _ _ _ _ _ _ P) as P2.
      destruct (side_ok so SO n seqs cs facto If c0 p0 P0 (fun f Hf => proj1 (In0 f Hf)) Nf) as (F0 & _ & NE0 & _).
      destruct (side_ok so SO n seqs cs facto If c1 p1 P1 (fun f Hf => proj1 (proj2 (In0 f Hf))) Nf) as (F1 & _ & NE1 & _).
      destruct (side_ok so SO n seqs cs facto If c2 p2 P2 (fun f Hf => proj2 (proj2 (In0 f Hf))) Nf) as (F2 & _ & NE2 & _).
      destruct (side_thirds n seqs p0 p1 p2 cs P facto If Nf) as (D0 & D1 & D2 & _).
      destruct (Sub _ F0 NE0 (flat_sub _ _ _ D0 T0)) as (a & ->). cbn [bind].
      destruct (Sub _ F1 NE1 (flat_sub _ _ _ D1 T1)) as (b & ->). cbn [bind].
      destruct (Sub _ F2 NE2 (flat_sub _ _ _ D2 T2)) as (c & ->). cbn [bind].
      destruct rem as [|x rem'] eqn:Er; [eauto|].
      destruct (IH (x :: rem') Fr) as (l & ->); [discriminate|lia| |cbn [bind]; eauto].
      eapply (flat_sub (S n) (fun w => In w (map wordof seqs))); [intros w Hw; apply Wr in Hw; tauto|]. cbn [flat]. auto.
    Qed.
    Lemma factor_with_full fuel seqs : (forall l, Forall (sing n) l -> l <> [] -> easy n (fun w => In w (map wordof l)) -> exists fs, sub l = Ok fs) ->
      Forall (sing (S n)) seqs -> seqs <> [] -> List.length seqs <= fuel -> let W := fun w => In w (map wordof seqs) in
      full n W -> easy n (thirds 0 n W) -> easy n (thirds 1 n W) -> easy n (thirds 2 n W) ->
      exists fs, factor_with so sub fuel seqs = Ok fs /\ (2 <= List.length seqs -> exists a b c, fs = [FTuple a b c]).
    Proof.
      intros Sub F NE Lf. cbv zeta. intros Fu T0 T1 T2. destruct fuel as [|fuel]; [destruct seqs; [easy|simpl in Lf; lia]|].
      destruct seqs as [|s [|t r]] eqn:Es; [easy| |].
      { eexists. split; [apply (factor_one so sub _ (S n)); apply Forall_cons_iff in F; tauto|]. simpl. lia. }
      rewrite <- Es in *. assert (L2 : 2 <= List.length seqs) by (rewrite Es; simpl; lia). clear s t r Es.
      destruct (factor_step so SO sub fuel n seqs F L2) as (p0 & p1 & p2 & cs & P & ->). unfold after.
      set (keys := map fst (places (combine cs seqs))) in *. pose proof (keys_nodup seqs cs) as Nk. fold keys in Nk.
      assert (Kn : keys <> []).
      { destruct seqs as [|s r]; [simpl in L2; lia|]. destruct (seqs_keys n (s :: r) p0 p1 p2 cs P s (or_introl eq_refl)) as (k & Hk & _). fold keys in Hk. intros Y. rewrite Y in Hk. easy. }
      pose proof (full_box n seqs p0 p1 p2 cs P Fu) as Bk. fold keys in Bk.
      destruct (choose_total keys Nk Kn (box_spans keys Bk)) as (facto & Ef). rewrite Ef. cbn [bind].
      destruct (choose_ok keys facto Nk Ef) as (Nf & Nd & If & Bx). pose proof (choose_full keys facto Nk Bk Ef) as All.
      destruct (done_ok n seqs p0 p1 p2 cs F P facto If) as (done & Ed & Fd & Wd). rewrite Ed. cbn [bind].
      pose proof (remaining_ok so SO n seqs p0 p1 p2 cs F P facto If done Fd Wd Nf) as R. cbv zeta in R. set (rem := isort _) in *. destruct R as (Fr & Nr & Lr & Wr).
      assert (In0 : forall f, In f facto -> inside p0 p1 p2 f) by (intros f Hf; apply (keys_inside n seqs p0 p1 p2 cs P f (If f Hf))).
      pose proof (pl0 _ _ _ _ _ _ P) as P0. pose proof (pl1 _ _ _ _ _ _ P) as P1. pose proof (pl2 _ _ _ _ _ _ P) as P2.
      destruct (side_ok so SO n seqs cs facto If c0 p0 P0 (fun f Hf => proj1 (In0 f Hf)) Nf) as (F0 & _ & NE0 & _).
      destruct (side_ok so SO n seqs cs facto If c1 p1 P1 (fun f Hf => proj1 (proj2 (In0 f Hf))) Nf) as (F1 & _ & NE1 & _).
      destruct (side_ok so SO n seqs cs facto If c2 p2 P2 (fun f Hf => proj2 (proj2 (In0 f Hf))) Nf) as (F2 & _ & NE2 & _).
      destruct (side_thirds n seqs p0 p1 p2 cs P facto If Nf) as (D0 & D1 & D2 & D). destruct (D All) as (E0 & E1 & E2).
      assert (X0 : easy n (fun w => In w (map wordof (side so c0 p0 facto)))) by (eapply easy_ext; [|exact T0]; split; [apply D0|apply E0]).
      assert (X1 : easy n (fun w => In w (map wordof (side so c1 p1 facto)))) by (eapply easy_ext; [|exact T1]; split; [apply D1|apply E1]).
      assert (X2 : easy n (fun w => In w (map wordof (side so c2 p2 facto)))) by (eapply easy_ext; [|exact T2]; split; [apply D2|apply E2]).
      destruct (Sub _ F0 NE0 X0) as (a & ->). cbn [bind]. destruct (Sub _ F1 NE1 X1) as (b & ->). cbn [bind]. destruct (Sub _ F2 NE2 X2) as (c & ->). cbn [bind].
      destruct rem as [|x rem'] eqn:Er; [eauto 6|]. exfalso. destruct (proj1 (Wr (wordof x))) as [Hx N]; [simpl; auto|]. apply N.
      rewrite (words_keys n seqs p0 p1 p2 cs P) in Hx. destruct Hx as (k & Hk & ->). exists k. split; auto. apply All. auto.
    Qed.
  End Sub.

  Lemma factor_at_flat n : forall depth seqs, n <= depth -> Forall (sing n) seqs -> seqs <> [] -> flat n (fun w => In w (map wordof seqs)) ->
    exists fs, factor_at so depth seqs = Ok fs.
  Proof.
    induction n as [|n IH]; intros depth seqs Ld F NE Fl.
    - eexists. destruct depth; cbn [factor_at]; apply factor_zero; auto.
    - destruct depth as [|depth]; [lia|]. cbn [factor_at]. apply (factor_with_flat _ n); auto. intros l Fl' Nl. apply IH; auto. lia.
  Qed.
  Lemma factor_at_easy n : forall depth seqs, n <= depth -> Forall (sing n) seqs -> seqs <> [] -> easy n (fun w => In w (map wordof seqs)) ->
    exists fs, factor_at so depth seqs = Ok fs.
  Proof.
    induction n as [|n IH]; intros depth seqs Ld F NE Es.
    - eexists. destruct depth; cbn [factor_at]; apply factor_zero; auto.
    - cbn [easy] in Es. destruct Es as [Es|(Fu & T0 & T1 & T2)]; [apply (factor_at_flat (S n)); auto|].
      destruct depth as [|depth]; [lia|]. cbn [factor_at]. destruct (factor_with_full (factor_at so depth) n (List.length seqs) seqs) as (fs & E & _); auto; [|eauto].
      intros l Fl' Nl. apply IH; auto. lia.
  Qed.
End So.
