(** [lt] is a strict total order on scripts that are not one-term sums. *)
From Coq Require Import List String Bool NArith Arith Lia Sorted.
From Verif Require Import Base Script ScriptWf ScriptStrProofs.
Import ListNotations.

(** Comparison functions. *)
Record good {A} (cmp : A -> A -> comparison) : Prop := {
  good_eq : forall x y, cmp x y = Eq <-> x = y;
  good_opp : forall x y, cmp y x = CompOpp (cmp x y);
  good_trans : forall x y z, cmp x y = Lt -> cmp y z = Lt -> cmp x z = Lt }.

Definition lexc (c1 c2 : comparison) : comparison :=
  match c1 with Eq => c2 | _ => c1 end.
Definition pair_cmp {A B} (ca : A -> A -> comparison) (cb : B -> B -> comparison)
  (x y : A * B) : comparison := lexc (ca (fst x) (fst y)) (cb (snd x) (snd y)).

Lemma good_pair {A B} (ca : A -> A -> comparison) (cb : B -> B -> comparison) :
  good ca -> good cb -> good (pair_cmp ca cb).
Proof.
  intros Ga Gb. constructor.
  - intros [x1 x2] [y1 y2]. unfold pair_cmp, lexc; simpl.
    destruct (ca x1 y1) eqn:E.
    + apply (good_eq _ Ga) in E. subst. rewrite (good_eq _ Gb). split; congruence.
    + split; [discriminate|]. intros X. inversion X; subst.
      rewrite (proj2 (good_eq _ Ga y1 y1) eq_refl) in E. discriminate.
    + split; [discriminate|]. intros X. inversion X; subst.
      rewrite (proj2 (good_eq _ Ga y1 y1) eq_refl) in E. discriminate.
  - intros [x1 x2] [y1 y2]. unfold pair_cmp, lexc; simpl.
    rewrite (good_opp _ Ga x1 y1), (good_opp _ Gb x2 y2). destruct (ca x1 y1); auto.
  - intros [x1 x2] [y1 y2] [z1 z2]. unfold pair_cmp, lexc; simpl. intros H1 H2.
    destruct (ca x1 y1) eqn:E1; try discriminate.
    + apply (good_eq _ Ga) in E1. subst. destruct (ca y1 z1) eqn:E2; auto.
      eapply (good_trans _ Gb); eauto.
    + destruct (ca y1 z1) eqn:E2; try discriminate.
      * apply (good_eq _ Ga) in E2. subst. rewrite E1. auto.
      * rewrite (good_trans _ Ga _ _ _ E1 E2). auto.
Qed.

Lemma good_nat : good Nat.compare.
Proof.
  constructor; intros.
  - apply Nat.compare_eq_iff.
  - apply Nat.compare_antisym.
  - rewrite Nat.compare_lt_iff in *. lia.
Qed.
Lemma good_N : good N.compare.
Proof.
  constructor; intros.
  - apply N.compare_eq_iff.
  - apply N.compare_antisym.
  - rewrite N.compare_lt_iff in *. lia.
Qed.

Fixpoint bcmp (a b : list N) : comparison :=
  match a, b with
  | [], [] => Eq
  | [], _ => Lt
  | _, [] => Gt
  | x :: a', y :: b' => lexc (N.compare x y) (bcmp a' b')
  end.

Lemma good_bytes : good bcmp.
Proof.
  constructor.
  - induction x as [|x a IH]; intros [|y b]; simpl; split; intros H; try discriminate; auto.
    + unfold lexc in H. destruct (N.compare x y) eqn:E; try discriminate.
      apply N.compare_eq_iff in E. subst. f_equal. apply IH; auto.
    + inversion H; subst. rewrite N.compare_refl. simpl. apply IH; auto.
  - induction x as [|x a IH]; intros [|y b]; simpl; auto.
    rewrite IH, (N.compare_antisym x y). destruct (N.compare x y); auto.
  - induction x as [|x a IH]; intros [|y b] [|z c]; simpl; intros H1 H2; try discriminate; auto.
    unfold lexc in *.
    destruct (N.compare x y) eqn:E1; try discriminate.
    + apply N.compare_eq_iff in E1. subst.
      destruct (N.compare y z) eqn:E2; try discriminate; eauto.
    + destruct (N.compare y z) eqn:E2; try discriminate.
      * apply N.compare_eq_iff in E2. subst. rewrite E1. auto.
      * rewrite N.compare_lt_iff in *. assert (x < z)%N by lia.
        rewrite <- N.compare_lt_iff in H. rewrite H. auto.
Qed.

Lemma bytes_lt_cmp a b : bytes_lt a b = match bcmp a b with Lt => true | _ => false end.
Proof.
  revert b; induction a as [|x a IH]; intros [|y b]; simpl; auto.
  unfold lexc, N.eqb, N.ltb. rewrite IH.
  destruct (N.eqb_spec x y).
  - subst. rewrite N.compare_refl. destruct (N.eqb_spec y y) as [E|E]; [|congruence].
    fold (N.eqb y y). rewrite N.eqb_refl. reflexivity.
  - fold (N.eqb x y). destruct (N.eqb_spec x y); [congruence|].
    destruct (N.compare x y) eqn:E; auto. apply N.compare_eq_iff in E. congruence.
Qed.

Lemma bytes_eqb_cmp a b : bytes_eqb a b = match bcmp a b with Eq => true | _ => false end.
Proof.
  destruct (bytes_eqb a b) eqn:E.
  - apply bytes_eqb_eq in E. subst. rewrite (proj2 (good_eq _ good_bytes b b) eq_refl). auto.
  - destruct (bcmp a b) eqn:E2; auto. apply (good_eq _ good_bytes) in E2. subst.
    rewrite (proj2 (bytes_eqb_eq b b) eq_refl) in E. discriminate.
Qed.

(** Scripts that are not one-term sums. *)
Definition nf (s : script) : Prop := wf s /\ forall x, s <> Add [x].

Lemma nf_wf s : nf s -> wf s.
Proof. intros [H _]; auto. Qed.
Lemma nf_mul a b c : wf (Mul a b c) -> nf (Mul a b c).
Proof. intros H; split; auto. discriminate. Qed.
Lemma nf_notadd s : wf s -> is_add s = false -> nf s.
Proof. intros H A; split; auto. intros x ->. discriminate. Qed.

Definition kids (s : script) : list script :=
  match s with Mul a b c => [a; b; c] | Add cs => cs | _ => [] end.

Lemma nf_kids s : wf s -> Forall nf (kids s).
Proof.
  intros H. destruct s as [l|p|a b c|cs]; simpl kids; auto.
  - apply wf_mul_inv in H. destruct H as (? & ? & ? & [_ ?] & [_ ?] & [_ ?] & _).
    repeat constructor; auto.
  - apply Forall_forall. intros c Hc. destruct (wf_add_in _ _ H Hc) as (? & ? & _).
    apply nf_notadd; auto.
Qed.

Lemma cardinal_pos s : wf s -> (1 <= cardinal s)%N.
Proof.
  induction s as [l|p|a b c IHa IHb IHc|cs IH] using script_ind'; intros H; simpl; try lia.
  - apply wf_mul_inv in H. assert (1 <= cardinal a)%N by tauto.
    assert (1 <= cardinal b)%N by tauto. assert (1 <= cardinal c)%N by tauto. nia.
  - pose proof (wf_add_children _ H) as F. destruct cs; [simpl in H; tauto|].
    inversion IH; inversion F; subst. simpl. assert (1 <= cardinal s)%N by auto. lia.
Qed.

Lemma nf_add_card cs : nf (Add cs) -> (2 <= cardinal (Add cs))%N.
Proof.
  intros [H N]. pose proof (wf_add_children _ H) as F.
  destruct cs as [|x [|y cs]]; [simpl in H; tauto|exfalso; apply (N x); auto|].
  inversion F as [|? ? F1 F2]; subst. inversion F2 as [|? ? F3 F4]; subst.
  pose proof (cardinal_pos _ F1). pose proof (cardinal_pos _ F3). simpl. lia.
Qed.

Lemma repeat_app_inv {A} (x : A) (l1 l2 : list A) n :
  (l1 ++ l2)%list = repeat x n -> l1 = repeat x (List.length l1) /\ l2 = repeat x (List.length l2).
Proof.
  revert n; induction l1 as [|y l1 IH]; intros n E; simpl in *.
  - split; auto. subst. rewrite repeat_length. auto.
  - destruct n; [discriminate|]. simpl in E. inversion E; subst.
    destruct (IH _ H1) as [E1 E2]. split; auto. f_equal; auto.
Qed.

Lemma single_canon s : nf s -> cardinal s = 1%N ->
  List.length (canonical s) = 3 ^ layer s /\ Forall (fun b => (1 <= b)%N) (canonical s) /\
  (canonical s = repeat E_value (List.length (canonical s)) -> is_empty s = true).
Proof.
  induction s as [l|p|a b c IHa IHb IHc|cs IH] using script_ind'; intros H C.
  - simpl. repeat split; auto.
    + apply repeat_length.
    + apply Forall_forall. intros x Hx. apply repeat_spec in Hx. subst. unfold E_value; lia.
  - simpl. repeat split; auto.
    + repeat constructor. destruct p; simpl; lia.
    + destruct p; discriminate.
  - destruct H as [H _]. pose proof (nf_kids _ H) as NK. simpl in NK.
    inversion NK as [|? ? Na NK']; subst. inversion NK' as [|? ? Nb NK2]; subst.
    inversion NK2 as [|? ? Nc _]; subst.
    apply wf_mul_inv in H. destruct H as (Wa & Wb & Wc & _ & _ & _ & Lb & Lc & _).
    pose proof (cardinal_pos _ Wa). pose proof (cardinal_pos _ Wb). pose proof (cardinal_pos _ Wc).
    simpl in C. assert (cardinal a = 1 /\ cardinal b = 1 /\ cardinal c = 1)%N as (Ca & Cb & Cc) by nia.
    destruct (IHa Na Ca) as (A1 & A2 & A3). destruct (IHb Nb Cb) as (B1 & B2 & B3).
    destruct (IHc Nc Cc) as (C1 & C2 & C3).
    cbn [canonical layer is_empty]. repeat split.
    + rewrite !app_length, A1, B1, C1, Lb, Lc. simpl. lia.
    + apply Forall_app; split; auto. apply Forall_app; split; auto.
    + intros E. apply repeat_app_inv in E. destruct E as [E1 E].
      apply repeat_app_inv in E. destruct E as [E2 E3]. rewrite A3, B3, C3; auto.
  - apply nf_add_card in H. lia.
Qed.

Lemma ones_le l : Forall (fun b => (1 <= b)%N) l ->
  bcmp (repeat E_value (List.length l)) l = Lt \/ l = repeat E_value (List.length l).
Proof.
  induction 1 as [|x l Hx Hl IH]; [right; reflexivity|].
  cbn [repeat List.length bcmp].
  unfold E_value in *. destruct (N.compare_spec 1 x) as [<-|Hlt|Hgt]; cbn [lexc].
  - destruct IH as [IH|IH]; auto. right. f_equal; auto.
  - auto.
  - lia.
Qed.

Lemma empty_norm_null s : wf s -> is_empty s = true -> is_add s = false -> norm s = Null (layer s).
Proof.
  destruct s as [l|p|a b c|cs]; intros H E A; auto; try discriminate.
  simpl in E. cbn [norm]. rewrite E. reflexivity.
Qed.

Lemma empty_nf_notadd s : nf s -> is_empty s = true -> is_add s = false.
Proof.
  intros [H N] E. destruct s as [| | |cs]; auto. exfalso.
  pose proof (wf_add_children _ H) as F.
  destruct cs as [|x [|y cs]]; [simpl in H; tauto|apply (N x); auto|].
  simpl in E. rewrite !andb_true_iff in E. destruct E as (Ex & Ey & _).
  assert (Hx := wf_add_in _ x H (or_introl eq_refl)).
  assert (Hy := wf_add_in _ y H (or_intror (or_introl eq_refl))).
  destruct Hx as (Wx & Ax & Lx). destruct Hy as (Wy & Ay & Ly).
  assert (Q : script_eqb x y = true).
  { apply script_eqb_norm; auto. rewrite !empty_norm_null by auto. congruence. }
  simpl in H. destruct H as (_ & _ & _ & _ & S & _).
  inversion S as [|? ? S' HS]; subst. inversion HS as [|? ? L _]; subst.
  destruct x; cbn [lt] in L; rewrite Q in L; discriminate.
Qed.

Lemma script_eqb_refl s : script_eqb s s = true.
Proof. apply String.eqb_refl. Qed.
Lemma script_eqb_sym s t : script_eqb s t = script_eqb t s.
Proof. unfold script_eqb. apply String.eqb_sym. Qed.
Lemma script_eqb_eq s t : script_eqb s t = true <-> str s = str t.
Proof. apply String.eqb_eq. Qed.
Lemma script_eqb_trans_l s t u : script_eqb s t = true -> script_eqb s u = script_eqb t u.
Proof. unfold script_eqb. rewrite String.eqb_eq. intros ->. auto. Qed.
Lemma script_eqb_trans_r s t u : script_eqb s t = true -> script_eqb u s = script_eqb u t.
Proof. unfold script_eqb. rewrite String.eqb_eq. intros ->. auto. Qed.

(** The key compared first. *)
Definition crank (s : script) : nat := match s with Add _ => 1 | _ => 0 end.
Definition key (s : script) : nat * (N * (list N * nat)) :=
  (layer s, (cardinal s, (canonical s, crank s))).
Definition kcmp (a b : script) : comparison :=
  pair_cmp Nat.compare (pair_cmp N.compare (pair_cmp bcmp Nat.compare)) (key a) (key b).
Lemma good_key : good (pair_cmp Nat.compare (pair_cmp N.compare (pair_cmp bcmp Nat.compare))).
Proof. repeat apply good_pair; auto using good_nat, good_N, good_bytes. Qed.

Lemma kcmp_opp a b : kcmp b a = CompOpp (kcmp a b).
Proof. apply (good_opp _ good_key). Qed.
Lemma kcmp_trans a b c : kcmp a b = Lt -> kcmp b c = Lt -> kcmp a c = Lt.
Proof. apply (good_trans _ good_key). Qed.
Lemma kcmp_eq a b : kcmp a b = Eq <-> key a = key b.
Proof. apply (good_eq _ good_key). Qed.

Lemma crank_norm s : nf s -> crank (norm s) = crank s.
Proof.
  intros [H N]. destruct s as [| |a b c|cs]; auto.
  - simpl. destruct (is_empty a && is_empty b && is_empty c); auto.
  - destruct cs as [|x [|y cs]]; auto. exfalso; apply (N x); auto.
Qed.
Lemma key_norm s : nf s -> key (norm s) = key s.
Proof.
  intros H. unfold key. rewrite layer_norm, cardinal_norm, canonical_norm, crank_norm; auto; apply H.
Qed.

Fixpoint walk (cs os : list script) : bool :=
  match cs, os with
  | [], _ => true
  | _ :: _, [] => false
  | c :: cs', o' :: os' => if script_eqb o' c then walk cs' os' else lt c o'
  end.

(** Layer 0: the key determines the script. *)
Definition layer0_scripts : list script :=
  Null 0 :: map Prim [PU; PA; PS; PB; PT]
  ++ map Add (filter (fun l => Nat.ltb 1 (List.length l)) (sublists U6)).

Lemma layer0_in s : nf s -> layer s = 0 -> In s layer0_scripts.
Proof.
  intros [H N] L. unfold layer0_scripts. destruct s as [l|p|a b c|cs].
  - simpl in L. subst. left; auto.
  - right. apply in_or_app. left. apply in_map. destruct p; simpl; auto 10.
  - discriminate.
  - right. apply in_or_app. right. apply in_map. apply filter_In. split.
    + apply layer0_sublist; auto.
    + destruct cs as [|x [|y cs]]; [simpl in H; tauto|exfalso; apply (N x); auto|reflexivity].
Qed.

Lemma layer0_key_eqb :
  forallb (fun a => forallb (fun b =>
     match lexc (N.compare (cardinal a) (cardinal b)) (bcmp (canonical a) (canonical b)) with
     | Eq => script_eqb a b | _ => true end)
     layer0_scripts) layer0_scripts = true.
Proof. vm_compute. reflexivity. Qed.

Lemma layer0_key a b : nf a -> nf b -> layer a = 0 -> layer b = 0 ->
  cardinal a = cardinal b -> canonical a = canonical b -> script_eqb a b = true.
Proof.
  intros Ha Hb La Lb C K.
  pose proof layer0_key_eqb as F. rewrite forallb_forall in F.
  specialize (F a (layer0_in a Ha La)). rewrite forallb_forall in F.
  specialize (F b (layer0_in b Hb Lb)). rewrite C, K in F.
  rewrite N.compare_refl in F. simpl in F.
  rewrite (proj2 (good_eq _ good_bytes _ _) eq_refl) in F. auto.
Qed.

Lemma null_least l b : nf b -> layer b = l -> script_eqb (Null l) b = false -> l <= MAX_LAYER ->
  kcmp (Null l) b = Lt.
Proof.
  intros Hb L E Hl. unfold kcmp, key, pair_cmp. cbn [fst snd]. rewrite L.
  cbn [layer]. rewrite Nat.compare_refl. cbn [lexc].
  pose proof (cardinal_pos _ (nf_wf _ Hb)) as P. cbn [cardinal].
  destruct (N.compare_spec 1 (cardinal b)) as [C|C|C]; [|reflexivity|lia].
  cbn [lexc].
  destruct (single_canon b Hb (eq_sym C)) as (S1 & S2 & S3).
  destruct (ones_le _ S2) as [O|O].
  - cbn [canonical]. rewrite S1, L in O. rewrite O. reflexivity.
  - specialize (S3 O). exfalso.
    assert (script_eqb (Null l) b = true); [|congruence].
    apply script_eqb_norm; [exact Hl|apply Hb|].
    rewrite (empty_norm_null b); [simpl; congruence|apply Hb|auto|].
    apply empty_nf_notadd; auto.
Qed.

Lemma nf_layer_le s : wf s -> layer s <= MAX_LAYER.
Proof.
  induction s as [l|p|a b c IHa IHb IHc|cs IH] using script_ind'; intros H; auto.
  - simpl; lia.
  - apply wf_mul_inv in H. simpl. lia.
  - pose proof (wf_add_children _ H) as F. destruct cs; simpl; [lia|].
    inversion IH; inversion F; subst; auto.
Qed.

Lemma lt_unfold a b : nf a -> nf b ->
  lt a b = if script_eqb a b then false
           else match kcmp a b with
                | Lt => true | Gt => false
                | Eq => walk (kids a) (kids b)
                end.
Proof.
  intros Ha Hb.
  destruct (script_eqb a b) eqn:E.
  { destruct a; cbn [lt]; rewrite E; reflexivity. }
  destruct (Nat.eqb_spec (layer a) (layer b)) as [L|L].
  2:{ assert (G : lt a b = Nat.ltb (layer a) (layer b)).
      { destruct a; cbn [lt]; rewrite E; apply Nat.eqb_neq in L; rewrite L; reflexivity. }
      rewrite G. unfold kcmp, key, pair_cmp. cbn [fst snd].
      destruct (Nat.compare_spec (layer a) (layer b)) as [C|C|C]; cbn [lexc].
      - congruence.
      - apply Nat.ltb_lt; auto.
      - apply Nat.ltb_ge. lia. }
  assert (La := nf_layer_le a (nf_wf _ Ha)).
  (* Null cases *)
  assert (NA : forall l, a = Null l -> lt a b = true /\ kcmp a b = Lt).
  { intros l ->. split.
    - cbn [lt]. rewrite E. apply Nat.eqb_eq in L. rewrite L. reflexivity.
    - apply null_least; auto. }
  assert (NB : forall l, b = Null l -> (forall k, a <> Null k) -> lt a b = false /\ kcmp a b = Gt).
  { intros l -> N. split.
    - destruct a; cbn [lt]; rewrite E; apply Nat.eqb_eq in L; rewrite L; cbn [negb]; auto.
      exfalso; eapply N; eauto.
    - rewrite kcmp_opp. rewrite null_least; auto.
      + rewrite script_eqb_sym; auto.
      + simpl in L. lia. }
  destruct (match a with Null l => Some l | _ => None end) as [la|] eqn:EA.
  { destruct a; try discriminate. destruct (NA l eq_refl) as [-> ->]. reflexivity. }
  assert (N : forall k, a <> Null k) by (intros k ->; discriminate).
  destruct (match b with Null l => Some l | _ => None end) as [lb|] eqn:EB.
  { destruct b; try discriminate. destruct (NB l eq_refl N) as [-> ->]. reflexivity. }
  assert (N' : forall k, b <> Null k) by (intros k ->; discriminate).
  clear NA NB EA EB.
  assert (G : lt a b =
    if negb (N.eqb (cardinal a) (cardinal b)) then N.ltb (cardinal a) (cardinal b)
    else if negb (bytes_eqb (canonical a) (canonical b))
    then bytes_lt (canonical a) (canonical b)
    else if negb (Nat.eqb (layer a) 0) then
      match a, b with
      | Mul _ _ _, Mul _ _ _ => walk (kids a) (kids b)
      | Add cs, Add os => walk cs os
      | Mul _ _ _, _ => true
      | Prim _, _ => true
      | _, _ => false
      end
    else N.ltb (char_value a) (char_value b)).
  { apply Nat.eqb_eq in L.
    destruct a as [|p|a1 a2 a3|cs]; [exfalso; eapply N; reflexivity| | |];
    (destruct b as [|q|b1 b2 b3|os]; [exfalso; eapply N'; reflexivity| | |]);
    cbn [lt]; rewrite E, L; reflexivity. }
  rewrite G. clear G. unfold kcmp, key, pair_cmp. cbn [fst snd]. rewrite L.
  rewrite Nat.compare_refl. cbn [lexc].
  destruct (N.compare_spec (cardinal a) (cardinal b)) as [C|C|C].
  2:{ apply N.lt_neq in C as C'. apply N.eqb_neq in C'. rewrite C'. cbn [negb lexc].
      apply N.ltb_lt; auto. }
  2:{ apply N.lt_neq in C as C'. apply not_eq_sym in C'. apply N.eqb_neq in C'. rewrite C'.
      cbn [negb lexc]. apply N.ltb_ge. lia. }
  apply N.eqb_eq in C as C'. rewrite C'. cbn [negb lexc].
  rewrite bytes_eqb_cmp, bytes_lt_cmp.
  destruct (bcmp (canonical a) (canonical b)) eqn:B; cbn [negb lexc]; auto.
  apply (good_eq _ good_bytes) in B.
  destruct (Nat.eqb_spec (layer b) 0) as [Z|Z].
  { exfalso. rewrite layer0_key in E; auto; congruence. }
  cbn [negb].
  destruct a as [|p|a1 a2 a3|cs]; [exfalso; eapply N; reflexivity|exfalso; apply Z; rewrite <- L; reflexivity| |];
  (destruct b as [|q|b1 b2 b3|os]; [exfalso; eapply N'; reflexivity|exfalso; apply Z; reflexivity| |]);
  reflexivity.
Qed.

(** Normalisation is invisible to [lt]. *)
Lemma walk_norm cs os :
  Forall (fun c => forall o, nf o -> lt (norm c) (norm o) = lt c o) cs ->
  Forall nf cs -> Forall nf os ->
  walk (map norm cs) (map norm os) = walk cs os.
Proof.
  intros H. revert os. induction H as [|c cs Hc H IH]; intros os Fc Fo; auto.
  destruct os as [|o os]; auto. inversion Fc; inversion Fo; subst. cbn [map walk].
  assert (E : script_eqb (norm o) (norm c) = script_eqb o c).
  { unfold script_eqb. rewrite !str_norm; auto using nf_wf. }
  rewrite E, IH, Hc; auto.
Qed.

Lemma eqb_norm a b : wf a -> wf b -> script_eqb (norm a) (norm b) = script_eqb a b.
Proof. intros. unfold script_eqb. rewrite !str_norm; auto. Qed.

Lemma kcmp_norm a b : nf a -> nf b -> kcmp (norm a) (norm b) = kcmp a b.
Proof. intros. unfold kcmp. rewrite !key_norm; auto. Qed.

Lemma kids_norm s : nf s -> is_empty s = false -> kids (norm s) = map norm (kids s).
Proof.
  intros [H N] E. destruct s as [|p|a b c|cs]; auto; try discriminate.
  - simpl in *. rewrite E. auto.
  - destruct cs as [|x [|y cs]]; auto. exfalso; apply (N x); auto.
Qed.

Lemma sorted_norm cs :
  Forall (fun c => forall o, nf o -> lt (norm c) (norm o) = lt c o) cs ->
  Forall nf cs -> sorted_lt cs -> sorted_lt (map norm cs).
Proof.
  intros H. induction H as [|c cs Hc H IH]; intros F S; [constructor|].
  inversion F; inversion S; subst. simpl. constructor; [apply IH; auto|].
  rewrite Forall_forall in *. intros x Hx. apply in_map_iff in Hx.
  destruct Hx as (y & <- & Hy). rewrite Hc; auto.
Qed.

Lemma child_ok_norm c : wf c -> child_ok c -> child_ok (norm c).
Proof.
  intros H K. split.
  - rewrite empty_norm. intros E. rewrite (norm_empty_child c); auto.
  - intros x. destruct K as [K1 K2]. destruct c as [|p|a b c|cs]; try discriminate.
    + simpl. destruct (is_empty a && is_empty b && is_empty c); discriminate.
    + destruct cs as [|y [|z cs]]; simpl; try discriminate. exfalso; apply (K2 y); auto.
Qed.

(** [norm] keeps well-formedness and [lt]. *)
Fixpoint size (s : script) : nat :=
  match s with
  | Null _ | Prim _ => 1
  | Mul a b c => S (size a + size b + size c)
  | Add cs => S (fold_right (fun c n => size c + n) 0 cs)
  end.
Lemma size_in c cs : In c cs -> size c < size (Add cs).
Proof.
  simpl. induction cs; simpl; intros []; subst; [lia|]. apply IHcs in H. lia.
Qed.
Lemma size_kids c s : In c (kids s) -> size c < size s.
Proof.
  destruct s; simpl; try tauto.
  - intros [<-|[<-|[<-|[]]]]; lia.
  - intros H. apply (size_in c cs H).
Qed.

Lemma norm_notadd s : wf s -> is_add s = false -> is_add (norm s) = false.
Proof.
  destruct s as [| |a b c|cs]; simpl; intros; auto; try discriminate.
  destruct (is_empty a && is_empty b && is_empty c); auto.
Qed.

Lemma norm_wf_lt n : forall s, size s <= n ->
  (wf s -> wf (norm s)) /\
  (nf s -> forall o, size o <= n -> nf o -> lt (norm s) (norm o) = lt s o).
Proof.
  induction n as [|n IH]; intros s Hn.
  { destruct s; simpl in Hn; lia. }
  assert (WF : forall s, size s <= S n -> wf s -> wf (norm s)).
  { clear s Hn. intros s Hn H. destruct s as [l|p|a b c|cs]; auto.
    - pose proof H as H'. apply wf_mul_inv in H.
      destruct H as (Wa & Wb & Wc & Ka & Kb & Kc & Lb & Lc & L6 & C).
      simpl in Hn. cbn [norm].
      destruct (is_empty a && is_empty b && is_empty c) eqn:E; [simpl; lia|].
      assert (X : cardinal (Mul (norm a) (norm b) (norm c)) = cardinal (Mul a b c)).
      { simpl. rewrite !cardinal_norm; auto. }
      cbn [wf]. rewrite X. rewrite !layer_norm by auto.
      repeat split; auto; try (apply IH; auto; lia); try (apply child_ok_norm; auto).
    - destruct cs as [|x cs0] eqn:Ecs; [simpl in H; tauto|]. rewrite <- Ecs in *.
      assert (In x cs) by (subst; left; auto).
      destruct cs0 as [|y cs0].
      + subst. simpl. apply IH; [simpl in Hn; lia|].
        apply (wf_add_in _ x H); auto.
      + assert (En : norm (Add cs) = Add (map norm cs)) by (subst; reflexivity).
        rewrite En. cbn [wf].
        assert (Sz : forall c, In c cs -> size c <= n).
        { intros c Hc. pose proof (size_in c cs Hc). lia. }
        assert (NF : Forall nf cs) by (apply (nf_kids (Add cs)); auto).
        split; [subst; discriminate|]. split; [|split; [|split; [|split]]].
        * apply fold_Forall. rewrite Forall_forall. intros d Hd. apply in_map_iff in Hd.
          destruct Hd as (c & <- & Hc). apply IH; auto. apply (wf_add_in _ _ H Hc).
        * intros d Hd. apply in_map_iff in Hd. destruct Hd as (c & <- & Hc).
          destruct (wf_add_in _ _ H Hc) as (? & ? & _). apply norm_notadd; auto.
        * intros d Hd. apply in_map_iff in Hd. destruct Hd as (c & <- & Hc).
          destruct (wf_add_in _ _ H Hc) as (Wc & ? & Lc). rewrite layer_norm; auto.
          assert (Wx : wf x) by (apply (wf_add_in _ x H); auto).
          rewrite Lc. subst cs. simpl. rewrite layer_norm; auto.
        * simpl in H. destruct H as (_ & _ & _ & _ & S & _).
          assert (Sz' : Forall (fun c => size c <= n) cs) by (apply Forall_forall; auto).
          clear - IH NF S Sz'. induction cs as [|c cs IHc]; [constructor|].
          inversion NF; inversion Sz'; inversion S; subst. simpl. constructor; [apply IHc; auto|].
          rewrite Forall_forall in *. intros d Hd. apply in_map_iff in Hd.
          destruct Hd as (e & <- & He). rewrite (proj2 (IH c ltac:(auto))); auto.
        * assert (X : cardinal (Add (map norm cs)) = cardinal (Add cs)).
          { rewrite <- En. apply cardinal_norm; auto. }
          rewrite X. simpl in H. tauto. }
  split; [apply WF; auto|].
  intros Hs o Ho Hno.
  assert (Ns : nf (norm s)).
  { split; [apply WF; auto; apply Hs|]. destruct Hs as [Hs Hs'].
    intros x. destruct s as [|p|a b c|cs]; try discriminate.
    - simpl. destruct (is_empty a && is_empty b && is_empty c); discriminate.
    - destruct cs as [|y [|z cs]]; simpl; try discriminate. exfalso; apply (Hs' y); auto. }
  assert (No : nf (norm o)).
  { split; [apply WF; auto; apply Hno|]. destruct Hno as [Hs1 Hs'].
    intros x. destruct o as [|p|a b c|cs]; try discriminate.
    - simpl. destruct (is_empty a && is_empty b && is_empty c); discriminate.
    - destruct cs as [|y [|z cs]]; simpl; try discriminate. exfalso; apply (Hs' y); auto. }
  rewrite !lt_unfold by auto. rewrite eqb_norm by (apply nf_wf; auto).
  rewrite kcmp_norm by auto.
  destruct (script_eqb s o) eqn:E; auto. destruct (kcmp s o) eqn:K; auto.
  destruct (is_empty s) eqn:Es.
  { exfalso. apply kcmp_eq in K. unfold key in K. inversion K as [[K1 K2 K3 K4]].
    assert (As := empty_nf_notadd s Hs Es).
    rewrite (empty_canonical s) in K3; auto; [|apply Hs].
    rewrite (empty_cardinal s) in K2; auto; [|apply Hs].
    destruct (single_canon o Hno (eq_sym K2)) as (S1 & S2 & S3).
    assert (Eo : is_empty o = true).
    { apply S3. rewrite S1, <- K3, <- K1. reflexivity. }
    assert (script_eqb s o = true); [|congruence].
    apply script_eqb_norm; try apply nf_wf; auto.
    rewrite !empty_norm_null; auto using nf_wf, empty_nf_notadd. }
  destruct (is_empty o) eqn:Eo.
  { exfalso. apply kcmp_eq in K. unfold key in K. inversion K as [[K1 K2 K3 K4]].
    assert (As := empty_nf_notadd o Hno Eo).
    rewrite (empty_canonical o) in K3; auto; [|apply Hno].
    rewrite (empty_cardinal o) in K2; auto; [|apply Hno].
    destruct (single_canon s Hs K2) as (S1 & S2 & S3).
    assert (is_empty s = true); [|congruence].
    apply S3. rewrite S1, K3, K1. reflexivity. }
  rewrite !kids_norm by auto.
  assert (Fs := nf_kids s (nf_wf _ Hs)). assert (Fo := nf_kids o (nf_wf _ Hno)).
  assert (Zs : Forall (fun c => size c <= n) (kids s)).
  { apply Forall_forall. intros c Hc. apply size_kids in Hc. lia. }
  assert (Zo : Forall (fun c => size c <= n) (kids o)).
  { apply Forall_forall. intros c Hc. apply size_kids in Hc. lia. }
  revert Fs Fo Zs Zo. generalize (kids s) (kids o). clear - IH.
  induction l as [|c cs IHl]; intros os Fs Fo Zs Zo; auto.
  destruct os as [|o os]; auto. inversion Fs; inversion Fo; inversion Zs; inversion Zo; subst.
  cbn [map walk]. rewrite eqb_norm by (apply nf_wf; auto).
  rewrite IHl by auto. rewrite (proj2 (IH c ltac:(auto))); auto.
Qed.

Lemma wf_norm s : wf s -> wf (norm s).
Proof. apply (norm_wf_lt (size s) s (le_n _)). Qed.
Lemma nf_norm s : nf s -> nf (norm s).
Proof.
  intros [Hs Hs']. split; [apply wf_norm; auto|].
  intros x. destruct s as [|p|a b c|cs]; try discriminate.
  - simpl. destruct (is_empty a && is_empty b && is_empty c); discriminate.
  - destruct cs as [|y [|z cs]]; simpl; try discriminate. exfalso; apply (Hs' y); auto.
Qed.
Lemma lt_norm s o : nf s -> nf o -> lt (norm s) (norm o) = lt s o.
Proof.
  intros. apply (norm_wf_lt (size s + size o) s ltac:(lia)); auto. lia.
Qed.
Lemma lt_eqb s o s' o' : nf s -> nf o -> nf s' -> nf o' ->
  script_eqb s s' = true -> script_eqb o o' = true -> lt s o = lt s' o'.
Proof.
  intros Hs Ho Hs' Ho' E1 E2.
  apply script_eqb_norm in E1; try apply nf_wf; auto.
  apply script_eqb_norm in E2; try apply nf_wf; auto.
  rewrite <- (lt_norm s o), <- (lt_norm s' o'), E1, E2; auto.
Qed.

(** The order properties. *)
Lemma lt_irrefl s o : script_eqb s o = true -> lt s o = false.
Proof. intros E. destruct s; cbn [lt]; rewrite E; reflexivity. Qed.

Lemma lt_neq s o : lt s o = true -> script_eqb s o = false.
Proof. intros H. destruct (script_eqb s o) eqn:E; auto. rewrite lt_irrefl in H; auto. Qed.

Lemma eqb_kcmp s o : nf s -> nf o -> script_eqb s o = true -> kcmp s o = Eq.
Proof.
  intros Hs Ho E. apply script_eqb_norm in E; try apply nf_wf; auto.
  apply kcmp_eq. rewrite <- (key_norm s), <- (key_norm o), E; auto.
Qed.

(** Both sides not equal and with the same key: the children decide. *)
Lemma walk_trans cs os us :
  Forall (fun c => forall o u, nf o -> nf u -> lt c o = true -> lt o u = true -> lt c u = true) cs ->
  Forall nf cs -> Forall nf os -> Forall nf us ->
  walk cs os = true -> walk os us = true ->
  walk cs us = true.
Proof.
  intros H. revert os us. induction H as [|c cs Hc H IH]; intros os us Fc Fo Fu W1 W2; auto.
  destruct os as [|o os]; [discriminate|]. destruct us as [|u us]; [discriminate|].
  inversion Fc; inversion Fo; inversion Fu; subst. cbn [walk] in *.
  destruct (script_eqb o c) eqn:E1.
  - assert (E3 : script_eqb u c = script_eqb u o).
    { symmetry. apply script_eqb_trans_r; auto. }
    rewrite E3. destruct (script_eqb u o) eqn:E2.
    + apply (IH os us); auto.
    + rewrite (lt_eqb c u o u); auto using script_eqb_refl.
      rewrite (script_eqb_sym c o); auto.
  - destruct (script_eqb u o) eqn:E2.
    + assert (E3 : script_eqb u c = script_eqb o c) by (apply script_eqb_trans_l; auto).
      rewrite E3, E1. rewrite (lt_eqb c u c o); auto using script_eqb_refl.
    + destruct (script_eqb u c) eqn:E3.
      * exfalso. assert (L : lt o c = true).
        { rewrite (lt_eqb o c o u); auto using script_eqb_refl. rewrite (script_eqb_sym c u); auto. }
        specialize (Hc o c ltac:(auto) ltac:(auto) W1 L).
        rewrite lt_irrefl in Hc by apply script_eqb_refl. discriminate.
      * apply (Hc o u); auto.
Qed.

(** If the children are pairwise equal, so are the scripts. *)
Lemma str_mul_ext a b c a' b' c' : wf (Mul a b c) -> wf (Mul a' b' c') ->
  str a = str a' -> str b = str b' -> str c = str c' ->
  script_eqb (Mul a b c) (Mul a' b' c') = true.
Proof.
  intros H H' Ea Eb Ec. apply script_eqb_norm; auto.
  assert (X := wf_mul_inv _ _ _ H). assert (X' := wf_mul_inv _ _ _ H').
  assert (Na : norm a = norm a') by (apply str_inj_norm; tauto).
  assert (Nb : norm b = norm b') by (apply str_inj_norm; tauto).
  assert (Nc : norm c = norm c') by (apply str_inj_norm; tauto).
  cbn [norm]. rewrite <- (empty_norm a), <- (empty_norm b), <- (empty_norm c).
  rewrite <- (empty_norm a'), <- (empty_norm b'), <- (empty_norm c').
  rewrite <- (layer_norm a), <- (layer_norm a') by tauto.
  rewrite Na, Nb, Nc. reflexivity.
Qed.

Lemma str_add_ext cs os : wf (Add cs) -> wf (Add os) -> map str cs = map str os ->
  script_eqb (Add cs) (Add os) = true.
Proof.
  intros H H' E. apply script_eqb_norm; auto. rewrite !norm_add. f_equal.
  assert (F : Forall wf cs) by (apply wf_add_children; auto).
  assert (F' : Forall wf os) by (apply wf_add_children; auto).
  clear H H'. revert os E F'. induction F; intros [|o os] E F'; try discriminate; auto.
  inversion F'; subst. simpl in *. inversion E. f_equal; auto using str_inj_norm.
Qed.

Lemma walk_total cs os : Forall (fun c => forall o, nf o -> script_eqb c o = false ->
     lt c o = true \/ lt o c = true) cs -> Forall nf os ->
  map str cs <> map str os -> walk cs os = true \/ walk os cs = true.
Proof.
  intros H. revert os. induction H as [|c cs Hc H IH]; intros os Fo N; [left; auto|].
  destruct os as [|o os]; [right; auto|]. inversion Fo; subst. cbn [walk].
  rewrite (script_eqb_sym c o).
  destruct (script_eqb o c) eqn:E.
  - apply IH; auto. apply script_eqb_eq in E. simpl in N. intros X. apply N. congruence.
  - apply Hc; auto. rewrite script_eqb_sym; auto.
Qed.

Lemma walk_asym cs os : Forall (fun c => forall o, nf o -> lt c o = true -> lt o c = false) cs ->
  Forall nf os -> map str cs <> map str os -> walk cs os = true -> walk os cs = false.
Proof.
  intros H. revert os. induction H as [|c cs Hc H IH]; intros os Fo N W.
  - destruct os; [congruence|]. auto.
  - destruct os as [|o os]; [discriminate|]. inversion Fo; subst. cbn [walk] in *.
    rewrite (script_eqb_sym c o).
    destruct (script_eqb o c) eqn:E.
    + apply IH; auto. apply script_eqb_eq in E. simpl in N. intros X. apply N. congruence.
    + apply Hc; auto.
Qed.

(** With equal keys and different strings, the children's strings differ. *)
Lemma same_key_kids a b : nf a -> nf b -> script_eqb a b = false -> kcmp a b = Eq ->
  map str (kids a) <> map str (kids b).
Proof.
  intros Ha Hb E K X. apply kcmp_eq in K. unfold key in K. inversion K as [[K1 K2 K3 K4]].
  destruct (Nat.eq_dec (layer a) 0) as [L|L].
  { rewrite layer0_key in E; auto; congruence. }
  destruct a as [l|p|a1 a2 a3|cs].
  - destruct b as [l'|p|b1 b2 b3|os]; simpl in X; try discriminate.
    + simpl in K1. subst. rewrite script_eqb_refl in E. discriminate.
    + simpl in K1. simpl in L. lia.
  - simpl in L; lia.
  - destruct b as [l'|p|b1 b2 b3|os]; simpl in X; try discriminate.
    inversion X. rewrite str_mul_ext in E; auto using nf_wf. discriminate.
  - destruct b as [l'|p|b1 b2 b3|os]; simpl in X, K4; try discriminate.
    rewrite str_add_ext in E; auto using nf_wf. discriminate.
Qed.

Theorem lt_trans a : forall b c, nf a -> nf b -> nf c ->
  lt a b = true -> lt b c = true -> lt a c = true.
Proof.
  remember (size a) as n eqn:En. revert a En.
  induction n as [n IH] using lt_wf_ind. intros a -> b c Ha Hb Hc L1 L2.
  pose proof (lt_neq _ _ L1) as E1. pose proof (lt_neq _ _ L2) as E2.
  rewrite lt_unfold in L1, L2 by auto. rewrite E1 in L1. rewrite E2 in L2.
  assert (Main : kcmp a c = Lt \/ (kcmp a c = Eq /\ kcmp a b = Eq /\ kcmp b c = Eq)).
  { destruct (kcmp a b) eqn:K1; try discriminate; destruct (kcmp b c) eqn:K2; try discriminate; auto.
    - right. repeat split; auto. apply kcmp_eq in K1, K2. apply kcmp_eq. congruence.
    - left. apply kcmp_eq in K1. unfold kcmp in *. rewrite K1. auto.
    - left. apply kcmp_eq in K2. unfold kcmp in *. rewrite <- K2. auto.
    - left. eapply kcmp_trans; eauto. }
  assert (Fa := nf_kids a (nf_wf _ Ha)). assert (Fb := nf_kids b (nf_wf _ Hb)).
  assert (Fc := nf_kids c (nf_wf _ Hc)).
  destruct Main as [K|(K & K1 & K2)].
  - destruct (script_eqb a c) eqn:E3.
    + rewrite (eqb_kcmp a c) in K by auto. discriminate.
    + rewrite lt_unfold by auto. rewrite E3, K. auto.
  - rewrite K1 in L1. rewrite K2 in L2.
    assert (W : walk (kids a) (kids c) = true).
    { eapply walk_trans with (os := kids b); eauto.
      apply Forall_forall. intros x Hx o u Ho Hu. eapply IH; eauto.
      - apply size_kids; auto.
      - rewrite Forall_forall in Fa; auto. }
    destruct (script_eqb a c) eqn:E3.
    + exfalso.
      (* a and c equal: then b < a and a < b by the children *)
      assert (W' : walk (kids b) (kids a) = false).
      { apply walk_asym; auto.
        - apply Forall_forall. intros x Hx o Ho Lxo.
          destruct (lt o x) eqn:Lox; auto.
          assert (lt x x = true).
          { eapply IH with (b := o); eauto.
            - apply size_kids; auto.
            - rewrite Forall_forall in Fa; auto.
            - rewrite Forall_forall in Fa; auto. }
          rewrite lt_irrefl in H by apply script_eqb_refl. discriminate.
        - apply same_key_kids; auto. }
      assert (lt b a = false).
      { rewrite lt_unfold by auto. rewrite script_eqb_sym, E1.
        rewrite kcmp_opp, K1. simpl. auto. }
      assert (lt b c = true).
      { rewrite lt_unfold by auto. rewrite E2, K2. auto. }
      rewrite (lt_eqb b a b c) in H; auto using script_eqb_refl. congruence.
    + rewrite lt_unfold by auto. rewrite E3, K. auto.
Qed.

Theorem lt_asym a b : nf a -> nf b -> lt a b = true -> lt b a = false.
Proof.
  intros Ha Hb L. destruct (lt b a) eqn:L'; auto.
  assert (lt a a = true) by (eapply lt_trans with (b := b); eauto).
  rewrite lt_irrefl in H by apply script_eqb_refl. discriminate.
Qed.

Theorem lt_total a : forall b, nf a -> nf b -> script_eqb a b = false -> lt a b = true \/ lt b a = true.
Proof.
  remember (size a) as n eqn:En. revert a En.
  induction n as [n IH] using lt_wf_ind. intros a -> b Ha Hb E.
  rewrite (lt_unfold a b), (lt_unfold b a) by auto. rewrite (script_eqb_sym b a), E.
  rewrite (kcmp_opp a b). destruct (kcmp a b) eqn:K; simpl; auto.
  assert (Fa := nf_kids a (nf_wf _ Ha)). assert (Fb := nf_kids b (nf_wf _ Hb)).
  apply walk_total; auto.
  - apply Forall_forall. intros x Hx o Ho Eo. eapply IH; eauto.
    + apply size_kids; auto.
    + rewrite Forall_forall in Fa; auto.
  - apply same_key_kids; auto.
Qed.
