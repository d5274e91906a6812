(** Singular sequences and the meaning of scripts. *)
From Coq Require Import List String Bool NArith Arith Lia Sorted Permutation.
From Verif Require Import Base Script ScriptParser SortProofs ScriptWf ScriptStrProofs ScriptOrderProofs ScriptSpec ScriptCtorProofs ScriptParseProofs.
Import ListNotations.

Lemma means_add cs w : means (Add cs) w <-> exists c, In c cs /\ means c w.
Proof.
  simpl. induction cs as [|c cs IH]; simpl.
  - split; [tauto|intros (? & [] & _)].
  - rewrite IH. split.
    + intros [H|(x & Hx & H)]; eauto.
    + intros (x & [<-|Hx] & H); eauto.
Qed.

Lemma means_length s : forall w, wf s -> means s w -> List.length w = 3 ^ layer s.
Proof.
  induction s as [l|p|a b c IHa IHb IHc|cs IH] using script_ind'; intros w W H.
  - simpl in H. subst. simpl. apply repeat_length.
  - simpl in H. subst. reflexivity.
  - destruct H as (u & v & t & Hu & Hv & Ht & ->). apply wf_mul_inv in W.
    destruct W as (Wa & Wb & Wc & _ & _ & _ & Lb & Lc & _).
    rewrite !app_length, (IHa u), (IHb v), (IHc t), Lb, Lc by auto. simpl. lia.
  - apply means_add in H. destruct H as (c & Hc & H). rewrite Forall_forall in IH.
    destruct (wf_add_in _ _ W Hc) as (Wc & _ & <-). auto.
Qed.

Lemma means_inhabited s : wf s -> exists w, means s w.
Proof.
  induction s as [l|p|a b c IHa IHb IHc|cs IH] using script_ind'; intros W.
  - eexists; reflexivity.
  - eexists; reflexivity.
  - apply wf_mul_inv in W. destruct W as (Wa & Wb & Wc & _).
    destruct (IHa Wa) as [u Hu], (IHb Wb) as [v Hv], (IHc Wc) as [t Ht].
    exists (u ++ v ++ t)%list, u, v, t. auto.
  - destruct cs as [|c cs]; [simpl in W; tauto|].
    inversion IH; subst. destruct (wf_add_in _ c W) as (Wc & _); [left; auto|].
    destruct (H1 Wc) as [w Hw]. exists w. left; auto.
Qed.

Lemma repeat3 {A} (x : A) n : (repeat x n ++ repeat x n ++ repeat x n)%list = repeat x (n + (n + (n + 0))).
Proof. rewrite <- !repeat_app. f_equal. lia. Qed.

Lemma means_empty s : wf s -> is_empty s = true -> forall w, means s w <-> w = repeat None (3 ^ layer s).
Proof.
  induction s as [l|p|a b c IHa IHb IHc|cs IH] using script_ind'; intros W E w.
  - reflexivity.
  - discriminate.
  - apply wf_mul_inv in W. destruct W as (Wa & Wb & Wc & _ & _ & _ & Lb & Lc & _).
    simpl in E. rewrite !andb_true_iff in E. destruct E as [[Ea Eb] Ec].
    specialize (IHa Wa Ea). specialize (IHb Wb Eb). specialize (IHc Wc Ec).
    rewrite Lb in IHb. rewrite Lc in IHc. simpl means.
    cbn [layer]. change (3 ^ S (layer a)) with (3 ^ layer a + (3 ^ layer a + (3 ^ layer a + 0))).
    rewrite <- repeat3. split.
    + intros (u & v & t & Hu & Hv & Ht & ->). apply IHa in Hu. apply IHb in Hv. apply IHc in Ht.
      congruence.
    + intros ->. do 3 eexists. rewrite IHa, IHb, IHc. eauto.
  - rewrite means_add. rewrite Forall_forall in IH. simpl in E. rewrite forallb_forall in E.
    split.
    + intros (c & Hc & H). destruct (wf_add_in _ _ W Hc) as (Wc & _ & Lc). rewrite <- Lc.
      apply (IH c); auto.
    + intros ->. destruct cs as [|c cs]; [simpl in W; tauto|]. exists c. split; [left; auto|].
      destruct (wf_add_in _ c W (or_introl eq_refl)) as (Wc & _ & Lc). rewrite <- Lc.
      apply (IH c); simpl; auto. apply E; left; auto.
Qed.

Lemma means_nullify s : wf s -> forall w, means (nullify s) w <-> means s w.
Proof.
  intros W w. unfold nullify. destruct (is_empty s) eqn:E; [|tauto].
  rewrite (means_empty s); auto. simpl. tauto.
Qed.

Lemma means_unwrap s w : means (unwrap s) w <-> means s w.
Proof. destruct s as [| | |[|x [|y cs]]]; simpl; tauto. Qed.

Lemma means_norm s : forall w, wf s -> (means (norm s) w <-> means s w).
Proof.
  induction s as [l|p|a b c IHa IHb IHc|cs IH] using script_ind'; intros w W; try tauto.
  - pose proof W as W0. apply wf_mul_inv in W. destruct W as (Wa & Wb & Wc & _).
    cbn [norm]. destruct (is_empty a && is_empty b && is_empty c) eqn:E.
    + rewrite (means_empty (Mul a b c)) by auto. simpl. tauto.
    + simpl. split; intros (u & v & t & Hu & Hv & Ht & ->); exists u, v, t;
        rewrite ?IHa, ?IHb, ?IHc in *; auto.
  - rewrite norm_add.
    assert (X : means (lone (map norm cs)) w <-> means (Add (map norm cs)) w).
    { destruct cs as [|x [|y cs]]; simpl; tauto. }
    rewrite X, !means_add. rewrite Forall_forall in IH. split.
    + intros (c & Hc & H). apply in_map_iff in Hc. destruct Hc as (d & <- & Hd).
      exists d. split; auto. apply (IH d Hd w); auto. apply (wf_add_in _ _ W Hd).
    + intros (c & Hc & H). exists (norm c). split; [apply in_map; auto|].
      apply IH; auto. apply (wf_add_in _ _ W Hc).
Qed.

(** Paradigm and cardinal. *)
Lemma cardinal_paradigm s : wf s -> (cardinal s = 1%N <-> paradigm s = false).
Proof.
  induction s as [l|p|a b c IHa IHb IHc|cs IH] using script_ind'; intros W; try (simpl; tauto).
  - apply wf_mul_inv in W. destruct W as (Wa & Wb & Wc & _).
    pose proof (cardinal_pos _ Wa). pose proof (cardinal_pos _ Wb). pose proof (cardinal_pos _ Wc).
    simpl. rewrite !orb_false_iff, <- IHa, <- IHb, <- IHc by auto. split; [nia|].
    intros [[-> ->] ->]. reflexivity.
  - pose proof (wf_add_children _ W) as F.
    destruct cs as [|x [|y cs]].
    + simpl in W; tauto.
    + inversion IH; inversion F; subst. simpl. rewrite N.add_0_r, orb_false_r. auto.
    + split; [|discriminate]. intros E. exfalso.
      assert (2 <= cardinal (Add (x :: y :: cs)))%N; [|lia].
      apply nf_add_card. split; auto. intros z; discriminate.
Qed.

Lemma nf_singular_notadd s : nf s -> cardinal s = 1%N -> is_add s = false.
Proof. intros N C. destruct s; auto. apply nf_add_card in N. lia. Qed.

Lemma singular_word s : wf s -> cardinal s = 1%N -> singular s.
Proof.
  induction s as [l|p|a b c IHa IHb IHc|cs IH] using script_ind'; intros W C.
  - exists (repeat None (3 ^ l)). intros w'; simpl; tauto.
  - exists [Some p]. intros w'; simpl; tauto.
  - apply wf_mul_inv in W. destruct W as (Wa & Wb & Wc & _).
    pose proof (cardinal_pos _ Wa). pose proof (cardinal_pos _ Wb). pose proof (cardinal_pos _ Wc).
    simpl in C. assert (cardinal a = 1 /\ cardinal b = 1 /\ cardinal c = 1)%N as (Ca & Cb & Cc) by nia.
    destruct (IHa Wa Ca) as [u Hu], (IHb Wb Cb) as [v Hv], (IHc Wc Cc) as [t Ht].
    exists (u ++ v ++ t)%list. intros w'. simpl. split.
    + intros (u' & v' & t' & X & Y & Z & ->). apply Hu in X. apply Hv in Y. apply Ht in Z. congruence.
    + intros ->. exists u, v, t. rewrite Hu, Hv, Ht. auto.
  - destruct cs as [|x [|y cs]].
    + simpl in W; tauto.
    + inversion IH; subst. destruct (wf_add_in _ x W (or_introl eq_refl)) as (Wx & _).
      simpl in C. rewrite N.add_0_r in C. destruct (H1 Wx C) as [w Hw].
      exists w. intros w'. simpl. rewrite <- Hw. tauto.
    + exfalso. assert (2 <= cardinal (Add (x :: y :: cs)))%N; [|lia].
      apply nf_add_card. split; auto. intros z; discriminate.
Qed.

Lemma all_none_empty s : nf s -> cardinal s = 1%N -> means s (repeat None (3 ^ layer s)) -> is_empty s = true.
Proof.
  induction s as [l|p|a b c IHa IHb IHc|cs IH] using script_ind'; intros N C M.
  - reflexivity.
  - discriminate.
  - destruct N as [W _]. pose proof (nf_kids _ W) as NK. simpl in NK.
    inversion NK as [|? ? Na NK']; subst. inversion NK' as [|? ? Nb NK2]; subst.
    inversion NK2 as [|? ? Nc _]; subst.
    pose proof W as W0. apply wf_mul_inv in W0. destruct W0 as (Wa & Wb & Wc & _ & _ & _ & Lb & Lc & _).
    pose proof (cardinal_pos _ Wa). pose proof (cardinal_pos _ Wb). pose proof (cardinal_pos _ Wc).
    simpl in C. assert (cardinal a = 1 /\ cardinal b = 1 /\ cardinal c = 1)%N as (Ca & Cb & Cc) by nia.
    destruct M as (u & v & t & Hu & Hv & Ht & E). symmetry in E.
    apply repeat_app_inv in E. destruct E as [E1 E].
    apply repeat_app_inv in E. destruct E as [E2 E3].
    rewrite (means_length a) in E1 by auto. rewrite (means_length b) in E2 by auto.
    rewrite (means_length c) in E3 by auto. subst u v t.
    simpl. rewrite IHa, IHb, IHc; auto.
  - apply nf_add_card in N. lia.
Qed.

(** Singular scripts with the same word are equal. *)
Lemma app_length_inj {A} (u v u' v' : list A) : List.length u = List.length u' ->
  (u ++ v = u' ++ v')%list -> u = u' /\ v = v'.
Proof.
  revert u'; induction u as [|x u IH]; intros [|x' u'] L E; simpl in *; try discriminate; auto.
  injection E as -> E. destruct (IH u') as [-> ->]; auto.
Qed.

Lemma singular_inj x : forall y w, nf x -> nf y -> cardinal x = 1%N -> cardinal y = 1%N ->
  layer x = layer y -> means x w -> means y w -> norm x = norm y.
Proof.
  induction x as [l|p|a b c IHa IHb IHc|cs IH] using script_ind'; intros y w Nx Ny Cx Cy L Mx My.
  - simpl in Mx. subst w. simpl in L. rewrite L in My.
    apply all_none_empty in My; auto. rewrite (empty_norm_null y); auto using nf_wf, nf_singular_notadd.
    simpl. congruence.
  - simpl in Mx, L. subst w.
    destruct y as [l|q|a b c|cs]; simpl in L; try discriminate.
    + subst l. discriminate.
    + simpl in My. congruence.
    + apply nf_singular_notadd in Ny; auto; discriminate.
  - destruct (is_empty y) eqn:Ey.
    { rewrite means_empty in My; auto using nf_wf. subst w. rewrite <- L in Mx.
      apply all_none_empty in Mx; auto.
      rewrite (empty_norm_null y), (empty_norm_null (Mul a b c)), L by auto using nf_wf, nf_singular_notadd. reflexivity. }
    destruct (is_empty (Mul a b c)) eqn:Ex.
    { rewrite (means_empty (Mul a b c)) in Mx; auto using nf_wf. subst w. rewrite L in My.
      apply all_none_empty in My; auto. congruence. }
    destruct y as [l|q|a' b' c'|cs]; try discriminate;
      [|apply nf_singular_notadd in Ny; auto; discriminate].
    destruct Nx as [W _], Ny as [W' _].
    pose proof (nf_kids _ W) as NK. simpl in NK.
    inversion NK as [|? ? Na NK']; subst. inversion NK' as [|? ? Nb NK2]; subst.
    inversion NK2 as [|? ? Nc _]; subst.
    pose proof (nf_kids _ W') as MK. simpl in MK.
    inversion MK as [|? ? Na' MK']; subst. inversion MK' as [|? ? Nb' MK2]; subst.
    inversion MK2 as [|? ? Nc' _]; subst.
    apply wf_mul_inv in W. destruct W as (Wa & Wb & Wc & _ & _ & _ & Lb & Lc & _).
    apply wf_mul_inv in W'. destruct W' as (Wa' & Wb' & Wc' & _ & _ & _ & Lb' & Lc' & _).
    pose proof (cardinal_pos _ Wa). pose proof (cardinal_pos _ Wb). pose proof (cardinal_pos _ Wc).
    simpl in Cx. assert (cardinal a = 1 /\ cardinal b = 1 /\ cardinal c = 1)%N as (Ca & Cb & Cc) by nia.
    pose proof (cardinal_pos _ Wa'). pose proof (cardinal_pos _ Wb'). pose proof (cardinal_pos _ Wc').
    simpl in Cy. assert (cardinal a' = 1 /\ cardinal b' = 1 /\ cardinal c' = 1)%N as (Ca' & Cb' & Cc') by nia.
    simpl in L. injection L as L.
    destruct Mx as (u & v & t & Hu & Hv & Ht & ->). destruct My as (u' & v' & t' & Hu' & Hv' & Ht' & E).
    apply app_length_inj in E; [|rewrite (means_length a), (means_length a'); auto].
    destruct E as [-> E].
    apply app_length_inj in E; [|rewrite (means_length b), (means_length b'); auto; congruence].
    destruct E as [-> ->].
    cbn [norm]. cbn [is_empty] in Ex, Ey. rewrite Ex, Ey. f_equal.
    + apply (IHa a' u'); auto.
    + apply (IHb b' v'); auto. congruence.
    + apply (IHc c' t'); auto. congruence.
  - apply nf_add_card in Nx. lia.
Qed.

(** Elements of [singular_sequences]. *)
Definition sing (n : nat) (x : script) : Prop := nf x /\ cardinal x = 1%N /\ layer x = n.

Definition ss_ok (s : script) (l : list script) : Prop :=
  ss s = Ok l /\ Forall (sing (layer s)) l /\ N.of_nat (List.length l) = cardinal s /\
  (forall w, means s w <-> exists x, In x l /\ means x w) /\ weak_sorted lt l.

Lemma ss_self s : nf s -> paradigm s = false -> ss s = Ok [s] -> ss_ok s [s].
Proof.
  intros N P E. assert (C : cardinal s = 1%N) by (apply cardinal_paradigm; auto using nf_wf).
  unfold ss_ok. rewrite C. repeat split; auto.
  - repeat constructor; auto; apply N.
  - intros H; exists s; simpl; auto.
  - intros (x & [<-|[]] & H); auto.
  - repeat constructor.
Qed.

Lemma in_product3 {A} (la lb lc : list A) x y z :
  In (x, y, z) (product3 la lb lc) <-> In x la /\ In y lb /\ In z lc.
Proof.
  unfold product3. rewrite in_flat_map. split.
  - intros (x' & Hx & H). apply in_flat_map in H. destruct H as (y' & Hy & H).
    apply in_map_iff in H. destruct H as (z' & E & Hz). injection E as -> -> ->. auto.
  - intros (Hx & Hy & Hz). exists x. split; auto. apply in_flat_map. exists y. split; auto.
    apply in_map_iff. exists z. auto.
Qed.

Lemma flat_map_length_const {A B} (f : A -> list B) l n :
  (forall x, In x l -> List.length (f x) = n) -> List.length (flat_map f l) = List.length l * n.
Proof.
  intros H. induction l as [|x l IH]; auto. simpl. rewrite app_length, (H x), IH; simpl; auto.
  intros; apply H; simpl; auto.
Qed.

Lemma length_product3 {A} (la lb lc : list A) :
  List.length (product3 la lb lc) = List.length la * (List.length lb * List.length lc).
Proof.
  unfold product3. apply flat_map_length_const. intros x _.
  apply flat_map_length_const. intros y _. apply map_length.
Qed.

Definition mul3 (t : script * script * script) : script :=
  let '(x, y, z) := t in Mul (nullify x) (nullify y) (nullify z).

Lemma sing_unwrap n x : sing n x -> unwrap x = x.
Proof. intros (N & C & _). apply nf_singular_notadd in N; auto. destruct x; auto; discriminate. Qed.

Lemma nullify_ok n x : sing n x -> wf (nullify x) /\ child_ok (nullify x) /\
  cardinal (nullify x) = 1%N /\ layer (nullify x) = n /\ paradigm (nullify x) = false.
Proof.
  intros S. pose proof S as (N & C & L).
  destruct (child_ok_nullify x (nf_wf _ N)) as [W K]. rewrite (sing_unwrap n x S) in W, K.
  assert (C' : cardinal (nullify x) = 1%N) by (unfold nullify; destruct (is_empty x); auto).
  repeat split; auto; try apply K.
  - rewrite layer_nullify; auto.
  - apply cardinal_paradigm; auto.
Qed.

Lemma mul3_ok n x y z : n < MAX_LAYER -> sing n x -> sing n y -> sing n z ->
  mk_mul_l [x; y; z] = Ok (mul3 (x, y, z)) /\ sing (S n) (mul3 (x, y, z)).
Proof.
  intros L Sx Sy Sz. unfold mk_mul_l. cbn [map hd nth].
  rewrite (sing_unwrap n x), (sing_unwrap n y), (sing_unwrap n z) by auto.
  destruct (nullify_ok n x Sx) as (Wx & Kx & Cx & Lx & _).
  destruct (nullify_ok n y Sy) as (Wy & Ky & Cy & Ly & _).
  destruct (nullify_ok n z Sz) as (Wz & Kz & Cz & Lz & _).
  unfold mul3. set (a := nullify x) in *. set (b := nullify y) in *. set (c := nullify z) in *.
  assert (C : cardinal (Mul a b c) = 1%N) by (simpl; rewrite Cx, Cy, Cz; reflexivity).
  rewrite Lx, Ly, Lz, Nat.eqb_refl, C. cbn [andb negb layer]. rewrite Lx.
  assert (X : Nat.ltb MAX_LAYER (S n) = false) by (apply Nat.ltb_ge; lia). rewrite X.
  split; [reflexivity|]. split; [|split; auto; simpl; congruence].
  apply nf_mul. cbn [wf]. rewrite C.
  repeat split; auto; try apply Kx; try apply Ky; try apply Kz; try congruence; try lia.
  unfold MAX_SINGULAR_SEQUENCES; lia.
Qed.

Lemma means_mul3 n x y z w : sing n x -> sing n y -> sing n z ->
  (means (mul3 (x, y, z)) w <->
   exists u v t, means x u /\ means y v /\ means z t /\ w = (u ++ v ++ t)%list).
Proof.
  intros (Nx & _) (Ny & _) (Nz & _). simpl.
  split; intros (u & v & t & Hu & Hv & Ht & ->); exists u, v, t;
    rewrite ?means_nullify in * by auto using nf_wf; auto.
Qed.

Lemma weak_isort l : Forall nf l -> weak_sorted lt (isort l).
Proof. apply isort_weak. Qed.

Lemma sing_nf n l : Forall (sing n) l -> Forall nf l.
Proof. apply Forall_impl. intros x H; apply H. Qed.

Fixpoint ss_all (cs : list script) : res (list script) :=
  match cs with
  | [] => Ok []
  | c :: r => do x <- ss c; do y <- ss_all r; Ok (x ++ y)%list
  end.

Lemma ss_add cs : ss (Add cs) =
  if paradigm (Add cs) then do l <- ss_all cs; Ok (isort l) else Ok [Add cs].
Proof. reflexivity. Qed.

Lemma child_ss a : child_ok a -> (if is_empty a then Ok [a] else ss a) = ss a.
Proof. intros [K _]. destruct (is_empty a); auto. rewrite K; auto. Qed.

Lemma ss_mul a b c : wf (Mul a b c) -> ss (Mul a b c) =
  if paradigm (Mul a b c) then
    do la <- ss a; do lb <- ss b; do lc <- ss c;
    do l <- mapM (fun t => let '(x, y, z) := t in mk_mul_l [x; y; z]) (product3 la lb lc);
    Ok (isort l)
  else Ok [Mul a b c].
Proof.
  intros W. apply wf_mul_inv in W. destruct W as (_ & _ & _ & Ka & Kb & Kc & _).
  cbn [ss]. rewrite !child_ss by auto. reflexivity.
Qed.

Lemma ss_spec s : nf s -> exists l, ss_ok s l.
Proof.
  induction s as [l|p|a b c IHa IHb IHc|cs IH] using script_ind'; intros N.
  - exists [Null l]. apply ss_self; auto.
  - exists [Prim p]. apply ss_self; auto.
  - destruct (paradigm (Mul a b c)) eqn:P.
    2:{ exists [Mul a b c]. apply ss_self; auto. rewrite ss_mul, P by apply N. auto. }
    destruct N as [W N]. pose proof (nf_kids _ W) as NK. simpl in NK.
    inversion NK as [|? ? Na NK']; subst. inversion NK' as [|? ? Nb NK2]; subst.
    inversion NK2 as [|? ? Nc _]; subst.
    destruct (IHa Na) as (la & Ea & Fa & Ca & Ma & _).
    destruct (IHb Nb) as (lb & Eb & Fb & Cb & Mb & _).
    destruct (IHc Nc) as (lc & Ec & Fc & Cc & Mc & _).
    pose proof W as W0. apply wf_mul_inv in W0.
    destruct W0 as (Wa & Wb & Wc & _ & _ & _ & Lb & Lc & L6 & _).
    rewrite Lb in Fb. rewrite Lc in Fc. rewrite Forall_forall in Fa, Fb, Fc.
    set (pr := product3 la lb lc).
    assert (MM : mapM (fun t => let '(x, y, z) := t in mk_mul_l [x; y; z]) pr = Ok (map mul3 pr)).
    { apply mapM_ok. assert (H : forall t, In t pr -> (let '(x, y, z) := t in mk_mul_l [x; y; z]) = Ok (mul3 t)).
      { intros [[x y] z] Ht. apply in_product3 in Ht. destruct Ht as (Hx & Hy & Hz).
        apply (mul3_ok (layer a)); auto. }
      revert H. generalize pr. intros l0 H. induction l0 as [|t l0 IH]; simpl; constructor.
      - apply H; left; auto.
      - apply IH. intros; apply H; right; auto. }
    assert (FS : Forall (sing (S (layer a))) (map mul3 pr)).
    { apply Forall_map, Forall_forall. intros [[x y] z] Ht. apply in_product3 in Ht.
      destruct Ht as (Hx & Hy & Hz). apply (mul3_ok (layer a)); auto. }
    exists (isort (map mul3 pr)). unfold ss_ok.
    rewrite ss_mul, P, Ea, Eb, Ec by auto. cbn [bind]. fold pr. rewrite MM. cbn [bind].
    split; [reflexivity|].
    pose proof (isort_perm (map mul3 pr)) as PP.
    split; [|split; [|split]].
    + apply (Permutation_Forall (Permutation_sym PP)). auto.
    + rewrite (Permutation_length PP), map_length. unfold pr. rewrite length_product3.
      simpl. rewrite <- Ca, <- Cb, <- Cc. lia.
    + intros w. split.
      * intros (u & v & t & Hu & Hv & Ht & ->).
        apply Ma in Hu. destruct Hu as (x & Hx & Hu).
        apply Mb in Hv. destruct Hv as (y & Hy & Hv).
        apply Mc in Ht. destruct Ht as (z & Hz & Ht).
        exists (mul3 (x, y, z)). split.
        -- apply (Permutation_in _ (Permutation_sym PP)). apply in_map. apply in_product3. auto.
        -- apply (means_mul3 (layer a)); auto. exists u, v, t; auto.
      * intros (r & Hr & Hw). apply (Permutation_in _ PP) in Hr. apply in_map_iff in Hr.
        destruct Hr as ([[x y] z] & <- & Ht). apply in_product3 in Ht. destruct Ht as (Hx & Hy & Hz).
        apply (proj1 (means_mul3 (layer a) x y z _ (Fa _ Hx) (Fb _ Hy) (Fc _ Hz))) in Hw. destruct Hw as (u & v & t & Hu & Hv & Ht & ->).
        exists u, v, t. repeat split; auto.
        -- apply (proj2 (Ma u)). exists x. auto.
        -- apply (proj2 (Mb v)). exists y. auto.
        -- apply (proj2 (Mc t)). exists z. auto.
    + apply weak_isort. eapply sing_nf; eauto.
  - destruct (paradigm (Add cs)) eqn:P.
    2:{ exfalso. destruct N as [W N]. destruct cs as [|x [|y cs]]; [simpl in W; tauto| |discriminate].
        apply (N x); auto. }
    destruct N as [W N].
    assert (G : exists l, ss_all cs = Ok l /\ Forall (sing (layer (Add cs))) l /\
       N.of_nat (List.length l) = sumN (map cardinal cs) /\
       (forall w, (exists c, In c cs /\ means c w) <-> exists x, In x l /\ means x w)).
    { assert (K : forall c, In c cs -> nf c /\ layer c = layer (Add cs)).
      { intros c Hc. destruct (wf_add_in _ _ W Hc) as (? & ? & ?). split; auto using nf_notadd. }
      clear W N P. revert K. generalize (layer (Add cs)). intros n K.
      induction cs as [|c cs IHcs].
      - exists []. repeat split; auto; intros (? & [] & _).
      - inversion IH; subst. destruct (K c (or_introl eq_refl)) as [Nc Lc].
        destruct (H1 Nc) as (lc & Ec & Fc & Cc & Mc & _).
        destruct IHcs as (l & El & Fl & Cl & Ml); auto. { intros; apply K; right; auto. }
        exists (lc ++ l)%list. simpl. rewrite Ec. cbn [bind]. rewrite El. cbn [bind].
        split; [reflexivity|]. split; [|split].
        + apply Forall_app. split; auto. rewrite <- Lc; auto.
        + rewrite app_length, Nat2N.inj_add, Cc, Cl. reflexivity.
        + intros w. split.
          * intros (d & [<-|Hd] & Hw).
            -- apply Mc in Hw. destruct Hw as (x & Hx & Hw). exists x. split; auto. apply in_or_app; auto.
            -- destruct (proj1 (Ml w) (ex_intro _ d (conj Hd Hw))) as (x & Hx & Hw').
               exists x. split; auto. apply in_or_app; auto.
          * intros (x & Hx & Hw). apply in_app_or in Hx. destruct Hx as [Hx|Hx].
            -- exists c. split; auto. apply Mc. eauto.
            -- destruct (proj2 (Ml w) (ex_intro _ x (conj Hx Hw))) as (d & Hd & Hw').
               exists d. auto. }
    destruct G as (l & El & Fl & Cl & Ml).
    exists (isort l). unfold ss_ok. rewrite ss_add, P, El. cbn [bind].
    pose proof (isort_perm l) as PP.
    split; [reflexivity|]. split; [|split; [|split]].
    + apply (Permutation_Forall (Permutation_sym PP)). auto.
    + rewrite (Permutation_length PP). exact Cl.
    + intros w. rewrite means_add, Ml. split; intros (x & Hx & Hw); exists x; split; auto.
      * apply (Permutation_in _ (Permutation_sym PP)); auto.
      * apply (Permutation_in _ PP); auto.
    + apply weak_isort. eapply sing_nf; eauto.
Qed.

(** For any script, one-term sums included. *)
Definition sing1 (n : nat) (x : script) : Prop :=
  wf x /\ cardinal x = 1%N /\ layer x = n.

Lemma ss_spec_wf s : wf s -> exists l, ss s = Ok l /\ Forall (sing1 (layer s)) l /\
  N.of_nat (List.length l) = cardinal s /\
  (forall w, means s w <-> exists x, In x l /\ means x w) /\ weak_sorted lt l.
Proof.
  intros W.
  assert (D : nf s \/ exists x, s = Add [x]).
  { destruct s as [| | |[|x [|y cs]]]; try (left; split; auto; discriminate). right; eauto. }
  destruct D as [N|[x ->]].
  - destruct (ss_spec s N) as (l & E & F & C & M & S). exists l. repeat split; auto; try apply M.
    eapply Forall_impl; [|exact F]. intros y (Ny & Cy & Ly). repeat split; auto. apply Ny.
  - destruct (wf_add_in _ x W (or_introl eq_refl)) as (Wx & Ax & _).
    assert (Nx : nf x) by (apply nf_notadd; auto).
    destruct (ss_spec x Nx) as (l & E & F & C & M & S).
    rewrite ss_add. destruct (paradigm (Add [x])) eqn:P.
    + exists (isort l). simpl ss_all. rewrite E. cbn [bind]. rewrite app_nil_r.
      pose proof (isort_perm l) as PP.
      split; [reflexivity|]. split; [|split; [|split]].
      * apply (Permutation_Forall (Permutation_sym PP)). simpl layer.
        eapply Forall_impl; [|exact F]. intros y (Ny & Cy & Ly). repeat split; auto. apply Ny.
      * rewrite (Permutation_length PP), C. simpl. lia.
      * intros w. simpl means. transitivity (means x w); [tauto|]. rewrite M.
        split; intros (y & Hy & Hw); exists y; split; auto.
        -- apply (Permutation_in _ (Permutation_sym PP)); auto.
        -- apply (Permutation_in _ PP); auto.
      * apply weak_isort. eapply sing_nf; eauto.
    + exists [Add [x]]. assert (C1 : cardinal (Add [x]) = 1%N) by (apply cardinal_paradigm; auto).
      split; [reflexivity|]. split; [|split; [|split]].
      * constructor; [|constructor]. split; auto.
      * rewrite C1. reflexivity.
      * intros w. split; [intros H; exists (Add [x]); simpl; auto|].
        intros (y & [<-|[]] & H); auto.
      * repeat constructor.
Qed.

(** Two singular scripts are equal iff they have the same word. *)
Lemma sing1_norm n x : sing1 n x -> sing n (norm x).
Proof.
  intros (W & C & L). split; [|split].
  - split; [apply wf_norm; auto|]. intros y E.
    assert (Wn : wf (norm x)) by (apply wf_norm; auto).
    destruct x as [| | |cs]; try (simpl in E; discriminate).
    + cbn [norm] in E. destruct (_ && _); discriminate.
    + rewrite norm_add in E. rewrite norm_add in Wn. destruct cs as [|z [|z' cs]]; simpl in *; try discriminate.
      * destruct (wf_add_in _ z W (or_introl eq_refl)) as (Wz & Az & _).
        apply (norm_notadd z) in Az; auto. rewrite E in Az. discriminate.
  - rewrite cardinal_norm; auto.
  - rewrite layer_norm; auto.
Qed.

Lemma norm_norm x : wf x -> norm (norm x) = norm x.
Proof.
  intros W. apply str_inj_norm; auto using wf_norm. apply str_norm; auto.
Qed.

Lemma sing1_eq n x y : sing1 n x -> sing1 n y ->
  (script_eqb x y = true <-> exists w, means x w /\ means y w).
Proof.
  intros Sx Sy. pose proof (sing1_norm _ _ Sx) as Nx. pose proof (sing1_norm _ _ Sy) as Ny.
  destruct Sx as (Wx & Cx & Lx), Sy as (Wy & Cy & Ly).
  rewrite script_eqb_norm by auto. split.
  - intros E. destruct (means_inhabited x Wx) as [w Hw]. exists w. split; auto.
    apply means_norm; auto. rewrite <- E. apply means_norm; auto.
  - intros (w & Hx & Hy). destruct Nx as (Nx & Cx' & Lx'), Ny as (Ny & Cy' & Ly').
    rewrite <- (norm_norm x), <- (norm_norm y) by auto.
    apply (singular_inj (norm x) (norm y) w); auto; try congruence; apply means_norm; auto.
Qed.

(** Membership. *)
Lemma script_in_spec a b : wf a -> wf b ->
  exists r, script_in a b = Ok r /\
  (r = true <-> layer a = layer b /\ forall w, means a w -> means b w).
Proof.
  intros Wa Wb. destruct (ss_spec_wf a Wa) as (la & Ea & Fa & _ & Ma & _).
  destruct (ss_spec_wf b Wb) as (lb & Eb & Fb & _ & Mb & _).
  unfold script_in. destruct (Nat.eqb_spec (layer a) (layer b)) as [L|L]; cbn [negb].
  2:{ exists false. split; auto. split; [discriminate|tauto]. }
  rewrite Ea, Eb. cbn [bind]. eexists. split; [reflexivity|].
  rewrite forallb_forall. rewrite Forall_forall in Fa, Fb. rewrite <- L in Fb.
  split.
  - intros H. split; auto. intros w Hw. apply Ma in Hw. destruct Hw as (x & Hx & Hw).
    specialize (H x Hx). apply memb_true in H. destruct H as (y & Hy & E).
    apply Mb. exists y. split; auto.
    apply (sing1_eq (layer a)) in E; auto. destruct E as (w' & H1 & H2).
    destruct (Fa x Hx) as (Wx & Cx & _). destruct (singular_word x Wx Cx) as [w0 H0].
    apply H0 in H1. apply H0 in Hw. congruence.
  - intros [_ H] x Hx. apply memb_true.
    destruct (Fa x Hx) as (Wx & Cx & Lx). destruct (means_inhabited x Wx) as [w Hw].
    assert (Hb : means b w) by (apply H, Ma; eauto).
    apply Mb in Hb. destruct Hb as (y & Hy & Hw'). exists y. split; auto.
    apply (sing1_eq (layer a)); auto. eauto.
Qed.
