(** Which scripts a table accepts. *)
From Coq Require Import List String Ascii Bool NArith Arith Lia Permutation Sorted.
From Verif Require Import Base Script ScriptParser SortProofs ScriptWf ScriptStrProofs ScriptOrderProofs ScriptSpec ScriptCtorProofs ScriptSeqProofs ScriptMoreProofs ScriptAlgProofs ScriptEqProofs Tables TablesSpec TablesProofs TablesGridProofs TablesAllProofs Dictionary DictionarySpec DictTableProofs DictTopProofs.
Import ListNotations.

(** * Lists of numbers *)
Lemma nset_nodup l : NoDup (nset l).
Proof.
  unfold nset. eapply Permutation_NoDup; [apply Permutation_sym, sort_perm|]. pose proof (dedup_distinct Nat.eqb Nat.eqb_sym l) as D. revert D. generalize (dedup Nat.eqb l). clear. induction l as [|x l IH]; intros D; [constructor|].
  inversion D as [|? ? F D']; subst. constructor; [|auto]. intros H. rewrite Forall_forall in F. specialize (F x H). rewrite Nat.eqb_refl in F. discriminate.
Qed.
Lemma full_length n l : NoDup l -> (forall i, In i l -> i < n) -> (List.length l = n <-> forall i, i < n -> In i l).
Proof.
  intros N B. assert (I : incl l (seq 0 n)) by (intros i Hi; apply in_seq; specialize (B i Hi); lia). split.
  - intros L i Hi. assert (X : incl (seq 0 n) l) by (apply NoDup_length_incl; [exact N|rewrite seq_length; lia|exact I]). apply X, in_seq. lia.
  - intros F. assert (X : incl (seq 0 n) l) by (intros i Hi; apply F; apply in_seq in Hi; lia). pose proof (NoDup_incl_length (seq_NoDup n 0) X) as L1. pose proof (NoDup_incl_length N I) as L2. rewrite seq_length in *. lia.
Qed.
Lemma one_length (l : list nat) : NoDup l -> l <> [] -> (List.length l = 1 <-> forall x y, In x l -> In y l -> x = y).
Proof.
  intros N E. destruct l as [|a [|b l]]; [congruence|..]; simpl.
  - split; [intros _ x y [<-|[]] [<-|[]]; reflexivity|reflexivity].
  - split; [intros; lia|]. intros H. specialize (H a b (or_introl eq_refl) (or_intror (or_introl eq_refl))). subst. inversion N; subst. simpl in *. tauto.
Qed.
Lemma two_length (l : list nat) : NoDup l -> (2 <= List.length l <-> two_at_least (fun x => In x l)).
Proof.
  intros N. destruct l as [|a [|b l]]; simpl.
  - split; [lia|]. intros (i & j & [] & _).
  - split; [lia|]. intros (i & j & [<-|[]] & [<-|[]] & X). congruence.
  - split; [|lia]. intros _. exists a, b. split; [auto|]. split; [auto|]. intros ->. inversion N; subst. simpl in *. tauto.
Qed.
Lemma block_length (l : list (nat * nat)) r c : NoDup l -> NoDup r -> NoDup c -> (forall i, In i r <-> exists j, In (i, j) l) -> (forall j, In j c <-> exists i, In (i, j) l) ->
  (List.length l = List.length r * List.length c <-> forall i j, In i r -> In j c -> In (i, j) l).
Proof.
  intros N Nr Nc Hr Hc. rewrite <- prod_length. assert (I : incl l (list_prod r c)) by (intros [i j] H; apply in_prod; [apply Hr|apply Hc]; eauto).
  assert (Np : NoDup (list_prod r c)).
  { clear - Nr Nc. induction Nr as [|x r Nx Nr IH]; [constructor|]. cbn [list_prod]. assert (A : forall l l' : list (nat * nat), NoDup l -> NoDup l' -> (forall e, In e l -> ~ In e l') -> NoDup (l ++ l')).
    { clear. induction l as [|e l IH]; intros l' N N' D; [exact N'|]. cbn [app]. inversion N; subst. constructor; [rewrite in_app_iff; intros [H|H]; [auto|apply (D e); simpl; auto]|]. apply IH; auto. intros f Hf. apply D. simpl; auto. }
    apply A; [|exact IH|].
    - clear - Nc. induction Nc as [|y c Ny Nc IH]; [constructor|]. cbn [map]. constructor; [|exact IH]. intros H. apply in_map_iff in H as (z & E & H). congruence.
    - intros [i j] H K. apply in_map_iff in H as (z & E & _). apply in_prod_iff in K as [K _]. congruence. }
  split.
  - intros L i j Hi Hj. assert (X : incl (list_prod r c) l) by (apply NoDup_length_incl; [exact N|lia|exact I]). apply X, in_prod; auto.
  - intros F. assert (X : incl (list_prod r c) l) by (intros [i j] H; apply in_prod_iff in H as [Hi Hj]; auto). pose proof (NoDup_incl_length Np X). pose proof (NoDup_incl_length N I). lia.
Qed.
Lemma memb_nat x l : memb Nat.eqb x l = true <-> In x l.
Proof. split; [intros H; apply memb_true in H as (y & Hy & E); apply Nat.eqb_eq in E; congruence|intros H; apply (memb_in Nat.eqb Nat.eqb_refl _ _ H)]. Qed.

Lemma tiles_spec n l : NoDup l -> (forall i, In i l -> i < n) -> (tiles n l = true <-> two_at_least (fun x => In x l) /\ evenly n (fun x => In x l)).
Proof.
  intros N B. unfold tiles. set (missing := filter _ (seq 0 n)). set (transitions := filter _ missing).
  assert (Hm : forall j, In j missing <-> j < n /\ ~ In j l).
  { intros j. unfold missing. rewrite filter_In, in_seq, negb_true_iff. rewrite <- memb_nat. destruct (memb Nat.eqb j l); intuition (try lia; try congruence). }
  assert (Ht : forall j, In j transitions <-> j < n /\ ~ In j l /\ In ((j + 1) mod n) l).
  { intros j. unfold transitions. rewrite filter_In, Hm, negb_true_iff. split.
    - intros [[L H] K]. split; [exact L|]. split; [exact H|]. destruct (in_dec Nat.eq_dec ((j + 1) mod n) l) as [X|X]; [exact X|]. exfalso. assert (Y : In ((j + 1) mod n) missing) by (apply Hm; split; [apply Nat.mod_upper_bound; lia|exact X]). apply memb_nat in Y. congruence.
    - intros (L & H & K). split; [auto|]. destruct (memb Nat.eqb _ missing) eqn:E; [|reflexivity]. apply memb_nat in E. apply Hm in E. tauto. }
  assert (Nt : NoDup transitions) by (apply NoDup_filter, NoDup_filter, seq_NoDup).
  rewrite andb_true_iff, !negb_true_iff, andb_false_iff, !Nat.ltb_ge. rewrite <- (two_length l N).
  assert (Q : existsb (fun j => negb (memb Nat.eqb ((j + n / List.length transitions) mod n) transitions)) transitions = false <-> forall j, In j transitions -> In ((j + n / List.length transitions) mod n) transitions).
  { split.
    - intros E j Hj. destruct (memb Nat.eqb ((j + n / List.length transitions) mod n) transitions) eqn:X; [now apply memb_nat|]. exfalso. assert (Y : existsb (fun j => negb (memb Nat.eqb ((j + n / List.length transitions) mod n) transitions)) transitions = true) by (apply existsb_exists; exists j; rewrite X; auto). congruence.
    - intros F. destruct (existsb _ transitions) eqn:X; [|reflexivity]. exfalso. apply existsb_exists in X as (j & Hj & X). apply negb_true_iff in X. specialize (F j Hj). apply memb_nat in F. congruence. }
  rewrite Q. split.
  - intros [H L]. split; [lia|]. exists transitions. split; [exact Nt|]. split; [exact Ht|exact H].
  - intros [L (l' & Nl & Hl & H)]. split; [|lia]. assert (P : Permutation l' transitions) by (apply NoDup_Permutation; auto; intros j; rewrite Hl, Ht; tauto).
    rewrite <- (Permutation_length P). destruct H as [H|H]; [left; exact H|right]. intros j Hj. apply (Permutation_in _ (Permutation_sym P)) in Hj. apply (Permutation_in _ P). auto.
Qed.

(** * Places *)
Lemma numbered_in {A} (l : list A) i x : In (i, x) (numbered l) <-> nth_error l i = Some x.
Proof.
  unfold numbered. split.
  - intros H. apply combine_seq_in in H as (d & -> & H). exact H.
  - intros H. assert (G : forall k, In (k + i, x) (combine (seq k (List.length l)) l)); [|exact (G 0)]. revert i H. induction l as [|y l IH]; intros i H k; [destruct i; discriminate|]. cbn [List.length seq combine].
    destruct i as [|i]; cbn [nth_error] in H; [injection H as <-; left; f_equal; lia|]. right. specialize (IH i H (S k)). replace (k + S i) with (S k + i) by lia. exact IH.
Qed.
Lemma places_in (a : array) i j o : In ((i, j), o) (flat_map (fun r => map (fun c => ((fst r, fst c), hd None (snd c))) (numbered (snd r))) (numbered a)) <->
  exists r c, nth_error a i = Some r /\ nth_error r j = Some c /\ o = hd None c.
Proof.
  rewrite in_flat_map. split.
  - intros ([i' r] & Hr & H). cbn [fst snd] in H. apply in_map_iff in H as ([j' c] & E & Hc). cbn [fst snd] in E. injection E as -> -> <-. apply (proj1 (numbered_in _ _ _)) in Hr. apply (proj1 (numbered_in _ _ _)) in Hc. exists r, c. auto.
  - intros (r & c & Hr & Hc & ->). exists (i, r). split; [now apply numbered_in|]. cbn [fst snd]. apply in_map_iff. exists (j, c). split; [reflexivity|now apply numbered_in].
Qed.
Lemma shows_cell a i j x : shows a i j x <-> exists r c y, nth_error a i = Some r /\ nth_error r j = Some c /\ hd None c = Some y /\ str y = str x.
Proof.
  unfold shows, cell_at. split.
  - intros (y & H & E). destruct (nth_error a i) as [r|] eqn:Er; [|discriminate]. destruct (nth_error r j) as [c|] eqn:Ec; [|discriminate]. exists r, c, y. destruct c as [|z c]; [discriminate|]. cbn in H. injection H as ->. split; [reflexivity|]. split; [exact Ec|]. split; [reflexivity|exact E].
  - intros (r & c & y & Er & Ec & H & E). exists y. rewrite Er, Ec. split; [|exact E]. destruct c as [|z c]; [discriminate|]. cbn in H. subst z. reflexivity.
Qed.
Lemma shows_text a i j x x' : str x = str x' -> shows a i j x -> shows a i j x'.
Proof. intros E (y & H & Ey). exists y. split; [exact H|congruence]. Qed.
Lemma shows_same a i j x x' : shows a i j x -> shows a i j x' -> str x = str x'.
Proof. intros (y & H & E) (y' & H' & E'). congruence. Qed.
Lemma place2_ok a x i j : place2 a x = Ok (i, j) -> shows a i j x.
Proof.
  unfold place2. destruct (find _ _) as [[p o]|] eqn:E; [|discriminate]. intros H. apply Ok_inj in H. subst p. apply find_some in E as [H E]. cbn [snd] in E. apply in_rev in H. apply places_in in H as (r & c & Hr & Hc & ->). destruct (hd None c) as [y|] eqn:Ey; [|discriminate]. apply shows_cell. exists r, c, y. apply script_eqb_str in E. auto.
Qed.
Lemma place2_total a x i j : shows a i j x -> exists p, place2 a x = Ok p.
Proof.
  intros H. apply shows_cell in H as (r & c & y & Hr & Hc & Ey & E). unfold place2. destruct (find _ _) as [[p o]|] eqn:F; [eauto|]. exfalso.
  eapply find_none in F; [|apply -> in_rev; apply places_in; exists r, c; eauto]. cbn [snd] in F. rewrite Ey in F. apply script_eqb_str in E. congruence.
Qed.
Lemma coords_in a l cs : once a -> mapM (place2 a) l = Ok cs -> forall i j, In (i, j) cs <-> exists x, In x l /\ shows a i j x.
Proof.
  intros O E i j. pose proof (mapM_F2 _ _ _ E) as F. split.
  - intros H. destruct (Forall2_In_r F _ H) as (x & Hx & Px). exists x. split; [exact Hx|now apply place2_ok].
  - intros (x & Hx & Sx). destruct (Forall2_In_l F x Hx) as ([i' j'] & H & Px). apply place2_ok in Px. destruct (O _ _ _ _ _ Sx Px) as [-> ->]. exact H.
Qed.
Lemma coords_nodup a l cs : mapM (place2 a) l = Ok cs -> NoDup (map str l) -> NoDup cs.
Proof.
  intros E. pose proof (mapM_F2 _ _ _ E) as F. clear E. induction F as [|x p l cs Px F IH]; intros N; [constructor|]. cbn [map] in N. apply NoDup_cons_iff in N as [Nx N]. constructor; [|auto]. intros H. destruct (Forall2_In_r F _ H) as (y & Hy & Py).
  destruct p as [i j]. apply place2_ok in Px. apply place2_ok in Py. apply Nx. rewrite (shows_same _ _ _ _ _ Px Py). now apply in_map.
Qed.

(** * Tables of two dimensions *)
Lemma column_one (P : nat -> nat -> Prop) n m : 0 < n -> (forall i j, P i j -> i < n /\ j < m) -> (all_rows n P /\ forall i j i' j', P i j -> P i' j' -> j = j') <-> a_col n m P.
Proof.
  intros L B. split.
  - intros [F U]. destruct (F 0 L) as [j Hj]. exists j. split; [exact (proj2 (B _ _ Hj))|]. intros i j' Hi _. split; [intros H; eapply U; eauto|intros ->]. destruct (F i Hi) as [j' Hj']. now rewrite (U _ _ _ _ Hj Hj').
  - intros (j & Hj & E). split.
    + intros i Hi. exists j. apply E; auto.
    + intros i k i' k' H H'. destruct (B _ _ H) as [Hi Hk]. destruct (B _ _ H') as [Hi' Hk']. apply E in H; auto. apply E in H'; auto. congruence.
Qed.
Lemma row_one (P : nat -> nat -> Prop) n m : 0 < m -> (forall i j, P i j -> i < n /\ j < m) -> (all_columns m P /\ forall i j i' j', P i j -> P i' j' -> i = i') <-> a_row n m P.
Proof.
  intros L B. split.
  - intros [F U]. destruct (F 0 L) as [i Hi]. exists i. split; [exact (proj1 (B _ _ Hi))|]. intros i' j _ Hj. split; [intros H; eapply U; eauto|intros ->]. destruct (F j Hj) as [i' Hi']. now rewrite (U _ _ _ _ Hi Hi').
  - intros (i & Hi & E). split.
    + intros j Hj. exists i. apply E; auto.
    + intros k j k' j' H H'. destruct (B _ _ H) as [Hk Hj]. destruct (B _ _ H') as [Hk' Hj']. apply E in H; auto. apply E in H'; auto. congruence.
Qed.
Section Coords.
  Variables (n m : nat) (cs : list (nat * nat)) (P : nat -> nat -> Prop).
  Hypothesis Q : forall i j, In (i, j) cs <-> P i j.
  Hypothesis B : forall i j, P i j -> i < n /\ j < m.
  Hypothesis E : cs <> [].
  Hypothesis N : NoDup cs.
  Hypothesis L : 1 < n.
  Let r := nset (map fst cs).
  Let c := nset (map snd cs).
  Lemma rows_in i : In i r <-> exists j, P i j.
  Proof. unfold r. rewrite nset_in, in_map_iff. split; [intros ([i' j] & <- & H); exists j; now apply Q|intros (j & H); exists (i, j); split; [reflexivity|now apply Q]]. Qed.
  Lemma cols_in j : In j c <-> exists i, P i j.
  Proof. unfold c. rewrite nset_in, in_map_iff. split; [intros ([i j'] & <- & H); exists i; now apply Q|intros (i & H); exists (i, j); split; [reflexivity|now apply Q]]. Qed.
  Lemma some_place : exists i j, P i j.
  Proof. destruct cs as [|[i j] l] eqn:X; [congruence|]. exists i, j. apply Q. simpl. auto. Qed.
  Lemma r_full : List.length r = n <-> all_rows n P.
  Proof. rewrite full_length; [|apply nset_nodup|intros i Hi; apply rows_in in Hi as [j Hj]; apply (B _ _ Hj)]. unfold all_rows. split; intros H i Hi; apply rows_in, H, Hi. Qed.
  Lemma c_full : List.length c = m <-> all_columns m P.
  Proof. rewrite full_length; [|apply nset_nodup|intros j Hj; apply cols_in in Hj as [i Hi]; apply (B _ _ Hi)]. unfold all_columns. split; intros H j Hj; apply cols_in, H, Hj. Qed.
  Lemma r_one : List.length r = 1 <-> forall i j i' j', P i j -> P i' j' -> i = i'.
  Proof.
    rewrite one_length; [|apply nset_nodup|destruct some_place as (i & j & H); intros X; assert (Y : In i r) by (apply rows_in; eauto); rewrite X in Y; destruct Y]. split.
    - intros H i j i' j' K K'. apply H; apply rows_in; eauto.
    - intros H x y Hx Hy. apply rows_in in Hx as [j Hj]. apply rows_in in Hy as [j' Hj']. eauto.
  Qed.
  Lemma c_one : List.length c = 1 <-> forall i j i' j', P i j -> P i' j' -> j = j'.
  Proof.
    rewrite one_length; [|apply nset_nodup|destruct some_place as (i & j & H); intros X; assert (Y : In j c) by (apply cols_in; eauto); rewrite X in Y; destruct Y]. split.
    - intros H i j i' j' K K'. apply H; apply cols_in; eauto.
    - intros H x y Hx Hy. apply cols_in in Hx as [i Hi]. apply cols_in in Hy as [i' Hi']. eauto.
  Qed.
  Lemma dim_regular : (let '(d, count) := is_dim_subset n m cs in d && Nat.eqb count 1) = true <-> a_row n m P \/ a_col n m P.
  Proof.
    destruct some_place as (i0 & j0 & H0). destruct (B _ _ H0) as [Li Lj].
    rewrite <- (column_one P n m) by (auto; lia). rewrite <- (row_one P n m) by (auto; lia). rewrite <- r_full, <- c_full, <- r_one, <- c_one. unfold is_dim_subset. fold r c.
    destruct (Nat.eqb_spec (List.length r) n) as [X|X].
    - cbn [andb]. rewrite Nat.eqb_eq. split; [auto|]. intros [[Y Z]|[Y Z]]; [lia|exact Z].
    - destruct (Nat.eqb_spec (List.length c) m) as [Y|Y]; cbn [andb]; [rewrite Nat.eqb_eq; tauto|]. split; [discriminate|tauto].
  Qed.
  Lemma dim_accept : (let '(d, count) := is_dim_subset n m cs in is_connexe_tilling n m cs || d) = true <-> all_rows n P \/ all_columns m P \/ block n m P.
  Proof.
    assert (T : is_connexe_tilling n m cs = true <-> block n m P).
    { unfold is_connexe_tilling. fold r c. rewrite !andb_true_iff, Nat.eqb_eq.
      rewrite (tiles_spec n r), (tiles_spec m c); [|apply nset_nodup|intros j Hj; apply cols_in in Hj as [i Hi]; apply (B _ _ Hi)|apply nset_nodup|intros i Hi; apply rows_in in Hi as [j Hj]; apply (B _ _ Hj)].
      rewrite (block_length cs r c N (nset_nodup _) (nset_nodup _)); [|intros i; rewrite rows_in; split; intros (j & H); exists j; now apply Q|intros j; rewrite cols_in; split; intros (i & H); exists i; now apply Q].
      unfold block. assert (Er : forall n, evenly n (fun x => In x r) <-> evenly n (fun i => exists j, P i j)).
      { intros k. unfold evenly. split; intros (l & Nl & Hl & F); exists l; (split; [exact Nl|]); (split; [|exact F]); intros j; rewrite Hl, !rows_in; tauto. }
      assert (Ec : forall n, evenly n (fun x => In x c) <-> evenly n (fun j => exists i, P i j)).
      { intros k. unfold evenly. split; intros (l & Nl & Hl & F); exists l; (split; [exact Nl|]); (split; [|exact F]); intros j; rewrite Hl, !cols_in; tauto. }
      assert (Tr : two_at_least (fun x => In x r) <-> two_at_least (fun i => exists j, P i j)) by (unfold two_at_least; split; intros (x & y & H); exists x, y; rewrite !rows_in in *; exact H).
      assert (Tc : two_at_least (fun x => In x c) <-> two_at_least (fun j => exists i, P i j)) by (unfold two_at_least; split; intros (x & y & H); exists x, y; rewrite !cols_in in *; exact H).
      rewrite Er, Ec, Tr, Tc. assert (Bl : (forall i j, In i r -> In j c -> In (i, j) cs) <-> forall i j, (exists j', P i j') -> (exists i', P i' j) -> P i j).
      { split; intros H i j; specialize (H i j); rewrite rows_in, cols_in, Q in *; exact H. }
      rewrite Bl. tauto. }
    rewrite <- r_full, <- c_full, <- T. unfold is_dim_subset. fold r c. destruct (Nat.eqb_spec (List.length r) n) as [X|X]; [rewrite orb_true_r; tauto|]. destruct (Nat.eqb_spec (List.length c) m) as [Y|Y]; [rewrite orb_true_r; tauto|]. rewrite orb_false_r. tauto.
  Qed.
End Coords.

(** * The arrays of a script *)
Definition boxed (a : array) : Prop := exists n m k, shape a n m k /\ 2 <= n /\ 1 <= m /\ 1 <= k /\ (m = 1 -> k = 1).
Definition rectangular (t : tabs) : Prop := Forall boxed (t_cells t) /\ List.length (t_scripts t) = list_sum (map tabs_of (t_cells t)).
Lemma shape_tabs a n m k : shape a n m k -> 1 <= n -> 1 <= m -> tabs_of a = k.
Proof.
  intros [L F] Hn Hm. unfold tabs_of. destruct a as [|r a]; [simpl in L; lia|]. apply Forall_cons_iff in F as [[L2 F2] _]. cbn [hd]. destruct r as [|c r]; [simpl in L2; lia|]. apply Forall_cons_iff in F2 as [L3 _]. exact L3.
Qed.
Lemma plural_two s : wf s -> cardinal s <> 1%N -> 2 <= N.to_nat (cardinal s).
Proof.
  intros W N. rewrite <- (length_words s W) in *. destruct (some_word s W) as [w Hw]. apply words_means in Hw. rewrite Nat2N.id. destruct (words s) as [|x [|y l]]; [destruct Hw|exfalso; apply N; reflexivity|simpl; lia].
Qed.
Lemma fill_shape sizes own : shape (fill sizes own) (N.to_nat (nth 0 sizes 1%N)) (N.to_nat (nth 1 sizes 1%N)) (N.to_nat (nth 2 sizes 1%N)).
Proof.
  unfold fill, shape. split; [rewrite map_length; apply seq_length|]. apply Forall_forall. intros r Hr. apply in_map_iff in Hr as (i & <- & _). split; [rewrite map_length; apply seq_length|]. apply Forall_forall. intros c Hc. apply in_map_iff in Hc as (j & <- & _). rewrite map_length. apply seq_length.
Qed.
Lemma fill_boxed x y l own : (2 <= N.to_nat x) -> (2 <= N.to_nat y) -> Forall (fun z => 2 <= N.to_nat z) l -> boxed (fill (x :: y :: l) own).
Proof.
  intros X Y F. pose proof (fill_shape (x :: y :: l) own) as Sh. cbn [nth] in Sh. do 3 eexists. split; [exact Sh|]. repeat split; try lia. destruct F; cbn [nth]; [vm_compute; lia|lia].
Qed.
Lemma resolved_shape {A B} (f : A -> res B) t u n m k : mapM (mapM (mapM f)) t = Ok u -> shape t n m k -> shape u n m k.
Proof.
  intros E [L F]. pose proof (mapM_F2 _ _ _ E) as F2. split; [rewrite <- (F2_length _ _ _ F2); exact L|]. apply Forall_forall. intros r Hr. destruct (Forall2_In_r F2 _ Hr) as (r' & Hr' & Er). rewrite Forall_forall in F. destruct (F r' Hr') as [Lr Fr]. pose proof (mapM_F2 _ _ _ Er) as F3.
  split; [rewrite <- (F2_length _ _ _ F3); exact Lr|]. apply Forall_forall. intros c Hc. destruct (Forall2_In_r F3 _ Hc) as (c' & Hc' & Ec). rewrite Forall_forall in Fr. rewrite <- (Fr c' Hc'). symmetry. exact (F2_length _ _ _ (mapM_F2 _ _ _ Ec)).
Qed.
Ltac step x E := match goal with |- context[bind ?m _] => destruct m as [x|] eqn:E; cbn [bind]; [|discriminate] end.
Lemma from_child_shape a b c k t u : from_child a b c k t = Ok u -> rectangular t -> rectangular u /\ (t_cells t <> [] -> t_cells u <> []).
Proof.
  unfold from_child. destruct (ss (Mul a b c)) as [own|]; cbn [bind]; [|discriminate]. step cs Ec. step ts Et. step hs Eh. intros E [F L]. apply Ok_inj in E. subst u. unfold rectangular. cbn [t_cells t_scripts].
  pose proof (mapM_F2 _ _ _ Ec) as Fc. split; [split|].
  - apply Forall_forall. intros x Hx. destruct (Forall2_In_r Fc _ Hx) as (y & Hy & Ey). rewrite Forall_forall in F. destruct (F y Hy) as (n & m & q & Sh & Bx). exists n, m, q. split; [|exact Bx]. eapply resolved_shape; eauto.
  - rewrite <- (F2_length _ _ _ (mapM_F2 _ _ _ Et)), L. clear - F Fc. induction Fc as [|y x ys xs Ey Fc IH]; [reflexivity|]. apply Forall_cons_iff in F as [(n & m & q & Sh & Hn & Hm & _) F]. cbn [map list_sum fold_right]. change (fold_right Nat.add 0) with list_sum. rewrite (IH F). f_equal. rewrite (shape_tabs _ _ _ _ Sh) by lia. rewrite (shape_tabs x n m q) by (try lia; exact (resolved_shape _ _ _ _ _ _ Ey Sh)). reflexivity.
  - intros X Y. subst cs. apply X. inversion Fc. reflexivity.
Qed.
Lemma grid_shape a b c t : wf (Mul a b c) -> 2 <= List.length (plurals a b c) -> grid a b c = Ok t -> rectangular t /\ t_cells t <> [].
Proof.
  intros W Two. unfold grid. destruct (existsb _ _); [discriminate|]. step ax Ea. step own Eo. step ps Ep.
  pose proof (eq_sym (F2_length _ _ _ (mapM_F2 _ _ _ Ea))) as La.
  assert (P : forall e, In e (plurals a b c) -> 2 <= N.to_nat (cardinal (snd e))).
  { intros e He. apply filter_In in He as [He Pe]. apply plural_two; [|apply several_yes; exact Pe]. destruct He as [<-|[<-|[<-|[]]]]; [apply (Wa a b c W)|apply (Wb a b c W)|apply (Wc a b c W)]. }
  assert (Third : List.length (plurals a b c) = 3 -> plurals a b c = [(0, a); (1, b); (2, c)]) by (unfold plurals; cbn [filter snd]; destruct (plural a), (plural b), (plural c); cbn [List.length]; intros H; try reflexivity; lia).
  assert (Most : List.length (plurals a b c) <= 3) by (unfold plurals; cbn [filter snd]; destruct (plural a), (plural b), (plural c); cbn [List.length]; lia).
  pose proof (fill_shape (map (fun e => cardinal (snd e)) (plurals a b c)) (combine own ps)) as Dim.
  assert (Sh : boxed (fill (map (fun e => cardinal (snd e)) (plurals a b c)) (combine own ps)) /\ 1 <= N.to_nat (nth 0 (map (fun e => cardinal (snd e)) (plurals a b c)) 1%N) /\ 1 <= N.to_nat (nth 1 (map (fun e => cardinal (snd e)) (plurals a b c)) 1%N)).
  { destruct (plurals a b c) as [|e [|e' l]]; [simpl in Two; lia|simpl in Two; lia|]. cbn [map nth]. pose proof (P e (or_introl eq_refl)) as P0. pose proof (P e' (or_intror (or_introl eq_refl))) as P1. split; [|lia]. apply fill_boxed; [exact P0|exact P1|]. apply Forall_forall. intros z Hz. apply in_map_iff in Hz as (e'' & <- & He). apply P. simpl. auto. }
  destruct Sh as (Sh & G0 & G1). pose proof (shape_tabs _ _ _ _ Dim G0 G1) as Tb. cbv zeta. set (arr := fill _ _) in *. clearbody arr. unfold rectangular.
  assert (One : List.length ax <> 3 -> forall h, (do h <- h; Ok {| t_cells := [arr]; t_scripts := [Mul a b c]; t_headers := [h] |}) = Ok t -> (Forall boxed (t_cells t) /\ List.length (t_scripts t) = list_sum (map tabs_of (t_cells t))) /\ t_cells t <> []).
  { intros N3 [h|] E; cbn [bind] in E; [|discriminate]. apply Ok_inj in E. subst t. cbn [t_cells t_scripts List.length map list_sum fold_right]. split; [split; [constructor; [exact Sh|constructor]|]|discriminate].
    rewrite Tb, nth_overflow; [reflexivity|]. rewrite map_length. lia. }
  destruct ax as [|x [|y [|z [|w ax]]]]; try (apply One; simpl; lia). assert (P3 := Third (eq_sym La)). rewrite P3 in Tb. cbn [map snd nth] in Tb.
  pose proof (Wc a b c W) as Wc'. destruct (ss a) as [la|]; cbn [bind]; [|discriminate]. destruct (ss b) as [lb|]; cbn [bind]; [|discriminate]. destruct (ss_total c Wc') as (lc & Ec & _ & _ & Lc). rewrite Ec. cbn [bind].
  step ts Et. step hs Eh. intros E. apply Ok_inj in E. subst t. cbn [t_cells t_scripts List.length map list_sum fold_right].
  split; [split; [constructor; [exact Sh|constructor]|]|discriminate]. rewrite <- (F2_length _ _ _ (mapM_F2 _ _ _ Et)), Tb, <- Lc, Nat2N.id. lia.
Qed.
Lemma tables_shape s t : wf s -> cardinal s <> 1%N -> tables s = Ok t -> rectangular t /\ t_cells t <> [].
Proof.
  intros W N.
  revert t W N. induction s as [l|p|a b c IHa IHb IHc|cs IH] using script_ind'; intros t W N E; try (simpl in N; congruence).
  - pose proof (Wa a b c W) as Wa. pose proof (Wb a b c W) as Wb. pose proof (Wc a b c W) as Wc. rewrite tables_mul in E by exact N.
    assert (Pl : plurals a b c = filter (fun e => several (snd e)) [(0, a); (1, b); (2, c)]) by reflexivity. cbn [filter snd] in Pl.
    destruct (several a) eqn:Sa, (several b) eqn:Sb, (several c) eqn:Sc; rewrite Pl in E; try (apply (grid_shape a b c t W); [rewrite Pl; simpl; lia|exact E]); rewrite ?several_yes in *; repeat match goal with H : several _ = false |- _ => apply several_not in H end.
    + destruct (tables a) as [u|] eqn:Eu; cbn [bind] in E; [|discriminate]. destruct (IHa u Wa Sa eq_refl) as [R Ne]. destruct (from_child_shape _ _ _ _ _ _ E R). auto.
    + destruct (tables b) as [u|] eqn:Eu; cbn [bind] in E; [|discriminate]. destruct (IHb u Wb Sb eq_refl) as [R Ne]. destruct (from_child_shape _ _ _ _ _ _ E R). auto.
    + destruct (tables c) as [u|] eqn:Eu; cbn [bind] in E; [|discriminate]. destruct (IHc u Wc Sc eq_refl) as [R Ne]. destruct (from_child_shape _ _ _ _ _ _ E R). auto.
    + exfalso. apply N. cbn [cardinal]. rewrite Sa, Sb, Sc. reflexivity.
  - rewrite tables_add in E by exact N. destruct (existsb (fun c => negb (paradigm c)) cs) eqn:Ex.
    + destruct (ss_total _ W) as (l & El & _ & _ & Ll). rewrite El in E. cbn [bind] in E. apply Ok_inj in E. subst t. unfold rectangular. cbn [t_cells t_scripts List.length]. pose proof (plural_two _ W N) as P2. rewrite <- Ll, Nat2N.id in P2. split; [split; [|destruct l; [simpl in P2; lia|reflexivity]]|discriminate]. constructor; [|constructor]. exists (List.length l), 1, 1. split; [|repeat split; lia]. split; [apply map_length|]. apply Forall_forall. intros r Hr. apply in_map_iff in Hr as (x & <- & _). repeat constructor.
    + assert (Hall : forall y, In y cs -> cardinal y <> 1%N).
      { intros y Hy C. apply cardinal_paradigm in C; [|apply (wf_add_in cs y W Hy)]. assert (existsb (fun c => negb (paradigm c)) cs = true) by (apply existsb_exists; exists y; rewrite C; auto). congruence. }
      assert (X : forall l u, incl l cs -> TablesGridProofs.all_tables l = Ok u -> rectangular u /\ (l <> [] -> t_cells u <> [])).
      { induction l as [|x l IHl]; intros u I Eu; cbn [TablesGridProofs.all_tables] in Eu.
        - apply Ok_inj in Eu. subst u. split; [split; [constructor|cbn; lia]|congruence].
        - assert (Hx : In x cs) by (apply I; simpl; auto). destruct (wf_add_in cs x W Hx) as (Wx & _ & Lx). destruct (tables x) as [v|] eqn:Ev; cbn [bind] in Eu; [|discriminate].
          destruct (TablesGridProofs.all_tables l) as [v'|] eqn:Ev'; cbn [bind] in Eu; [|discriminate]. apply Ok_inj in Eu. subst u. rewrite Forall_forall in IH. destruct (IH x Hx v Wx (Hall x Hx) Ev) as [[Rv Lv] Nv]. destruct (IHl v') as [[Rv' Lv'] _]; [intros z Hz; apply I; simpl; auto|reflexivity|].
          unfold rectangular. cbn [t_cells t_scripts]. split; [split; [apply Forall_app; auto|rewrite app_length, map_app, list_sum_app; lia]|]. intros _ Y. apply app_eq_nil in Y as [Y _]. congruence. }
      destruct (X cs t (incl_refl cs) E) as [R Ne]. split; [exact R|]. apply Ne. intros ->. destruct (some_word (Add []) W) as [w []].
Qed.

(** * The places of the cells *)
Lemma app_nodup {A} (l l' : list A) : NoDup (l ++ l') -> NoDup l /\ NoDup l' /\ forall x, In x l -> ~ In x l'.
Proof.
  induction l as [|y l IH]; simpl; intros N; [split; [constructor|split; [exact N|tauto]]|]. inversion_clear N as [|? ? X Y]. destruct (IH Y) as (N1 & N2 & D). split; [constructor; [intros Z; apply X; apply in_or_app; auto|exact N1]|]. split; [exact N2|].
  intros x [<-|Hx]; [intros Z; apply X; apply in_or_app; auto|apply D; exact Hx].
Qed.
Lemma concat_nodup {A} (l : list (list A)) r : NoDup (List.concat l) -> In r l -> NoDup r.
Proof. induction l as [|y l IH]; intros N Hr; [destruct Hr|]. apply app_nodup in N as (N1 & N2 & _). destruct Hr as [<-|Hr]; auto. Qed.
Lemma concat_twice {A} (l : list (list (list A))) : List.concat (List.concat l) = List.concat (map (@List.concat A) l).
Proof. induction l as [|y l IH]; [reflexivity|]. cbn [map List.concat]. rewrite concat_app, IH. reflexivity. Qed.
Lemma F2_nth_l {A B} {R : A -> B -> Prop} {l l'} : Forall2 R l l' -> forall i x, nth_error l i = Some x -> exists y, nth_error l' i = Some y /\ R x y.
Proof. induction 1 as [|x y l l' H F IH]; intros [|i] z E; try discriminate; cbn [nth_error] in *; [injection E as <-; eauto|auto]. Qed.
Lemma concat_place {A} (l : list (list A)) i j a b x : NoDup (List.concat l) -> nth_error l i = Some a -> nth_error l j = Some b -> In x a -> In x b -> i = j.
Proof.
  revert i j. induction l as [|y l IH]; intros i j N Ei Ej Ha Hb; [destruct i; discriminate|]. cbn [List.concat] in N. destruct (app_nodup _ _ N) as (N1 & N2 & D).
  destruct i as [|i], j as [|j]; cbn [nth_error] in Ei, Ej.
  - reflexivity.
  - injection Ei as <-. exfalso. apply (D x Ha). apply in_concat. exists b. split; [eapply nth_error_In; eauto|exact Hb].
  - injection Ej as <-. exfalso. apply (D x Hb). apply in_concat. exists a. split; [eapply nth_error_In; eauto|exact Ha].
  - f_equal. eapply IH; eauto.
Qed.
Lemma once_words n a W : rel3 (has_word n) a W -> NoDup (all_cells W) -> once a.
Proof.
  intros R N i j i' j' x (y & Ey & Ty) (y' & Ey' & Ty'). unfold cell_at in *.
  destruct (nth_error a i) as [r|] eqn:Er; [|discriminate]. destruct (nth_error r j) as [c|] eqn:Ec; [|discriminate].
  destruct (nth_error a i') as [r'|] eqn:Er'; [|discriminate]. destruct (nth_error r' j') as [c'|] eqn:Ec'; [|discriminate].
  destruct (F2_nth_l R i r Er) as (R1 & Hr1 & F1). destruct (F2_nth_l F1 j c Ec) as (C1 & Hc1 & G1). destruct (F2_nth_l G1 0 (Some y) Ey) as (w & Hw & (z & Ez & Sz & Wz)).
  destruct (F2_nth_l R i' r' Er') as (R2 & Hr2 & F2). destruct (F2_nth_l F2 j' c' Ec') as (C2 & Hc2 & G2). destruct (F2_nth_l G2 0 (Some y') Ey') as (w' & Hw' & (z' & Ez' & Sz' & Wz')).
  injection Ez as <-. injection Ez' as <-. assert (Ew : w = w').
  { rewrite <- Wz, <- Wz'. apply (sing1_word n); auto. apply script_eqb_str. congruence. }
  rewrite <- Ew in Hw'. clear Ew. unfold all_cells in N. assert (In1 : In w (List.concat R1)) by (apply in_concat; exists C1; split; [exact (nth_error_In _ _ Hc1)|exact (nth_error_In _ _ Hw)]).
  assert (In2 : In w (List.concat R2)) by (apply in_concat; exists C2; split; [exact (nth_error_In _ _ Hc2)|exact (nth_error_In _ _ Hw')]).
  rewrite concat_twice in N. assert (i = i').
  { eapply (concat_place (map (@List.concat _) W)); [exact N|rewrite nth_error_map, Hr1; reflexivity|rewrite nth_error_map, Hr2; reflexivity|exact In1|exact In2]. }
  subst i'. split; [reflexivity|]. rewrite Hr1 in Hr2. injection Hr2 as <-. apply concat_nodup with (r := List.concat R1) in N; [|apply in_map; eapply nth_error_In; eauto].
  eapply (concat_place R1); [exact N|exact Hc1|exact Hc2|eapply nth_error_In; eauto|eapply nth_error_In; eauto].
Qed.

Lemma once_disjoint s t : wf s -> cardinal s <> 1%N -> sums_disjoint s -> tables s = Ok t -> once (first_cells t).
Proof.
  intros W N D E. destruct (tables_w s W D N) as [(t' & E' & (parts & F & _ & _ & _ & P) & _)|[E' _]]; rewrite E in E'; [apply Ok_inj in E'; subst t'|discriminate].
  unfold first_cells. destruct (t_cells t) as [|a l]; [intros i j i' j' x (y & Ey & _); destruct i; discriminate|]. destruct parts as [|p parts]; [inversion F|]. assert (R : rel3 (has_word (layer s)) a (p_words p)) by (inversion F; assumption). cbn [hd].
  apply (once_words (layer s) a (p_words p) R). apply (proj2 (words_nodup s W)) in D. apply (Permutation_NoDup (Permutation_sym P)) in D. cbn [flat_map] in D. apply app_nodup in D. apply D.
Qed.
Lemma ss_nodup s l : wf s -> sums_disjoint s -> ss s = Ok l -> NoDup (map str l).
Proof.
  intros W D E. destruct (ss_total s W) as (l' & E' & F & P & _). rewrite E in E'. apply Ok_inj in E'. subst l'. apply (proj2 (words_nodup s W)) in D. apply (Permutation_NoDup (Permutation_sym P)) in D. clear P E.
  induction l as [|x l IH]; [constructor|]. cbn [map] in *. apply Forall_cons_iff in F as [Fx F]. inversion_clear D as [|? ? X Y]. constructor; [|auto]. intros Hin. apply X. apply in_map_iff in Hin as (y & Ey & Hy). rewrite Forall_forall in F. apply in_map_iff. exists y. split; [|exact Hy].
  apply (sing1_word (layer s)); auto. apply script_eqb_str. exact Ey.
Qed.
(** What the class of a table says of its array. *)
Lemma one_script x : rectangular x -> t_cells x <> [] -> List.length (t_scripts x) = 1 -> t_cells x = [first_cells x] /\ exists n m, shape (first_cells x) n m 1 /\ 2 <= n /\ 1 <= m.
Proof.
  intros [F L] Ne L1. rewrite L1 in L. unfold first_cells. destruct (t_cells x) as [|a l]; [congruence|]. cbn [hd]. cbn [map list_sum fold_right] in L. change (fold_right Nat.add 0) with list_sum in L.
  apply Forall_cons_iff in F as [(n & m & q & Sh & Hn & Hm & Hq & Mq) F]. rewrite (shape_tabs _ _ _ _ Sh) in L by lia. assert (q = 1) by lia. subst q. split; [|exists n, m; auto]. destruct l as [|a' l]; [reflexivity|].
  apply Forall_cons_iff in F as [(n' & m' & q' & Sh' & Hn' & Hm' & Hq' & _) _]. cbn [map list_sum fold_right] in L. rewrite (shape_tabs _ _ _ _ Sh') in L by lia. lia.
Qed.
Lemma in_rows_of a n m q : shape a n m q -> 0 < n -> rows_of a = n /\ cols_of a = m.
Proof. intros [L F] H. unfold rows_of, cols_of. split; [exact L|]. destruct a as [|r a]; [simpl in L; lia|]. apply Forall_cons_iff in F as [[L2 _] _]. exact L2. Qed.
Lemma class_total s x : wf s -> cardinal s <> 1%N -> tables s = Ok x -> table_class s = Ok (match t_scripts x with [_] => if Nat.eqb (cols_of (first_cells x)) 1 then K1D else K2D | _ => match t_cells x with [_] => K3D | _ => KSet end end).
Proof.
  intros W N T. destruct (tables_shape s x W N T) as [R Ne]. unfold table_class. rewrite (proj2 (N.eqb_neq _ _) N), T. cbn [bind]. destruct (t_scripts x) as [|s1 [|s2 ls]] eqn:Es; [destruct (t_cells x) as [|? [|? ?]]; reflexivity| |destruct (t_cells x) as [|? [|? ?]]; reflexivity].
  destruct (one_script x R Ne ltac:(rewrite Es; reflexivity)) as (_ & n & m & Sh & Hn & Hm). destruct (in_rows_of _ _ _ _ Sh ltac:(lia)) as [D1 D2]. pose proof (shape_tabs _ _ _ _ Sh ltac:(lia) Hm) as D3. unfold nb_dims. rewrite D1, D2, D3. cbn [filter]. destruct (Nat.eqb_spec n 1); [lia|]. destruct (Nat.eqb_spec m 1); reflexivity.
Qed.
Lemma class_array s k x : wf s -> table_class s = Ok k -> tables s = Ok x -> k <> KCell -> cardinal s <> 1%N /\
  (k = K1D \/ k = K2D -> t_cells x = [first_cells x] /\ exists n m, shape (first_cells x) n m 1 /\ 2 <= n /\ match k with K1D => m = 1 | _ => 2 <= m end).
Proof.
  intros W K T NK. assert (N : cardinal s <> 1%N) by (intros C; apply NK; apply (class_cell s k K); exact C). split; [exact N|]. intros K12. destruct (tables_shape s x W N T) as [R Ne].
  rewrite (class_total s x W N T) in K. apply Ok_inj in K. destruct (t_scripts x) as [|s1 [|s2 ls]] eqn:Es; [destruct (t_cells x) as [|? [|? ?]]; subst k; destruct K12; discriminate| |destruct (t_cells x) as [|? [|? ?]]; subst k; destruct K12; discriminate].
  destruct (one_script x R Ne ltac:(rewrite Es; reflexivity)) as (C & n & m & Sh & Hn & Hm). split; [exact C|]. exists n, m. split; [exact Sh|]. split; [exact Hn|]. destruct (in_rows_of _ _ _ _ Sh ltac:(lia)) as [_ D2]. rewrite D2 in K. destruct (Nat.eqb_spec m 1); subst k; lia.
Qed.
Lemma shows_bounds a n m q i j x : shape a n m q -> shows a i j x -> i < n /\ j < m.
Proof.
  intros [L F] H. apply shows_cell in H as (r & c & y & Er & Ec & _). split; [rewrite <- L; apply nth_error_Some; congruence|]. rewrite Forall_forall in F. destruct (F r (nth_error_In _ _ Er)) as [<- _]. apply nth_error_Some. congruence.
Qed.
Lemma all_shown s x n m : wf s -> tables s = Ok x -> t_cells x = [first_cells x] -> shape (first_cells x) n m 1 -> forall w y, means s w -> sing1 (layer s) y -> means y w -> exists i j, shows (first_cells x) i j y.
Proof.
  intros W T C [L F] w y Hw Sy Hy. destruct (tables_show s x W T) as [A B]. destruct (A w) as (z & Hz & Wz); [apply words_means; exact Hw|]. apply in_cells in Hz as (arr & r & c & Ha & Hr & Hc & Hz). rewrite C in Ha. destruct Ha as [<-|[]].
  destruct (In_nth_error _ _ Hr) as [i Ei]. destruct (In_nth_error _ _ Hc) as [j Ej]. exists i, j. apply shows_cell. exists r, c, z. split; [exact Ei|]. split; [exact Ej|].
  rewrite Forall_forall in F. destruct (F r Hr) as [_ F']. rewrite Forall_forall in F'. pose proof (F' c Hc) as Lc. destruct c as [|o [|o' c]]; try discriminate. destruct Hz as [->|[]]. split; [reflexivity|].
  assert (Sz : sing1 (layer s) z) by (apply B; apply in_cells; exists (first_cells x), r, [Some z]; rewrite C; simpl; auto). apply (sing1_text (layer s)); auto. rewrite Wz. destruct Sy as (Wy & Cy & _). apply words_means in Hy. rewrite (words_single y Wy Cy) in Hy. destruct Hy as [->|[]]; reflexivity.
Qed.
Lemma taken_iff a s l : ss s = Ok l -> forall i j, taken a s i j <-> exists x, In x l /\ shows a i j x.
Proof. intros E i j. unfold taken. rewrite E. split; [intros (l' & x & E' & H); apply Ok_inj in E'; subst l'; eauto|intros (x & H); eauto]. Qed.

Lemma accept_grid t s x : tkind t = K2D -> table_class (tscript t) = Ok K2D -> wf (tscript t) -> wf s -> tables (tscript t) = Ok x -> once (first_cells x) -> sums_disjoint s -> included s (tscript t) ->
  rank t = 0 \/ Nat.Odd (rank t) ->
  let n := rows_of (first_cells x) in let m := cols_of (first_cells x) in let P := taken (first_cells x) s in
  exists acc reg, accept_script t s = Ok (acc, reg) /\ (acc = true <-> all_rows n P \/ all_columns m P \/ block n m P) /\ (reg = true <-> a_row n m P \/ a_col n m P).
Proof.
  intros Kt Kc Wt Ws T O D I R n m P. destruct (class_array (tscript t) K2D x Wt Kc T) as [N [C (n' & m' & Sh & Hn & Hm)]]; [discriminate|auto|].
  destruct (in_rows_of _ _ _ _ Sh ltac:(lia)) as [En Em]. fold n m in En, Em. subst n' m'.
  destruct (ss_total s Ws) as (l & El & Fl & Pl & _).
  assert (Shown : forall y, In y l -> exists i j, shows (first_cells x) i j y).
  { intros y Hy. rewrite Forall_forall in Fl. pose proof (Fl y Hy) as Sy. destruct (some_word y (proj1 Sy)) as [w Hw]. apply (all_shown _ _ _ _ Wt T C Sh w y); [apply I; apply (ss_word s l y w Ws El Hy Hw)|rewrite <- (proj1 I); exact Sy|exact Hw]. }
  destruct (mapM_total (place2 (first_cells x)) l) as [cs Ecs].
  { intros y Hy. destruct (Shown y Hy) as (i & j & H). apply (place2_total _ _ _ _ H). }
  assert (Q : forall i j, In (i, j) cs <-> P i j) by (intros i j; unfold P; rewrite (taken_iff _ s l El); apply (coords_in _ _ _ O Ecs)).
  assert (B : forall i j, P i j -> i < n /\ j < m) by (intros i j H; unfold P in H; rewrite (taken_iff _ s l El) in H; destruct H as (y & _ & H); exact (shows_bounds _ _ _ _ _ _ _ Sh H)).
  assert (E : cs <> []).
  { destruct (some_word s Ws) as [w Hw]. destruct (ss_find s l w Ws El Hw) as (y & Hy & _). destruct (Shown y Hy) as (i & j & H). intros ->. apply (proj2 (Q i j)). unfold P. rewrite (taken_iff _ s l El). eauto. }
  pose proof (coords_nodup _ _ _ Ecs (ss_nodup s l Ws D El)) as Nd.
  destruct (script_in_spec s (tscript t) Ws Wt) as (b & Eb & Hb). assert (b = true) by (apply Hb; exact I). subst b.
  assert (L1 : 1 < n) by exact Hn. pose proof (dim_regular n m cs P Q B) as Reg. pose proof (dim_accept n m cs P Q B) as Acc.
  unfold accept_script. rewrite Kt, Eb. cbn [bind negb]. replace (negb (Nat.eqb (rank t) 0) && Nat.even (rank t)) with false.
  2:{ symmetry. destruct R as [->|R]; [reflexivity|]. apply Nat.odd_spec in R. rewrite <- Nat.negb_odd, R. apply andb_false_r. }
  rewrite T. cbn [bind]. rewrite El. cbn [bind]. rewrite Ecs. cbn [bind]. fold n m. destruct (is_dim_subset n m cs) as [d count].
  destruct (d && Nat.eqb count 1) eqn:X; [exists true, true|destruct (is_connexe_tilling n m cs || d) eqn:Y; [exists true, false|exists false, false]]; (split; [reflexivity|]); split; try tauto.
  apply andb_true_iff in X as [-> _]. rewrite orb_true_r in Acc. tauto.
Qed.

(** * One dimension *)
Lemma sorted_ends l : l <> [] -> In (hd 0 (sort Nat.ltb l)) l /\ In (last (sort Nat.ltb l) 0) l /\ forall x, In x l -> hd 0 (sort Nat.ltb l) <= x <= last (sort Nat.ltb l) 0.
Proof.
  intros Ne. pose proof (sort_perm Nat.ltb l) as P. assert (St : weak_sorted Nat.ltb (sort Nat.ltb l)).
  { apply (sort_sorted Nat.ltb (fun _ => True)); [| | |apply Forall_forall; auto]; intros *; rewrite ?Nat.ltb_lt, ?Nat.ltb_ge, ?Nat.ltb_irrefl; auto; lia. }
  assert (Q : forall x, In x l <-> In x (sort Nat.ltb l)) by (intros x; split; apply Permutation_in; [apply Permutation_sym|]; exact P).
  assert (Ne' : sort Nat.ltb l <> []) by (intros X; rewrite X in P; apply Permutation_nil in P; congruence).
  cut (In (hd 0 (sort Nat.ltb l)) (sort Nat.ltb l) /\ In (last (sort Nat.ltb l) 0) (sort Nat.ltb l) /\ forall x, In x (sort Nat.ltb l) -> hd 0 (sort Nat.ltb l) <= x <= last (sort Nat.ltb l) 0); [intros (X & Y & Z); rewrite <- Q in X, Y; split; [exact X|split; [exact Y|intros x Hx; apply Z; apply Q; exact Hx]]|]. clear P Q Ne. revert St Ne'. generalize (sort Nat.ltb l). clear l. intros l St Ne. destruct l as [|x l]; [congruence|]. clear Ne. cbn [hd]. split; [simpl; auto|].
  revert x St. induction l as [|y l IH]; intros x St.
  - split; [simpl; auto|]. intros z [<-|[]]. simpl. lia.
  - apply StronglySorted_inv in St as [St F]. rewrite Forall_forall in F. destruct (IH y St) as [H1 H2]. change (last (x :: y :: l) 0) with (last (y :: l) 0). split; [right; exact H1|].
    intros z [<-|Hz]; [split; [lia|]; specialize (F _ H1); apply Nat.ltb_ge in F; exact F|]. pose proof (F _ Hz) as Fz. apply Nat.ltb_ge in Fz. split; [exact Fz|apply H2; exact Hz].
Qed.
Lemma line_length l : l <> [] -> NoDup l -> (List.length (sort Nat.ltb l) = last (sort Nat.ltb l) 0 - hd 0 (sort Nat.ltb l) + 1 <-> contiguous (fun i => In i l)).
Proof.
  intros Ne N. destruct (sorted_ends l Ne) as (Hh & Hl & B). rewrite (Permutation_length (sort_perm Nat.ltb l)). set (h := hd 0 _) in *. set (e := last _ 0) in *. clearbody h e. pose proof (B _ Hh) as Bh.
  assert (I : incl l (seq h (e - h + 1))) by (intros x Hx; apply in_seq; specialize (B x Hx); lia). split.
  - intros L i j k Hi Hk Hj. apply (NoDup_length_incl N) in I; [|rewrite seq_length; lia]. apply I. apply in_seq. specialize (B i Hi) as Bi. specialize (B k Hk). lia.
  - intros C. apply Nat.le_antisymm; [rewrite <- (seq_length (e - h + 1) h); apply NoDup_incl_length; assumption|]. rewrite <- (seq_length (e - h + 1) h). apply NoDup_incl_length; [apply seq_NoDup|]. intros x Hx. apply in_seq in Hx.
    destruct (Nat.eq_dec x h) as [->|]; [exact Hh|]. destruct (Nat.eq_dec x e) as [->|]; [exact Hl|]. apply (C h x e); auto. lia.
Qed.
Lemma column_same (a : array) n : shape a n 1 1 -> map (fun r => [hd [] r]) a = a.
Proof.
  intros [_ F]. rewrite <- (map_id a) at 2. apply map_ext_in. intros r Hr. rewrite Forall_forall in F. destruct (F r Hr) as [L _]. destruct r as [|c [|c' r]]; try discriminate. reflexivity.
Qed.
Lemma place1_column a n x : shape a n 1 1 -> place1 a x = (do p <- place2 a x; Ok (fst p)).
Proof. intros Sh. unfold place1. rewrite (column_same a n Sh). reflexivity. Qed.
Lemma mapM_then {A B C} (f : A -> res B) (g : B -> C) l cs : mapM f l = Ok cs -> mapM (fun x => do y <- f x; Ok (g y)) l = Ok (map g cs).
Proof. revert cs. induction l as [|x l IH]; intros cs E; cbn [mapM] in *; [apply Ok_inj in E; subst; reflexivity|]. destruct (f x) as [y|]; cbn [bind] in *; [|discriminate]. destruct (mapM f l) as [ys|]; cbn [bind] in *; [|discriminate]. apply Ok_inj in E. subst cs. rewrite (IH ys eq_refl). reflexivity. Qed.

Lemma accept_line t s x : tkind t = K1D -> table_class (tscript t) = Ok K1D -> wf (tscript t) -> wf s -> tables (tscript t) = Ok x -> once (first_cells x) -> sums_disjoint s -> included s (tscript t) ->
  exists acc, accept_script t s = Ok (acc, acc) /\ (acc = true <-> contiguous (fun i => taken (first_cells x) s i 0)).
Proof.
  intros Kt Kc Wt Ws T O D I. destruct (class_array (tscript t) K1D x Wt Kc T) as [N [C (n & m & Sh & Hn & Hm)]]; [discriminate|auto|]. subst m.
  destruct (ss_total s Ws) as (l & El & Fl & Pl & _).
  assert (Shown : forall y, In y l -> exists i j, shows (first_cells x) i j y).
  { intros y Hy. rewrite Forall_forall in Fl. pose proof (Fl y Hy) as Sy. destruct (some_word y (proj1 Sy)) as [w Hw]. apply (all_shown _ _ _ _ Wt T C Sh w y); [apply I; apply (ss_word s l y w Ws El Hy Hw)|rewrite <- (proj1 I); exact Sy|exact Hw]. }
  destruct (mapM_total (place2 (first_cells x)) l) as [cs Ecs].
  { intros y Hy. destruct (Shown y Hy) as (i & j & H). apply (place2_total _ _ _ _ H). }
  assert (Q : forall i j, In (i, j) cs <-> taken (first_cells x) s i j) by (intros i j; rewrite (taken_iff _ s l El); apply (coords_in _ _ _ O Ecs)).
  assert (B : forall i j, In (i, j) cs -> j = 0) by (intros i j H; rewrite Q, (taken_iff _ s l El) in H; destruct H as (y & _ & H); pose proof (shows_bounds _ _ _ _ _ _ _ Sh H); lia).
  pose proof (coords_nodup _ _ _ Ecs (ss_nodup s l Ws D El)) as Nd.
  assert (Ne : cs <> []).
  { destruct (some_word s Ws) as [w Hw]. destruct (ss_find s l w Ws El Hw) as (y & Hy & _). destruct (Shown y Hy) as (i & j & H). intros ->. apply (proj2 (Q i j)). rewrite (taken_iff _ s l El). eauto. }
  assert (Q1 : forall i, In i (map fst cs) <-> taken (first_cells x) s i 0).
  { intros i. rewrite <- Q, in_map_iff. split; [intros ([i' j] & <- & H); pose proof (B _ _ H); subst j; exact H|intros H; exists (i, 0); auto]. }
  assert (N1 : NoDup (map fst cs)).
  { clear Q Q1 Ne Ecs. induction cs as [|[i j] cs IH]; [constructor|]. inversion_clear Nd as [|? ? X Y]. cbn [map fst]. constructor; [|apply IH; [intros i' j' H; apply (B i' j'); simpl; auto|exact Y]].
    intros H. apply X. apply in_map_iff in H as ([i' j'] & E & H). simpl in E. subst i'. assert (j' = 0) by (apply (B i j'); simpl; auto). assert (j = 0) by (apply (B i j); simpl; auto). subst. exact H. }
  destruct (script_in_spec s (tscript t) Ws Wt) as (b & Eb & Hb). assert (b = true) by (apply Hb; exact I). subst b.
  assert (E1 : mapM (place1 (first_cells x)) l = Ok (map fst cs)).
  { rewrite <- (mapM_then _ fst _ _ Ecs). clear - Sh. induction l as [|y l IH]; [reflexivity|]. cbn [mapM]. rewrite IH, (place1_column _ _ _ Sh). reflexivity. }
  pose proof (line_length (map fst cs)) as Ln. unfold accept_script. rewrite Kt, Eb. cbn [bind negb]. rewrite T. cbn [bind]. rewrite El. cbn [bind]. rewrite E1. cbn [bind]. cbv zeta.
  assert (Z : contiguous (fun i => In i (map fst cs)) <-> contiguous (fun i => taken (first_cells x) s i 0)) by (unfold contiguous; split; intros H i j k; [rewrite <- !Q1|rewrite !Q1]; apply H).
  specialize (Ln ltac:(destruct cs; [congruence|discriminate]) N1).
  destruct (Nat.eqb_spec (List.length (sort Nat.ltb (map fst cs))) (last (sort Nat.ltb (map fst cs)) 0 - hd 0 (sort Nat.ltb (map fst cs)) + 1)) as [X|X]; eexists; (split; [reflexivity|]); rewrite <- Z, <- Ln; split; try tauto; discriminate.
Qed.

(** * Sets of tables *)
Lemma accept_set t s x : tkind t = KSet \/ tkind t = K3D -> wf (tscript t) -> wf s -> tables (tscript t) = Ok x ->
  exists acc, accept_script t s = Ok (acc, false) /\ (acc = true <-> (forall p, tparent t = Some p -> is_set p = false) /\ union_of (t_scripts x) s).
Proof.
  intros K Wt Ws T. pose proof (tables_scripts _ _ Wt T) as Wx. rewrite Forall_forall in Wx. destruct (ss_total s Ws) as (l & El & Fl & _). rewrite Forall_forall in Fl.
  assert (Sub : exists keep, mapM (fun u => script_in u s) (t_scripts x) = Ok keep /\ forall u, In u (map fst (filter snd (combine (t_scripts x) keep))) <-> In u (t_scripts x) /\ included u s).
  { revert Wx. clear - Ws. induction (t_scripts x) as [|u us IH]; intros Wx; [exists []; split; [reflexivity|simpl; tauto]|]. destruct IH as (keep & E & H); [intros v Hv; apply Wx; simpl; auto|]. destruct (script_in_spec u s (proj1 (Wx u (or_introl eq_refl))) Ws) as (b & Eb & Hb).
    exists (b :: keep). cbn [mapM]. rewrite Eb. cbn [bind]. rewrite E. split; [reflexivity|]. intros v. cbn [combine filter snd]. destruct b; cbn [map fst In]; rewrite H; [assert (included u s) by (apply Hb; reflexivity)|assert (~ included u s) by (intros X; apply Hb in X; discriminate)]; intuition (subst; auto; try tauto). }
  destruct Sub as (keep & Ek & Hk). set (kept := filter snd (combine (t_scripts x) keep)) in *.
  assert (Pt : exists parts, mapM (fun u => ss (fst u)) kept = Ok parts /\ List.length parts = List.length kept /\ forall y, In y (List.concat parts) <-> exists u lu, In u (map fst kept) /\ ss u = Ok lu /\ In y lu).
  { assert (Wk : forall u, In u (map fst kept) -> wf u) by (intros u Hu; apply Hk in Hu as [Hu _]; apply Wx; exact Hu). revert Wk. clear. induction kept as [|[u b] k IH]; intros Wk; [exists []; split; [reflexivity|split; [reflexivity|simpl; split; [tauto|intros (u & lu & [] & _)]]]|].
    destruct IH as (parts & E & L & H); [intros v Hv; apply Wk; simpl; auto|]. destruct (ss_total u (Wk u (or_introl eq_refl))) as (lu & Eu & _). exists (lu :: parts). cbn [mapM fst]. rewrite Eu. cbn [bind]. rewrite E. split; [reflexivity|]. split; [simpl; auto|].
    intros y. cbn [List.concat map fst In]. rewrite in_app_iff, H. split.
    - intros [Hy|(v & lv & Hv & Ev & Hy)]; [exists u, lu|exists v, lv]; auto.
    - intros (v & lv & [<-|Hv] & Ev & Hy); [left; rewrite Eu in Ev; apply Ok_inj in Ev; subst; exact Hy|right; eauto]. }
  destruct Pt as (parts & Ep & Lp & Hp).
  assert (One : (negb (Nat.eqb (List.length parts) 0) && forallb (fun y => memb script_eqb y l) (List.concat parts) && forallb (fun y => memb script_eqb y (List.concat parts)) l) = true <-> union_of (t_scripts x) s).
  { rewrite !andb_true_iff, negb_true_iff, Nat.eqb_neq, !forallb_forall. split.
    - intros [[P1 _] P3]. exists (map fst kept). split; [destruct kept; [simpl in Lp; congruence|discriminate]|]. split; [intros u Hu; apply Hk in Hu; tauto|]. split; [intros u Hu; apply Hk in Hu; apply Hu|]. intros w. split.
      + intros Hw. destruct (ss_find s l w Ws El Hw) as (y & Hy & Hyw & Sy). specialize (P3 y Hy). apply memb_text in P3 as (z & Hz & Tz). apply Hp in Hz as (u & lu & Hu & Eu & Hz). exists u. split; [exact Hu|]. assert (Wu : wf u) by (apply Hk in Hu as [Hu _]; apply Wx; exact Hu).
        apply (ss_word u lu z w Wu Eu Hz). apply (same_text y z); [apply Sy|apply (ss_sing u lu z Wu Eu Hz)|congruence|exact Hyw].
      + intros (u & Hu & Hw). apply Hk in Hu. apply Hu. exact Hw.
    - intros (f & Nf & If & Lf & Hf). assert (Fk : forall u, In u f -> In u (map fst kept)) by (intros u Hu; apply Hk; split; [apply If; exact Hu|split; [apply Lf; exact Hu|intros w Hw; apply Hf; eauto]]).
      split; [split|].
      + destruct f as [|u f]; [congruence|]. specialize (Fk u (or_introl eq_refl)). rewrite Lp. destruct kept; [destruct Fk|discriminate].
      + intros y Hy. apply Hp in Hy as (u & lu & Hu & Eu & Hy). apply Hk in Hu as [Hu [Lu Iu]]. assert (Wu : wf u) by (apply Wx; exact Hu). pose proof (ss_sing u lu y Wu Eu Hy) as Sy. destruct (some_word y (proj1 Sy)) as [w Hw]. destruct (ss_find s l w Ws El) as (z & Hz & Hzw & Sz); [apply Iu; apply (ss_word u lu y w Wu Eu Hy Hw)|].
        apply memb_text. exists z. split; [exact Hz|]. rewrite Lu in Sy. apply (sing1_text (layer s)); auto. apply words_means in Hw, Hzw. rewrite (words_single y) in Hw by apply Sy. rewrite (words_single z) in Hzw by apply Sz. destruct Hw as [<-|[]], Hzw as [H|[]]. auto.
      + intros y Hy. pose proof (Fl y Hy) as Sy. destruct (some_word y (proj1 Sy)) as [w Hw]. destruct (proj1 (Hf w)) as (u & Hu & Huw); [apply (ss_word s l y w Ws El Hy Hw)|]. assert (Wu : wf u) by (apply Wx; apply If; exact Hu). destruct (ss_total u Wu) as (lu & Eu & _). destruct (ss_find u lu w Wu Eu Huw) as (z & Hz & Hzw & Sz).
        apply memb_text. exists z. split; [apply Hp; exists u, lu; split; [apply Fk; exact Hu|auto]|]. rewrite (Lf u Hu) in Sz. apply (sing1_text (layer s)); auto. apply words_means in Hw, Hzw. rewrite (words_single y) in Hw by apply Sy. rewrite (words_single z) in Hzw by apply Sz. destruct Hw as [<-|[]], Hzw as [H|[]]. auto. }
  unfold accept_script. rewrite T. cbn [bind]. rewrite Ek. cbn [bind]. fold kept. rewrite Ep. cbn [bind]. rewrite El. cbn [bind].
  assert (Par : (match tparent t with Some p => is_set p | None => false end) = false <-> (forall p, tparent t = Some p -> is_set p = false)) by (destruct (tparent t) as [p|]; [split; [intros H q E; injection E as <-; exact H|intros H; apply H; reflexivity]|split; [discriminate|reflexivity]]).
  destruct K as [K|K]; rewrite K; (destruct (match tparent t with Some p => is_set p | None => false end); [exists false; split; [reflexivity|rewrite <- Par; split; [discriminate|intros [X _]; discriminate]]|]);
    (destruct (negb (Nat.eqb (List.length parts) 0) && forallb (fun y => memb script_eqb y l) (List.concat parts) && forallb (fun y => memb script_eqb y (List.concat parts)) l); eexists; (split; [reflexivity|]); rewrite <- Par, <- One; split; tauto).
Qed.
