(** Properties of the place of tables. *)
From Coq Require Import List String Ascii Bool NArith Arith Lia Permutation.
From Verif Require Import Base Script ScriptParser SortProofs ScriptWf ScriptOrderProofs ScriptSpec ScriptCtorProofs ScriptSeqProofs ScriptMoreProofs ScriptAlgProofs ScriptParseProofs ScriptEqProofs Tables TablesSpec TablesProofs TablesGridProofs Properties1 Properties14 Dictionary DictionarySpec DictTableProofs DictLoadProofs DictRelProofs DictTopProofs DictAcceptProofs DictParentProofs Properties16.
Import ListNotations.
Local Open Scope string_scope.

(** * C67: which scripts a table accepts *)
(** [t] is a table for its script, of the class its script asks for. *)
Definition proper (t : table) : Prop := wf (tscript t) /\ table_class (tscript t) = Ok (tkind t).

(** The class of a script with several words depends on its arrays only: several arrays, or one of so many tables, of so many columns. *)
Theorem C67_class : forall s x, wf s -> tables s = Ok x -> exists k, table_class s = Ok k /\ (k = KCell <-> cardinal s = 1%N) /\
  (cardinal s <> 1%N -> (k = KSet <-> 2 <= List.length (t_cells x)) /\ (k = K3D <-> exists a, t_cells x = [a] /\ 2 <= tabs_of a) /\
     (k = K2D <-> exists a, t_cells x = [a] /\ tabs_of a = 1 /\ 2 <= cols_of a) /\ (k = K1D <-> exists a, t_cells x = [a] /\ tabs_of a = 1 /\ cols_of a = 1)).
Proof.
  intros s x W T. destruct (N.eq_dec (cardinal s) 1) as [C|C].
  - exists KCell. split; [unfold table_class; rewrite C; reflexivity|]. split; [tauto|intros H; contradiction].
  - rewrite (class_total s x W C T). eexists. split; [reflexivity|]. destruct (tables_shape s x W C T) as [R Ne]. destruct (t_scripts x) as [|s1 [|s2 ls]] eqn:Es.
    + destruct R as [F L]. rewrite Es in L. destruct (t_cells x) as [|a l]; [congruence|]. apply Forall_cons_iff in F as [(n & m & q & Sh & Hn & Hm & Hq & _) _]. cbn [map list_sum fold_right List.length] in L. rewrite (shape_tabs _ _ _ _ Sh) in L by lia. lia.
    + destruct (one_script x R Ne ltac:(rewrite Es; reflexivity)) as (Ec & n & m & Sh & Hn & Hm). destruct (in_rows_of _ _ _ _ Sh ltac:(lia)) as [_ D2]. pose proof (shape_tabs _ _ _ _ Sh ltac:(lia) Hm) as D3. rewrite Ec. set (a := first_cells x) in *. clearbody a. rewrite D2.
      split; [split; [destruct (Nat.eqb m 1); discriminate|intros E; contradiction]|]. intros _. cbn [List.length].
      split; [split; [destruct (Nat.eqb m 1); discriminate|lia]|]. split; [split; [destruct (Nat.eqb m 1); discriminate|intros (b & E & H); injection E as <-; lia]|].
      destruct (Nat.eqb_spec m 1) as [M|M]; (split; split; try discriminate; try (intros (b & E & H1 & H2); injection E as <-; lia); intros _); try reflexivity; exists a; repeat split; lia.
    + assert (K : match t_cells x with [_] => K3D | _ => KSet end <> KCell) by (destruct (t_cells x) as [|? [|? ?]]; discriminate). split; [split; [intros E; contradiction|intros E; contradiction]|]. intros _.
      destruct R as [F L]. rewrite Es in L. destruct (t_cells x) as [|a [|b l]]; [congruence| |].
      * cbn [map list_sum fold_right List.length] in L |- *. split; [split; [discriminate|lia]|]. split; [split; [intros _; exists a; split; [reflexivity|lia]|reflexivity]|]. split; (split; [discriminate|intros (b & E & H1 & H2); injection E as <-; lia]).
      * cbn [List.length]. split; [split; [lia|reflexivity]|]. split; [|split]; (split; [discriminate|intros (z & E & _); discriminate]).
Qed.
Print Assumptions C67_class.
Example C67_class_case : map (fun s => (cardinal (text s), match table_class (text s) with Ok k => Some k | Err _ => None end)) ["S:"; "M:"; "M:M:."; "M:M:M:."; "O:M:.+M:O:."] =
  [(1%N, Some KCell); (3%N, Some K1D); (9%N, Some K2D); (27%N, Some K3D); (12%N, Some KSet)].
Proof. vm_compute. reflexivity. Qed.

Theorem C67_inside : forall t s regular, proper t -> wf s -> accept_script t s = Ok (true, regular) -> included s (tscript t).
Proof. intros t s b [Wt _] Ws A. exact (accept_inside t s b Wt Ws A). Qed.

Theorem C67_grid : forall t s x, proper t -> tkind t = K2D -> wf s -> tables (tscript t) = Ok x -> sums_disjoint (tscript t) -> sums_disjoint s -> included s (tscript t) ->
  let n := rows_of (first_cells x) in let m := cols_of (first_cells x) in let P := taken (first_cells x) s in
  (rank t = 0 \/ Nat.Odd (rank t) -> exists accepted regular, accept_script t s = Ok (accepted, regular) /\
     (accepted = true <-> all_rows n P \/ all_columns m P \/ block n m P) /\ (regular = true <-> a_row n m P \/ a_col n m P)) /\
  (rank t <> 0 -> Nat.Even (rank t) -> accept_script t s = Ok (false, false)).
Proof.
  intros t s x [Wt K] Kt Ws T Dt Ds I n m P. rewrite Kt in K. destruct (class_array (tscript t) K2D x Wt K T) as [N _]; [discriminate|]. split.
  - intros R. exact (accept_grid t s x Kt K Wt Ws T (once_disjoint _ _ Wt N Dt T) Ds I R).
  - intros R0 R. unfold accept_script. rewrite Kt. destruct (script_in_spec s (tscript t) Ws Wt) as (b & -> & Hb). assert (b = true) by (apply Hb; exact I). subst b. cbn [bind negb]. apply Nat.even_spec in R. rewrite (proj2 (Nat.eqb_neq _ _) R0), R. reflexivity.
Qed.
Theorem C67_line : forall t s x, proper t -> tkind t = K1D -> wf s -> tables (tscript t) = Ok x -> sums_disjoint (tscript t) -> sums_disjoint s -> included s (tscript t) ->
  exists accepted, accept_script t s = Ok (accepted, accepted) /\ (accepted = true <-> contiguous (fun i => taken (first_cells x) s i 0)).
Proof.
  intros t s x [Wt K] Kt Ws T Dt Ds I. rewrite Kt in K. destruct (class_array (tscript t) K1D x Wt K T) as [N _]; [discriminate|]. exact (accept_line t s x Kt K Wt Ws T (once_disjoint _ _ Wt N Dt T) Ds I).
Qed.
Theorem C67_set : forall t s x, proper t -> (tkind t = K3D \/ tkind t = KSet) -> wf s -> tables (tscript t) = Ok x ->
  exists accepted, accept_script t s = Ok (accepted, false) /\
  (accepted = true <-> (forall p, tparent t = Some p -> tkind p <> K3D /\ tkind p <> KSet) /\ union_of (t_scripts x) s).
Proof.
  intros t s x [Wt K] Kt Ws T. destruct (accept_set t s x (proj1 (or_comm _ _) Kt) Wt Ws T) as (acc & E & H). exists acc. split; [exact E|]. rewrite H. assert (X : forall p, is_set p = false <-> tkind p <> K3D /\ tkind p <> KSet) by (intros p; unfold is_set; destruct (tkind p); intuition congruence).
  split; intros [A B]; (split; [|exact B]); intros p P; apply X; auto.
Qed.
Print Assumptions C67_inside.
Print Assumptions C67_grid.
Print Assumptions C67_line.
Print Assumptions C67_set.

Section Place.
  Variable so : list script -> list script.
  Hypothesis SO : set_order so.
  Variables (paradigms : list string) (rows : list (string * string * string)) (d : dictionary).
  Hypothesis Made : make_dictionary so paradigms rows = Ok d.

  (** The ranks *)
  Theorem C67_ranks : forall r ts t, In (r, ts) (d_forest d) -> In t ts ->
    (tkind t = KCell <-> cardinal (tscript t) = 1%N) /\ (tkind t = KCell -> rank t = 6) /\
    (tkind t <> KCell -> match tparent t with
                         | None => rank t = 0
                         | Some p => rank t = match tkind p with K3D | KSet => max 1 (rank p) | _ => if tregular t then max 1 (rank p) + 2 else max 1 (rank p) + 1 end
                         end).
  Proof.
    intros r ts t He Ht. destruct (make_spec so SO _ _ _ Made) as (all & A). destruct (forest_tree so SO _ _ _ _ A r ts He) as (_ & Wr & ps & t0 & more & cells & T & I & Wp). split.
    - apply (tree_in _ _ _ _ _ _ T) in Ht as [->|[Ht|(x & Hx & ->)]].
      + destruct (tree_root _ _ _ _ _ _ T) as (k & Ek & ->). apply (class_cell _ _ Ek).
      + destruct T as (_ & _ & _ & F & _). rewrite Forall_forall in F. destruct (F t Ht) as (_ & K & p & _ & _ & _ & _ & C). tauto.
      + destruct T as (_ & _ & E & _). destruct (ss_sing r cells x Wr E Hx) as (_ & C & _). cbn. tauto.
    - clear. destruct t as [k s p g]. cbn [tkind tparent tregular rank]. split; [intros ->; reflexivity|]. intros K. destruct k; try congruence; (destruct p as [p|]; [|reflexivity]); rewrite (Nat.max_comm 1); unfold is_set; destruct (tkind p); reflexivity.
  Qed.
  (** What the tables of a dictionary are *)
  Theorem C67_proper_partial : tidy so paradigms -> forall r ts t, In (r, ts) (d_forest d) -> In t ts -> proper t.
  Proof.
    intros Td r ts t He Ht. destruct (make_both so SO _ _ _ Made) as (all & A & Co). split; [eapply forest_table; eauto|eapply table_kind; eauto].
  Qed.
  (** The table of a paradigm hangs under the smallest of the tables which accept it, among the root and
      those with more singular sequences. *)
  Theorem C67_parent_partial : tidy so paradigms -> forall r ts t p, In (r, ts) (d_forest d) -> In t ts -> tkind t <> KCell -> tparent t = Some p ->
    In p ts /\ accept_script p (tscript t) = Ok (true, tregular t) /\
    forall q regular, In q ts -> (tparent q = None \/ (cardinal (tscript t) < cardinal (tscript q))%N) -> accept_script q (tscript t) = Ok (true, regular) -> q = p \/ lt (tscript p) (tscript q) = true.
  Proof. intros Td r ts t p. destruct (make_both so SO _ _ _ Made) as (all & A & Co). eapply table_place; eauto. Qed.
  (** A paradigm which has no table is refused by the roots and by all the tables with more singular
      sequences. *)
  Theorem C67_refused_partial : tidy so paradigms -> forall p s, In p paradigms -> parse so p = Ok s -> cardinal s <> 1%N ->
    (forall t, marks so rows "is_ignored" t -> str t <> str s) -> (forall w, means s w -> exists r, In r (d_root_scripts d) /\ means r w) ->
    (forall r ts t, In (r, ts) (d_forest d) -> In t ts -> str (tscript t) <> str s) ->
    exists x, str x = str s /\ ~ member d s /\
    forall r ts q regular, In (r, ts) (d_forest d) -> In q ts -> (tparent q = None \/ (cardinal s < cardinal (tscript q))%N) -> accept_script q x <> Ok (true, regular).
  Proof.
    intros Td p s Hp Ps Cs Ni Cov No. destruct (make_both so SO _ _ _ Made) as (all & A & Co). pose proof Co as (_ & _ & _ & _ & _ & Kept). destruct (Kept p s Hp Ps) as (x & Hx & Ex); [intros t M; apply Ni; apply marked_marks; exact M|exact Cov|].
    exists x. split; [exact Ex|]. pose proof (Wall so _ _ _ _ A) as W. rewrite Forall_forall in W. pose proof (constructible_wf _ (parse_constructible so SO _ _ Ps)) as Ws. destruct (eq_attributes x s (W x Hx) Ws Ex) as [(_ & _ & Ec & _) _]. split.
    - intros (y & Hy & Ey). destruct (scripts_all so _ _ _ _ A y Hy) as [Ha [C|[t Ht]]].
      + destruct (eq_attributes y s (W y Ha) Ws Ey) as [(_ & _ & Ey' & _) _]. congruence.
      + destruct (table_of_some _ _ _ Ht) as ([r ts] & He & Hin & E). apply (No r ts t He Hin). congruence.
    - intros r ts q b He Hq B. rewrite <- Ec in B. refine (table_refused so SO _ _ _ _ A Co Td x Hx _ _ r ts q b He Hq B); [congruence|]. intros r' ts' t' He' Ht'. rewrite Ex. eapply No; eauto.
  Qed.
  (** Under a grid: whole rows and columns are regular; the others have a place in every row, or in
      every column, or form a block. *)
  Theorem C67_under_grid_partial : tidy so paradigms -> forall r ts t p x, In (r, ts) (d_forest d) -> In t ts -> tkind t <> KCell -> tparent t = Some p -> tkind p = K2D ->
    sums_disjoint (tscript p) -> sums_disjoint (tscript t) -> tables (tscript p) = Ok x ->
    let n := rows_of (first_cells x) in let m := cols_of (first_cells x) in let P := taken (first_cells x) (tscript t) in
    (rank p = 0 \/ Nat.Odd (rank p)) /\ (tregular t = true <-> a_row n m P \/ a_col n m P) /\ (all_rows n P \/ all_columns m P \/ block n m P).
  Proof.
    intros Td r ts t p x He Ht K Ep Kp Dp Dt T n m P. destruct (C67_parent_partial Td r ts t p He Ht K Ep) as (Hp & A & _). pose proof (C67_proper_partial Td r ts p He Hp) as Pp. destruct (C67_proper_partial Td r ts t He Ht) as [Wt _].
    pose proof (C67_inside p (tscript t) _ Pp Wt A) as I. destruct (C67_grid p (tscript t) x Pp Kp Wt T Dp Dt I) as [G Ev]. destruct (Nat.eq_dec (rank p) 0) as [R0|R0].
    - destruct G as (acc & reg & E & Ha & Hr); [auto|]. rewrite E in A. apply Ok_inj in A. injection A as -> ->. tauto.
    - destruct (Nat.Even_or_Odd (rank p)) as [Re|Ro]; [rewrite (Ev R0 Re) in A; discriminate|]. destruct G as (acc & reg & E & Ha & Hr); [auto|]. rewrite E in A. apply Ok_inj in A. injection A as -> ->. tauto.
  Qed.
End Place.
Print Assumptions C67_ranks.
Print Assumptions C67_proper_partial.
Print Assumptions C67_parent_partial.
Print Assumptions C67_refused_partial.
Print Assumptions C67_under_grid_partial.

(** ** Examples *)
Definition P7 := ["M:"; "S:+B:"; "S:+T:"; "M:M:."; "S:M:."; "s.+m.+l."; "s.+b."; "M:S:.+M:B:."; "S:+B:S:+B:."; "O:M:.+M:O:."; "O:M:."].
Definition R7 := [("M:", "is_root", "True"); ("M:M:.", "is_root", "true"); ("O:M:.+M:O:.", "is_root", "true")].
Definition d7 : dictionary := match make_dictionary ident P7 R7 with Ok d => d | Err _ => none end.
Lemma d7_made : make_dictionary ident P7 R7 = Ok d7.
Proof. vm_compute. reflexivity. Qed.
Lemma d7_tidy : tidy ident P7.
Proof. intros p s H E. repeat (destruct H as [<-|H]; [vm_compute in E; apply Ok_inj in E; subst s; vm_compute; reflexivity|]). destruct H. Qed.
Definition outline (d : dictionary) : list (string * list (string * kind * nat * bool * option string)) :=
  map (fun e => (str (fst e), map (fun t => (str (tscript t), tkind t, rank t, tregular t, option_map (fun p => str (tscript p)) (tparent t))) (filter (fun t => negb (N.eqb (cardinal (tscript t)) 1)) (snd e)))) (d_forest d).
Example C67_case : outline d7 =
  [("M:", [("M:", K1D, 0, false, None); ("S:+B:", K1D, 3, true, Some "M:")]);
   ("M:M:.", [("M:M:.", K2D, 0, false, None); ("M:S:.+M:B:.", KSet, 2, false, Some "M:M:."); ("S:+B:S:+B:.", K2D, 2, false, Some "M:M:."); ("s.+m.+l.", K1D, 2, false, Some "M:M:."); ("S:M:.", K1D, 3, true, Some "M:M:."); ("s.+b.", K1D, 5, true, Some "S:M:.")]);
   ("O:M:.+M:O:.", [("O:M:.+M:O:.", KSet, 0, false, None); ("O:M:.", K2D, 1, false, Some "O:M:.+M:O:.")])] /\
  ~ member d7 (text "S:+T:").
Proof. split; [vm_compute; reflexivity|]. rewrite <- member_b_ok. vm_compute. discriminate. Qed.

Definition taken_b (a : array) (s : script) (i j : nat) : bool :=
  match ss s, cell_at a [i; j; 0] with Ok l, Some (Some y) => memb script_eqb y l | _, _ => false end.
Lemma taken_b_ok a s i j : taken_b a s i j = true <-> taken a s i j.
Proof.
  unfold taken_b, taken, shows. destruct (ss s) as [l|]; [|split; [discriminate|intros (l & x & E & _); discriminate]]. destruct (cell_at a [i; j; 0]) as [[y|]|].
  - rewrite memb_text. split; [intros (x & Hx & E); exists l, x; split; [reflexivity|]; split; [exact Hx|]; exists y; auto|intros (l' & x & E & Hx & z & Ez & Tz); apply Ok_inj in E; subst l'; injection Ez as <-; eauto].
  - split; [discriminate|intros (l' & x & E & Hx & z & Ez & Tz); discriminate].
  - split; [discriminate|intros (l' & x & E & Hx & z & Ez & Tz); discriminate].
Qed.
Definition grid7 := Tab K2D (text "M:M:.") None false.
Definition cells7 (t : string) : array := match tables (text t) with Ok x => first_cells x | Err _ => [] end.
Ltac is_proper := split; [apply constructible_wf; text_ok|vm_compute; reflexivity].
Ltac fits := apply inside_in; [apply constructible_wf; text_ok|apply constructible_wf; text_ok|vm_compute; reflexivity].
Ltac apart := apply by_texts; [text_ok|vm_compute; reflexivity].
(** The premises of C67_grid, C67_line, C67_set, with scripts which are accepted and refused. *)
Example C67_grid_case : proper grid7 /\ sums_disjoint (text "M:M:.") /\ sums_disjoint (text "S:M:.") /\ included (text "S:M:.") (text "M:M:.") /\ a_row 3 3 (taken (cells7 "M:M:.") (text "S:M:.")) /\
  accept_script grid7 (text "S:M:.") = Ok (true, true) /\ accept_script grid7 (text "S:+B:S:+B:.") = Ok (true, false) /\ accept_script grid7 (text "s.+b.") = Ok (false, false).
Proof.
  split; [is_proper|]. split; [apart|]. split; [apart|]. split; [fits|]. split; [|split; [|split]; vm_compute; reflexivity].
  exists 0. split; [lia|]. intros i j Hi Hj. rewrite <- taken_b_ok. destruct i as [|[|[|i]]], j as [|[|[|j]]]; try lia; vm_compute; split; congruence.
Qed.
Example C67_line_case : proper (Tab K1D (text "M:") None false) /\ sums_disjoint (text "M:") /\ sums_disjoint (text "S:+B:") /\ included (text "S:+T:") (text "M:") /\
  accept_script (Tab K1D (text "M:") None false) (text "S:+B:") = Ok (true, true) /\ accept_script (Tab K1D (text "M:") None false) (text "S:+T:") = Ok (false, false).
Proof. split; [is_proper|]. split; [apart|]. split; [apart|]. split; [fits|]. split; vm_compute; reflexivity. Qed.
Example C67_set_case : proper (Tab KSet (text "O:M:.+M:O:.") None false) /\
  accept_script (Tab KSet (text "O:M:.+M:O:.") None false) (text "O:M:.") = Ok (true, false) /\ accept_script (Tab KSet (text "O:M:.+M:O:.") None false) (text "U:M:.") = Ok (false, false) /\
  accept_script (Tab KSet (text "O:M:.+M:O:.") (Some (Tab KSet (text "O:M:.+M:O:.") None false)) false) (text "O:M:.") = Ok (false, false).
Proof. split; [is_proper|]. repeat split; vm_compute; reflexivity. Qed.
(** A table of rank 2 need not be made of the meetings of some rows and some columns: the diagonal has a
    place in every row. *)
Theorem C67_diagonal_refuted : make_dictionary ident P7 R7 = Ok d7 /\
  (exists r ts t, In (r, ts) (d_forest d7) /\ In t ts /\ tscript t = text "s.+m.+l." /\ tparent t = Some grid7 /\ rank t = 2) /\
  exists x, tables (tscript grid7) = Ok x /\ let P := taken (first_cells x) (text "s.+m.+l.") in P 0 0 /\ P 1 1 /\ ~ P 0 1.
Proof.
  split; [exact d7_made|]. split.
  - assert (F : exists e0 r ts e2 t0 t1 t2 t3 l, d_forest d7 = [e0; (r, ts); e2] /\ ts = t0 :: t1 :: t2 :: t3 :: l /\ tscript t3 = text "s.+m.+l." /\ tparent t3 = Some grid7 /\ rank t3 = 2) by (do 9 eexists; split; [vm_compute; reflexivity|]; split; [reflexivity|vm_compute; auto]).
    destruct F as (e0 & r & ts & e2 & t0 & t1 & t2 & t3 & l & E & Et & H). exists r, ts, t3. split; [rewrite E; simpl; auto|]. split; [rewrite Et; simpl; auto|exact H].
  - eexists. split; [vm_compute; reflexivity|]. cbv zeta. rewrite <- !taken_b_ok. vm_compute. repeat split; congruence.
Qed.
Print Assumptions C67_diagonal_refuted.
Example C67_refused_case : In "S:+T:" P7 /\ parse ident "S:+T:" = Ok (text "S:+T:") /\ cardinal (text "S:+T:") <> 1%N /\ (forall t, marks ident R7 "is_ignored" t -> str t <> str (text "S:+T:")) /\
  (forall w, means (text "S:+T:") w -> exists r, In r (d_root_scripts d7) /\ means r w) /\ (forall r ts t, In (r, ts) (d_forest d7) -> In t ts -> str (tscript t) <> str (text "S:+T:")).
Proof.
  split; [simpl; auto|]. split; [vm_compute; reflexivity|]. split; [vm_compute; discriminate|]. split; [intros t (v & (p & x & [H|[H|[H|[]]]] & _) & _); discriminate|]. split.
  - intros w Hw. exists (text "M:"). split; [assert (E : exists l, d_root_scripts d7 = text "M:" :: l) by (eexists; vm_compute; reflexivity); destruct E as [l E]; rewrite E; simpl; auto|]. assert (I : included (text "S:+T:") (text "M:")) by fits. apply I, Hw.
  - assert (F : forallb (fun e => forallb (fun t => negb (String.eqb (str (tscript t)) "S:+T:")) (snd e)) (d_forest d7) = true) by (vm_compute; reflexivity). rewrite forallb_forall in F. intros r ts t He Ht. specialize (F _ He). cbn [snd] in F. rewrite forallb_forall in F. specialize (F t Ht). apply negb_true_iff, String.eqb_neq in F. exact F.
Qed.
