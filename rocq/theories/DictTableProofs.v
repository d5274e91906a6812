(** Proofs about the forest of tables of a dictionary. *)
From Coq Require Import List String Bool NArith Arith Lia Permutation.
From Verif Require Import Base Script ScriptParser SortProofs ScriptWf ScriptStrProofs ScriptOrderProofs ScriptSpec ScriptCtorProofs ScriptParseProofs ScriptSeqProofs ScriptMoreProofs ScriptAlgProofs ScriptEqProofs Tables TablesSpec TablesProofs TablesGridProofs TablesAllProofs Dictionary DictionarySpec.
Import ListNotations.

(** * Inclusion *)
Notation inside := included.
Lemma inside_in u s : wf u -> wf s -> (script_in u s = Ok true <-> inside u s).
Proof. intros Wu Ws. destruct (script_in_spec u s Wu Ws) as (r & E & H). rewrite E. rewrite <- H. split; [intros X; now apply Ok_inj in X|intros ->; reflexivity]. Qed.
Lemma inside_refl s : inside s s.
Proof. split; auto. Qed.
Lemma inside_trans a b c : inside a b -> inside b c -> inside a c.
Proof. intros [L H] [L' H']. split; [congruence|auto]. Qed.
Lemma script_eqb_str a b : script_eqb a b = true <-> str a = str b.
Proof. apply String.eqb_eq. Qed.
Lemma same_text a b : wf a -> wf b -> str a = str b -> inside a b.
Proof. intros Wa Wb E. destruct (eq_attributes a b Wa Wb E) as (_ & L & M). split; [exact L|]. intros w. apply M. Qed.

(** * The scripts of the tables *)
Lemma mk3_inside a b c x y z s : wf (Mul a b c) -> wf x -> wf y -> wf z -> (forall w, means x w -> means a w) -> (forall w, means y w -> means b w) -> (forall w, means z w -> means c w) ->
  layer x = layer a -> mk_mul_l [x; y; z] = Ok s -> wf s /\ inside s (Mul a b c).
Proof.
  intros W Wx Wy Wz Ix Iy Iz Lx E. destruct (mk3_words x y z s Wx Wy Wz E) as (Ws & Ls & _ & _ & Es). split; [exact Ws|]. split; [cbn [layer]; congruence|].
  intros w Hw. apply words_means in Hw. rewrite Es in Hw. apply words_means. cbn [words]. apply in_map_iff in Hw as ([[u v] t] & <- & H). apply in_product3 in H as (Hu & Hv & Ht).
  apply in_map_iff. exists (u, v, t). split; [reflexivity|]. apply in_product3. split; [|split]; apply words_means; [apply Ix|apply Iy|apply Iz]; apply words_means; assumption.
Qed.
Lemma tables_scripts s t : wf s -> tables s = Ok t -> Forall (fun u => wf u /\ inside u s) (t_scripts t).
Proof.
  intros W. destruct (N.eq_dec (cardinal s) 1) as [C|N].
  { intros E. assert (E' : tables s = Ok {| t_cells := [[[[Some s]]]]; t_scripts := [s]; t_headers := [] |}) by (destruct s; cbn [tables]; rewrite (proj2 (N.eqb_eq _ _) C); reflexivity).
    rewrite E' in E. apply Ok_inj in E. subst t. constructor; [split; [exact W|apply inside_refl]|constructor]. }
  revert t W N. induction s as [l|p|a b c IHa IHb IHc|cs IH] using script_ind'; intros t W N E; try (simpl in N; congruence).
  - pose proof (Wa a b c W) as Wa. pose proof (Wb a b c W) as Wb. pose proof (Wc a b c W) as Wc. rewrite tables_mul in E by exact N.
    assert (Self : Forall (fun u => wf u /\ inside u (Mul a b c)) [Mul a b c]) by (constructor; [split; [exact W|apply inside_refl]|constructor]).
    assert (G : grid a b c = Ok t -> Forall (fun u => wf u /\ inside u (Mul a b c)) (t_scripts t)).
    { clear E. intros E. unfold grid in E. destruct (existsb _ (plurals a b c)); [discriminate|].
      destruct (mapM _ (plurals a b c)) as [axes|]; cbn [bind] in E; [|discriminate]. destruct (ss (Mul a b c)) as [own|]; cbn [bind] in E; [|discriminate]. destruct (mapM (position axes) own) as [ps|]; cbn [bind] in E; [|discriminate].
      assert (D : (do h <- mapM (fun ax => mapM (with_nth a b c (fst ax)) (snd ax)) axes; Ok {| t_cells := [fill (map (fun e => cardinal (snd e)) (plurals a b c)) (combine own ps)]; t_scripts := [Mul a b c]; t_headers := [h] |}) = Ok t -> Forall (fun u => wf u /\ inside u (Mul a b c)) (t_scripts t)).
      { clear E. intros E. destruct (mapM _ axes) as [h|]; cbn [bind] in E; [|discriminate]. apply Ok_inj in E. subst t. exact Self. }
      destruct axes as [|a1 [|a2 [|a3 [|a4 ax]]]]; auto.
      destruct (ss a) as [la|]; cbn [bind] in E; [|discriminate]. destruct (ss b) as [lb|]; cbn [bind] in E; [|discriminate]. destruct (ss_total c Wc) as (lc & Ec & Fc & Pc & _). rewrite Ec in E. cbn [bind] in E.
      destruct (mapM _ lc) as [ts|] eqn:Et; cbn [bind] in E; [|discriminate]. match type of E with context[do h <- ?m; _] => destruct m end; cbn [bind] in E; [|discriminate]. apply Ok_inj in E. subst t. cbn [t_scripts].
      apply Forall_forall. intros u Hu. destruct (mapM_in _ _ _ _ Et Hu) as (z & Hz & Ez). rewrite Forall_forall in Fc. destruct (Fc z Hz) as (Wz & Cz & _).
      apply (mk3_inside a b c a b z u); auto. intros w Hw. apply words_means in Hw. rewrite (words_single z Wz Cz) in Hw. destruct Hw as [<-|[]]. apply words_means. eapply Permutation_in; [exact Pc|]. now apply in_map. }
    assert (Ch : forall n x u, with_nth a b c n x = Ok u -> wf x /\ inside x (match n with 0 => a | 1 => b | _ => c end) -> wf u /\ inside u (Mul a b c)).
    { intros n x u Eu [Wx [Lx Ix]]. destruct n as [|[|n]]; cbn [with_nth] in Eu; [apply (mk3_inside a b c x b c u)|apply (mk3_inside a b c a x c u)|apply (mk3_inside a b c a b x u)]; auto. }
    assert (Fc : forall n u, from_child a b c n u = Ok t -> Forall (fun x => wf x /\ inside x (match n with 0 => a | 1 => b | _ => c end)) (t_scripts u) -> Forall (fun u => wf u /\ inside u (Mul a b c)) (t_scripts t)).
    { clear E. intros n u E F. unfold from_child in E. destruct (ss (Mul a b c)) as [own|]; cbn [bind] in E; [|discriminate]. destruct (mapM (mapM _) (t_cells u)) as [cs|]; cbn [bind] in E; [|discriminate].
      destruct (mapM (with_nth a b c n) (t_scripts u)) as [ts|] eqn:Et; cbn [bind] in E; [|discriminate]. match type of E with context[do h <- ?m; _] => destruct m end; cbn [bind] in E; [|discriminate]. apply Ok_inj in E. subst t. cbn [t_scripts].
      apply Forall_forall. intros v Hv. destruct (mapM_in _ _ _ _ Et Hv) as (x & Hx & Ex). rewrite Forall_forall in F. eapply Ch; [exact Ex|]. apply F, Hx. }
    assert (Pl : plurals a b c = filter (fun e => several (snd e)) [(0, a); (1, b); (2, c)]) by reflexivity. cbn [filter snd] in Pl.
    destruct (several a) eqn:Sa, (several b) eqn:Sb, (several c) eqn:Sc; rewrite Pl in E; try (apply G; exact E); rewrite ?several_yes in *.
    + destruct (tables a) as [u|] eqn:Eu; cbn [bind] in E; [|discriminate]. eapply (Fc 0 u); eauto.
    + destruct (tables b) as [u|] eqn:Eu; cbn [bind] in E; [|discriminate]. eapply (Fc 1 u); eauto.
    + destruct (tables c) as [u|] eqn:Eu; cbn [bind] in E; [|discriminate]. eapply (Fc 2 u); eauto.
  - rewrite tables_add in E by exact N. destruct (existsb (fun c => negb (paradigm c)) cs) eqn:Ex.
    + destruct (ss (Add cs)) as [l|]; cbn [bind] in E; [|discriminate]. apply Ok_inj in E. subst t. constructor; [split; [exact W|apply inside_refl]|constructor].
    + assert (Hall : forall y, In y cs -> cardinal y <> 1%N).
      { intros y Hy C. apply cardinal_paradigm in C; [|apply (wf_add_in cs y W Hy)]. assert (existsb (fun c => negb (paradigm c)) cs = true) by (apply existsb_exists; exists y; rewrite C; auto). congruence. }
      assert (X : forall l u, incl l cs -> all_tables l = Ok u -> Forall (fun x => wf x /\ inside x (Add cs)) (t_scripts u)).
      { induction l as [|x l IHl]; intros u I Eu; cbn [all_tables] in Eu.
        - apply Ok_inj in Eu. subst u. constructor.
        - assert (Hx : In x cs) by (apply I; simpl; auto). destruct (wf_add_in cs x W Hx) as (Wx & _ & Lx). destruct (tables x) as [v|] eqn:Ev; cbn [bind] in Eu; [|discriminate].
          destruct (all_tables l) as [v'|] eqn:Ev'; cbn [bind] in Eu; [|discriminate]. apply Ok_inj in Eu. subst u. cbn [t_scripts]. apply Forall_app. split.
          + rewrite Forall_forall in IH. eapply Forall_impl; [|apply (IH x Hx v Wx (Hall x Hx) Ev)]. intros z [Wz Iz]. split; [exact Wz|]. apply (inside_trans z x); [exact Iz|]. split; [exact Lx|].
            intros w Hw. apply words_means. cbn [words]. apply in_flat_map. exists x. split; [exact Hx|]. now apply words_means.
          + apply IHl; [intros z Hz; apply I; simpl; auto|reflexivity]. }
      exact (X cs t (incl_refl cs) E).
Qed.

(** * The tables accept what is inside *)
Lemma memb_text x l : memb script_eqb x l = true <-> exists y, In y l /\ str y = str x.
Proof.
  unfold memb. rewrite existsb_exists. split; intros (y & Hy & E); exists y; (split; [exact Hy|]).
  - apply script_eqb_str in E. congruence.
  - apply script_eqb_str. congruence.
Qed.
Lemma ss_word s l x w : wf s -> ss s = Ok l -> In x l -> means x w -> means s w.
Proof.
  intros W E Hx Hw. destruct (ss_total s W) as (l' & E' & F & P & _). rewrite E in E'. apply Ok_inj in E'. subst l'. rewrite Forall_forall in F. destruct (F x Hx) as (Wx & Cx & _).
  apply words_means in Hw. rewrite (words_single x Wx Cx) in Hw. destruct Hw as [<-|[]]. apply words_means. eapply Permutation_in; [exact P|]. now apply in_map.
Qed.
Lemma ss_find s l w : wf s -> ss s = Ok l -> means s w -> exists x, In x l /\ means x w /\ sing1 (layer s) x.
Proof.
  intros W E Hw. destruct (ss_total s W) as (l' & E' & F & P & _). rewrite E in E'. apply Ok_inj in E'. subst l'. apply words_means in Hw. apply (Permutation_in _ (Permutation_sym P)) in Hw.
  apply in_map_iff in Hw as (x & <- & Hx). exists x. rewrite Forall_forall in F. pose proof (F x Hx) as Sx. destruct Sx as (Wx & Cx & Lx). split; [exact Hx|]. split; [|split; auto].
  apply words_means. rewrite (words_single x Wx Cx). simpl. auto.
Qed.
Lemma ss_sing s l x : wf s -> ss s = Ok l -> In x l -> sing1 (layer s) x.
Proof. intros W E Hx. destruct (ss_total s W) as (l' & E' & F & _). rewrite E in E'. apply Ok_inj in E'. subst l'. rewrite Forall_forall in F. auto. Qed.
Lemma sing1_inside n x s : sing1 n x -> layer s = n -> forall w, means x w -> means s w -> inside x s.
Proof.
  intros (Wx & Cx & Lx) Ls w Hx Hs. split; [congruence|]. intros w' Hw'. apply words_means in Hx. apply words_means in Hw'. rewrite (words_single x Wx Cx) in *. destruct Hx as [<-|[]]. destruct Hw' as [<-|[]]. exact Hs.
Qed.

Lemma mapM_combine {A B} (f : A -> res B) l l' : mapM f l = Ok l' -> forall x y, In (x, y) (combine l l') -> f x = Ok y.
Proof.
  revert l'. induction l as [|a l IH]; intros l' E x y H; simpl in E; [apply Ok_inj in E; subst; destruct H|].
  destruct (f a) as [b|] eqn:Ea; cbn [bind] in E; [|discriminate]. destruct (mapM f l) as [r|] eqn:El; cbn [bind] in E; [|discriminate]. apply Ok_inj in E. subst l'.
  destruct H as [H|H]; [injection H as <- <-; exact Ea|eauto].
Qed.
Lemma combine_all {A B} (f : A -> res B) l l' x : mapM f l = Ok l' -> In x l -> exists y, f x = Ok y /\ In (x, y) (combine l l').
Proof.
  revert l'. induction l as [|a l IH]; intros l' E H; simpl in E; [destruct H|].
  destruct (f a) as [b|] eqn:Ea; cbn [bind] in E; [|discriminate]. destruct (mapM f l) as [r|] eqn:El; cbn [bind] in E; [|discriminate]. apply Ok_inj in E. subst l'.
  destruct H as [<-|H]; [exists b; simpl; auto|]. destruct (IH r eq_refl H) as (y & Ey & Hy). exists y. simpl. auto.
Qed.

Lemma accept_inside t s r : wf (tscript t) -> wf s -> accept_script t s = Ok (true, r) -> inside s (tscript t).
Proof.
  intros Wt Ws E. unfold accept_script in E.
  assert (D : forall b k, (do b <- script_in s (tscript t); if negb b then Ok (false, false) else k) = Ok (true, b) -> inside s (tscript t)).
  { intros b k X. apply (inside_in s (tscript t) Ws Wt). destruct (script_in s (tscript t)) as [[]|]; cbn [bind negb] in X; [reflexivity|discriminate|discriminate]. }
  destruct (tkind t); try (eapply D; exact E);
  (destruct (match tparent t with Some p => is_set p | None => false end); [discriminate|];
   destruct (tables (tscript t)) as [x|] eqn:Ex; cbn [bind] in E; [|discriminate];
   destruct (mapM (fun u => script_in u s) (t_scripts x)) as [keep|] eqn:Ek; cbn [bind] in E; [|discriminate];
   destruct (mapM (fun u => ss (fst u)) _) as [parts|] eqn:Ep; cbn [bind] in E; [|discriminate];
   destruct (ss s) as [l|] eqn:El; cbn [bind] in E; [|discriminate];
   destruct (negb (Nat.eqb (List.length parts) 0) && forallb (fun y => memb script_eqb y l) (List.concat parts)) eqn:B1; cbn [andb] in E; [|discriminate];
   destruct (forallb (fun y => memb script_eqb y (List.concat parts)) l) eqn:B2; [|discriminate]; clear E;
   apply andb_true_iff in B1 as [B0 B1];
   pose proof (tables_scripts _ _ Wt Ex) as F; rewrite Forall_forall in F;
   assert (Hp : forall y, In y (List.concat parts) -> exists u lu, In u (t_scripts x) /\ inside u s /\ ss u = Ok lu /\ In y lu) by
    (intros y Hy; apply in_concat in Hy as (p & Hp & Hy); destruct (mapM_in _ _ _ _ Ep Hp) as ([u b] & Hu & Eu); apply filter_In in Hu as [Hu Hb]; cbn [snd fst] in *; subst b;
     pose proof (mapM_combine _ _ _ Ek _ _ Hu) as Iu; exists u, p; pose proof (in_combine_l _ _ _ _ Hu) as Hu'; split; [exact Hu'|]; split; [apply inside_in; auto; apply F; exact Hu'|auto]);
   assert (Hin : forall w, means s w -> means (tscript t) w) by
    (intros w Hw; destruct (ss_find s l w Ws El Hw) as (y & Hy & Yw & Sy); rewrite forallb_forall in B2; pose proof (B2 y Hy) as My; apply memb_text in My as (y' & Hy' & Ty);
     destruct (Hp y' Hy') as (u & lu & Hu & Iu & Eu & Hlu); destruct (F u Hu) as (Wu & Lu & Mu); apply Mu;
     apply (ss_word u lu y' w Wu Eu Hlu); pose proof (ss_sing u lu y' Wu Eu Hlu) as (Wy' & _); destruct Sy as (Wy & _); apply (proj2 (same_text y y' Wy Wy' (eq_sym Ty))); exact Yw);
   split; [|exact Hin];
   destruct parts as [|p0 parts]; [discriminate|];
   destruct (mapM_in _ _ _ _ Ep (or_introl eq_refl)) as ([u b] & Hu & Eu); apply filter_In in Hu as [Hu Hb]; cbn [snd fst] in *; subst b;
   pose proof (mapM_combine _ _ _ Ek _ _ Hu) as Iu; pose proof (in_combine_l _ _ _ _ Hu) as Hu'; destruct (F u Hu') as (Wu & Lu & Mu); apply inside_in in Iu; [|auto|auto]; destruct Iu; congruence).
Qed.

(** * The tables of a root *)
Lemma table_ind' (P : table -> Prop) : (forall k s p r, (forall q, p = Some q -> P q) -> P (Tab k s p r)) -> forall t, P t.
Proof.
  intros H. fix IH 1. intros [k s p r]. apply H. destruct p as [q|]; intros q' E; [injection E as <-; apply IH|discriminate].
Qed.

Lemma mk_table_spec s p r t : mk_table s p r = Ok t -> exists k, table_class s = Ok k /\ t = Tab k s p r.
Proof.
  unfold mk_table. destruct (table_class s) as [k|] eqn:E; cbn [bind]; [|discriminate]. intros H. exists k. split; [reflexivity|].
  destruct k; try (apply Ok_inj in H; now subst). destruct (tables s) as [x|]; cbn [bind] in H; [|discriminate]. destruct (t_scripts x) as [|s' l]; [discriminate|].
  destruct (negb (script_eqb s' s) || negb (Nat.eqb (tabs_of (first_cells x)) 1) || Nat.eqb (cols_of (first_cells x)) 1); [discriminate|]. apply Ok_inj in H. now subst.
Qed.
Lemma class_cell s k : table_class s = Ok k -> (k = KCell <-> cardinal s = 1%N).
Proof.
  unfold table_class. destruct (N.eqb_spec (cardinal s) 1) as [C|C]; [intros E; apply Ok_inj in E; subst; tauto|].
  destruct (tables s) as [t|]; cbn [bind]; [|discriminate]. intros E. split; [|congruence]. intros ->.
  destruct (t_scripts t) as [|s' [|s'' l]]; [destruct (t_cells t) as [|c [|c' l]]; discriminate| |destruct (t_cells t) as [|c [|c' l']]; discriminate].
  destruct (nb_dims (first_cells t)) as [|[|[|n]]]; discriminate.
Qed.
Lemma smallest_in l e : smallest l = Some e -> In e l.
Proof.
  unfold smallest. intros H.
  assert (G : forall l m, fold_left (fun m e => match m with None => Some e | Some m => if lt (tscript (fst e)) (tscript (fst m)) then Some e else Some m end) l m = Some e -> In e l \/ m = Some e).
  { clear. induction l as [|x l IH]; intros m H; cbn [fold_left] in H; [auto|]. destruct (IH _ H) as [X|X]; [simpl; auto|]. destruct m as [m|]; [destruct (lt (tscript (fst x)) (tscript (fst m)))|]; simpl; injection X as <-; auto. }
  destruct (G l None H) as [X|X]; [exact X|discriminate].
Qed.
Lemma candidates_in defined s l t r : candidates defined s = Ok l -> In (t, r) l -> In t defined /\ accept_script t s = Ok (true, r).
Proof.
  unfold candidates. destruct (mapM _ defined) as [m|] eqn:E; cbn [bind]; [|discriminate]. intros H. apply Ok_inj in H. subst l. intros H.
  apply in_map_iff in H as ([t' [b r']] & X & H). cbn [fst snd] in X. injection X as -> ->. apply filter_In in H as [H B]. cbn [fst snd] in B. subst b.
  destruct (mapM_in _ _ _ _ E H) as (t' & Ht & Et). destruct (accept_script t' s) as [[b r']|] eqn:A; cbn [bind] in Et; [|discriminate]. apply Ok_inj in Et. injection Et as -> -> ->. auto.
Qed.

(** A table made for a script of [l] under a table of [ts]. *)
Definition made (ts : list table) (l : list script) (t : table) : Prop :=
  In (tscript t) l /\ tkind t <> KCell /\ exists p, tparent t = Some p /\ In p ts /\ inside (tscript t) (tscript p) /\ accept_script p (tscript t) = Ok (true, tregular t) /\ cardinal (tscript t) <> 1%N.
Lemma define_tables_spec l : Forall wf l -> (forall s, In s l -> cardinal s <> 1%N) -> NoDup (map str l) -> forall defined ts, Forall (fun t => wf (tscript t)) defined ->
  define_tables defined l = Ok ts ->
  exists more, ts = (defined ++ more)%list /\ Forall (made ts l) more /\ NoDup (map (fun t => str (tscript t)) more).
Proof.
  induction l as [|s l IH]; intros W C N defined ts Wd E; cbn [define_tables] in E.
  - apply Ok_inj in E. subst ts. exists []. rewrite app_nil_r. repeat constructor.
  - apply Forall_cons_iff in W as [Ws W]. cbn [map] in N. apply NoDup_cons_iff in N as [Ns N].
    destruct (candidates defined s) as [c|] eqn:Ec; cbn [bind] in E; [|discriminate].
    assert (Cl : forall s0, In s0 l -> cardinal s0 <> 1%N) by (intros; apply C; simpl; auto).
    assert (Mono : forall u t, made u l t -> made u (s :: l) t) by (intros u t (H1 & H2); split; [simpl; auto|exact H2]).
    destruct (smallest c) as [[p r]|] eqn:Em.
    + destruct (mk_table s (Some p) r) as [t|] eqn:Et; cbn [bind] in E; [|discriminate]. destruct (mk_table_spec _ _ _ _ Et) as (k & Ek & ->).
      apply smallest_in in Em. destruct (candidates_in _ _ _ _ _ Ec Em) as [Hp A].
      destruct (IH W Cl N (defined ++ [Tab k s (Some p) r])%list ts) as (more & -> & F & Nm); [apply Forall_app; split; [exact Wd|constructor; [exact Ws|constructor]]|exact E|].
      exists (Tab k s (Some p) r :: more). rewrite <- app_assoc. cbn [app]. split; [reflexivity|]. rewrite <- app_assoc in F. cbn [app] in F. split.
      * constructor; [|eapply Forall_impl; [|exact F]; intros t; apply Mono]. split; [simpl; auto|]. split; [cbn [tkind]; intros ->; apply (C s); [simpl; auto|now apply (class_cell s KCell Ek)]|].
        exists p. split; [reflexivity|]. split; [apply in_or_app; auto|]. split; [|split; [exact A|apply C; simpl; auto]]. cbn [tscript]. rewrite Forall_forall in Wd. eapply accept_inside; eauto.
      * cbn [map tscript]. constructor; [|exact Nm]. intros H. apply in_map_iff in H as (t & Et' & Ht). rewrite Forall_forall in F. destruct (F t Ht) as (Hs & _). apply Ns. rewrite <- Et'. now apply in_map.
    + destruct (IH W Cl N defined ts Wd E) as (more & -> & F & Nm). exists more. split; [reflexivity|]. split; [|exact Nm]. eapply Forall_impl; [|exact F]. intros t. apply Mono.
Qed.

Definition cell_of (t0 : table) (x : script) : table := Tab KCell x (Some t0) false.
Definition tree (r : script) (ps : list script) (ts : list table) (t0 : table) (more : list table) (cells : list script) : Prop :=
  ts = (t0 :: more ++ map (cell_of t0) cells)%list /\ mk_table r None false = Ok t0 /\ ss r = Ok cells /\
  Forall (made (t0 :: more) ps) more /\ NoDup (map (fun t => str (tscript t)) (t0 :: more)).

Lemma dedup_nodup l : NoDup (map str (dedup script_eqb l)).
Proof.
  pose proof (dedup_distinct script_eqb (fun a b => String.eqb_sym (str a) (str b)) l) as D. revert D. generalize (dedup script_eqb l). clear l. induction l as [|x l IH]; intros D; simpl; [constructor|].
  inversion D as [|? ? F D']; subst. constructor; [|auto]. intros H. apply in_map_iff in H as (y & Ey & Hy). rewrite Forall_forall in F. specialize (F y Hy). apply script_eqb_str in Ey. unfold script_eqb in *. rewrite String.eqb_sym in Ey. congruence.
Qed.

Lemma mapM_F2' {A B} (f : A -> res B) l l' : mapM f l = Ok l' -> Forall2 (fun x y => f x = Ok y) l l'.
Proof. apply mapM_F2. Qed.
Lemma NoDup_filter_map {A B} (f : A -> B) (p : A -> bool) l : NoDup (map f l) -> NoDup (map f (filter p l)).
Proof.
  induction l as [|x l IH]; intros N; simpl; [constructor|]. cbn [map] in N. apply NoDup_cons_iff in N as [Nx N]. destruct (p x); [|auto]. cbn [map]. constructor; [|auto].
  intros H. apply Nx. apply in_map_iff in H as (y & Ey & Hy). apply filter_In in Hy as [Hy _]. rewrite <- Ey. now apply in_map.
Qed.

Section Forest.
  Variable so : list script -> list script.
  Hypothesis SO : set_order so.

  Lemma define_root_spec r ps ts : wf r -> Forall wf ps -> (forall s, In s ps -> cardinal s <> 1%N) -> define_root so r ps = Ok ts ->
    exists t0 more cells, tree r ps ts t0 more cells.
  Proof.
    intros Wr W C E. unfold define_root in E. destruct (mk_table r None false) as [t0|] eqn:E0; cbn [bind] in E; [|discriminate]. destruct (ss r) as [cells|] eqn:Ec; cbn [bind] in E; [|discriminate].
    set (q := filter (fun s => negb (script_eqb s r)) (dedup script_eqb ps)) in E.
    destruct (define_tables [t0] (by_length (so q))) as [l|] eqn:El; cbn [bind] in E; [|discriminate]. apply Ok_inj in E. subst ts.
    assert (P : Permutation (by_length (so q)) q) by (eapply Permutation_trans; [apply sort_perm|apply SO]).
    assert (Q : forall s, In s (by_length (so q)) -> In s ps /\ str s <> str r).
    { intros s Hs. apply (Permutation_in _ P) in Hs. apply filter_In in Hs as [Hs B]. apply dedup_in in Hs. split; [exact Hs|]. intros X. apply script_eqb_str in X. rewrite X in B. discriminate. }
    destruct (mk_table_spec _ _ _ _ E0) as (k & Ek & T0).
    destruct (define_tables_spec (by_length (so q))) with (defined := [t0]) (ts := l) as (more & -> & F & N); auto.
    - apply Forall_forall. intros s Hs. rewrite Forall_forall in W. apply W, Q, Hs.
    - intros s Hs. apply C, Q, Hs.
    - eapply Permutation_NoDup; [apply Permutation_map, Permutation_sym, P|]. apply NoDup_filter_map, dedup_nodup.
    - constructor; [|constructor]. subst t0. exact Wr.
    - exists t0, more, cells. unfold tree. split; [cbn [app]; reflexivity|]. split; [exact E0|]. split; [exact Ec|]. cbn [app] in F. split.
      + eapply Forall_impl; [|exact F]. intros t (H1 & H2). split; [apply Q, H1|exact H2].
      + cbn [map]. constructor; [|exact N]. intros H. apply in_map_iff in H as (t & Et & Ht). rewrite Forall_forall in F. destruct (F t Ht) as (Ht' & _). apply (proj2 (Q _ Ht')). rewrite Et. subst t0. reflexivity.
  Qed.

  Lemma assign_in roots scripts m : assign roots scripts = Ok m -> forall r s, In (r, s) m -> In s scripts /\ cardinal s <> 1%N.
  Proof.
    revert m. induction scripts as [|s0 l IH]; intros m E r s H; cbn [assign] in E; [apply Ok_inj in E; subst; destruct H|].
    destruct (N.eqb_spec (cardinal s0) 1) as [C|C]; [destruct (IH m E r s H); simpl; auto|].
    destruct (ss s0) as [x|]; cbn [bind] in E; [|discriminate]. destruct x as [|x l0]; [discriminate|]. destruct (owner roots x) as [r0|]; [|discriminate].
    destruct (assign roots l) as [m'|]; cbn [bind] in E; [|discriminate]. apply Ok_inj in E. subst m. destruct H as [H|H]; [injection H as <- <-; simpl; auto|]. destruct (IH m' eq_refl r s H); simpl; auto.
  Qed.

  Definition branch (scripts : list script) (e : script * list table) : Prop :=
    exists ps t0 more cells, tree (fst e) ps (snd e) t0 more cells /\ incl ps scripts.
  Lemma build_tables_spec roots scripts forest : Forall wf roots -> Forall wf scripts -> build_tables so roots scripts = Ok forest ->
    map fst forest = roots /\ Forall (branch scripts) forest.
  Proof.
    intros Wr Ws E. unfold build_tables in E. destruct (mapM _ roots) as [ls|] eqn:E1 in E; cbn [bind] in E; [|discriminate]. destruct (assign ls scripts) as [m|] eqn:Em; cbn [bind] in E; [|discriminate].
    assert (F : Forall2 (fun r e => fst e = r /\ branch scripts e) roots forest).
    { eapply mapM_rel; [|exact E]. intros r e Hr Ee. cbn beta in Ee. destruct (define_root so r _) as [l|] eqn:El; cbn [bind] in Ee; [|discriminate]. apply Ok_inj in Ee. subst e. split; [reflexivity|].
      assert (Hps : forall s, In s (map snd (filter (fun e => script_eqb (fst e) r) m)) -> In s scripts /\ cardinal s <> 1%N).
      { intros s Hs. apply in_map_iff in Hs as ([r' s'] & <- & Hs). apply filter_In in Hs as [Hs _]. exact (assign_in _ _ _ Em _ _ Hs). }
      rewrite Forall_forall in Wr, Ws. destruct (define_root_spec r (map snd (filter (fun e => script_eqb (fst e) r) m)) l (Wr r Hr)) as (t0 & more & cells & T); [| |exact El|].
      - apply Forall_forall. intros s Hs. apply Ws, Hps, Hs.
      - intros s Hs. apply Hps, Hs.
      - exists (map snd (filter (fun e => script_eqb (fst e) r) m)), t0, more, cells. split; [exact T|]. intros s Hs. apply Hps, Hs. }
    clear -F. induction F as [|r e roots forest [H1 H2] F [IH1 IH2]]; simpl; [auto|]. split; [congruence|constructor; auto].
  Qed.
End Forest.

(** * What the tree of a root is like *)
Section Tree.
  Variables (r : script) (ps : list script) (ts : list table) (t0 : table) (more : list table) (cells : list script).
  Hypothesis Wr : wf r.
  Hypothesis Wps : Forall wf ps.
  Hypothesis T : tree r ps ts t0 more cells.

  Lemma tree_root : exists k, table_class r = Ok k /\ t0 = Tab k r None false.
  Proof. destruct T as (_ & E & _). apply mk_table_spec in E. exact E. Qed.
  Lemma tree_in t : In t ts <-> t = t0 \/ In t more \/ exists x, In x cells /\ t = cell_of t0 x.
  Proof.
    destruct T as (-> & _). cbn [In]. rewrite in_app_iff, in_map_iff. split; [intros [<-|[H|(x & <- & H)]]; eauto|intros [->|[H|(x & H & ->)]]; eauto].
  Qed.
  Lemma tree_wf t : In t ts -> wf (tscript t).
  Proof.
    intros H. apply tree_in in H as [->|[H|(x & H & ->)]].
    - destruct tree_root as (k & _ & ->). exact Wr.
    - destruct T as (_ & _ & _ & F & _). rewrite Forall_forall in F. destruct (F t H) as (Hp & _). rewrite Forall_forall in Wps. auto.
    - destruct T as (_ & _ & E & _). apply (ss_sing r cells x Wr E H).
  Qed.
  Lemma tree_inside t : In t ts -> inside (tscript t) r.
  Proof.
    induction t as [k s p rg IH] using table_ind'. intros H. pose proof H as H'. apply tree_in in H' as [->|[H'|(x & Hx & ->)]].
    - destruct tree_root as (k' & _ & X). rewrite X. apply inside_refl.
    - destruct T as (_ & _ & _ & F & _). rewrite Forall_forall in F. destruct (F _ H') as (_ & _ & q & Eq & Hq & I & _). cbn [tparent] in Eq. subst p. apply (inside_trans s (tscript q)); [exact I|].
      apply IH; [reflexivity|]. apply tree_in. destruct Hq as [<-|Hq]; auto.
    - destruct T as (_ & _ & E & _). pose proof (ss_sing r cells x Wr E Hx) as (Wx & Cx & Lx). split; [exact Lx|]. intros w Hw. eapply ss_word; eauto.
  Qed.
  Lemma tree_parent t q : In t ts -> tparent t = Some q -> In q ts /\ inside (tscript t) (tscript q) /\ tkind q <> KCell \/ In q ts /\ q = t0 /\ inside (tscript t) r.
  Proof.
    intros H E. pose proof (tree_inside t H) as It. apply tree_in in H as [->|[H|(x & Hx & ->)]].
    - destruct tree_root as (k & _ & ->). discriminate.
    - destruct T as (_ & _ & _ & F & _). rewrite Forall_forall in F. destruct (F t H) as (_ & _ & q' & Eq & Hq & I & _). rewrite E in Eq. injection Eq as <-.
      destruct Hq as [<-|Hq].
      + right. split; [apply tree_in; auto|auto].
      + left. split; [apply tree_in; auto|]. split; [exact I|]. apply (F q Hq).
    - right. cbn [cell_of tparent] in E. injection E as <-. split; [apply tree_in; auto|auto].
  Qed.
  Lemma tree_none t : In t ts -> tparent t = None -> t = t0.
  Proof.
    intros H E. apply tree_in in H as [->|[H|(x & Hx & ->)]]; [reflexivity| |discriminate].
    destruct T as (_ & _ & _ & F & _). rewrite Forall_forall in F. destruct (F t H) as (_ & _ & q' & Eq & _). congruence.
  Qed.
End Tree.
