From Coq Require Import List String Bool Arith Lia Permutation.
From Verif Require Import Base Script Usl Sfun SfunProofs SfunListProofs SfunWordProofs Simplify.
Import ListNotations.
Local Open Scope string_scope.
Local Open Scope list_scope.

Notation sf := (sfun lexeme).
Notation D := DEPENDANT_QUALITY. Notation I := INDEPENDANT_QUALITY.
Definition blank (x : option lexeme) : bool := match x with Some l => lexeme_empty l | None => true end.
Lemma all_empty_spec (f : sf) : all_empty f = true <-> forall r g, In (r, g) (actors f) -> blank (actor_of g) = true.
Proof. unfold all_empty. rewrite forallb_forall. split; [intros H r g Hg; exact (H (r, g) Hg)|intros H [r g] Hg; exact (H r g Hg)]. Qed.
Lemma all_empty_false (f : sf) : all_empty f = false <-> exists r g, In (r, g) (actors f) /\ blank (actor_of g) = false.
Proof.
  split.
  - unfold all_empty. induction (actors f) as [|[r g] l IH]; [discriminate|]. cbn [forallb fst snd]. intros H. fold (blank (actor_of g)) in H.
    destruct (blank (actor_of g)) eqn:B; [|exists r, g; split; [now left|exact B]]. destruct (IH H) as (r' & g' & Hg & Hb). exists r', g'. split; [now right|exact Hb].
  - intros (r & g & H & B). destruct (all_empty f) eqn:E; [|reflexivity]. rewrite all_empty_spec in E. now rewrite (E _ _ H) in B.
Qed.

Lemma sub_actors (f : sf) : forall r g, In (r, g) (actors f) -> forall s h, In (s, h) (actors g) -> exists t, In (t, h) (actors f).
Proof.
  induction f as [link cs IH|x|x d i IHd IHi|x v acts IH] using sfun_ind'; intros r g H s h H'.
  - rewrite actors_jun' in H. destruct H as [[= <- <-]|H]; [eauto|]. apply children_actors_in in H. destruct H as (j & c & r' & Ec & Er & H). rewrite Forall_forall in IH.
    destruct (IH c (nth_error_In _ _ Ec) _ _ H _ _ H') as (t & Ht). exists (link :: nth j JUNCTION_INDEX "" :: t). rewrite actors_jun'. right. apply children_actors_in. exists j, c, t. auto.
  - destruct H as [[= <- <-]|[]]. eauto.
  - rewrite actors_dep in *. destruct H as [[= <- <-]|H]; [rewrite <- actors_dep; eauto|]. apply in_app_iff in H. rewrite !under_in in H. destruct H as [(r' & _ & H)|(r' & _ & H)]; cbn [snd] in H.
    + destruct i as [f|]; [|destruct H]. destruct (IHi f eq_refl _ _ H _ _ H') as (t & Ht). exists (I :: t). right. apply in_app_iff. left. apply under_in. exists t. auto.
    + destruct d as [f|]; [|destruct H]. destruct (IHd f eq_refl _ _ H _ _ H') as (t & Ht). exists (D :: t). right. apply in_app_iff. right. apply under_in. exists t. auto.
  - rewrite actors_proc in H. destruct H as [[= <- <-]|H]; [eauto|]. apply in_concat in H. destruct H as (l & Hl & H). apply in_map_iff in Hl. destruct Hl as ([a f] & <- & Ha). apply under_in in H. destruct H as (r' & _ & H). cbn [snd] in H.
    rewrite Forall_forall in IH. destruct (IH _ Ha _ _ H _ _ H') as (t & Ht). exists (a :: t). rewrite actors_proc. right. apply in_concat. exists (under [a] (actors f)). split; [apply in_map_iff; now exists (a, f)|]. apply under_in. exists t. auto.
Qed.
Lemma all_empty_below (f : sf) r g : all_empty f = true -> In (r, g) (actors f) -> all_empty g = true.
Proof. rewrite !all_empty_spec. intros H Hg s h Hh. destruct (sub_actors f r g Hg s h Hh) as (t & Ht). eauto. Qed.

(** ** The focus, relative to a node *)
Definition sub (a : string) (fo : option role) : option role :=
  match fo with Some (b :: q) => if String.eqb b a then Some q else None | _ => None end.
Definition onway (fo : option role) (r : role) : bool := match fo with Some q => negb (aside q r) | None => false end.
Definition keepb (fo : option role) (e : role * sf) : bool := (negb (all_empty (snd e)) || onway fo (fst e))%bool.
Definition keepf (fo : option role) (f : sf) : bool := keepb fo ([], f).
Definition ents (fo : option role) (l : list (role * sf)) : list (role * option lexeme) := map (fun e => (fst e, actor_of (snd e))) (filter (keepb fo) l).
Lemma aside_nil q : aside q [] = false. Proof. unfold aside. destruct q; reflexivity. Qed.
Lemma onway_nil fo : onway fo [] = match fo with Some _ => true | None => false end.
Proof. destruct fo; [|reflexivity]. cbn [onway]. now rewrite aside_nil. Qed.
Lemma onway_cons fo a r : onway fo (a :: r) = onway (sub a fo) r.
Proof.
  destruct fo as [[|b q]|]; cbn; try reflexivity. unfold aside. cbn. destruct (String.eqb b a); cbn; [reflexivity|]. now rewrite orb_true_r.
Qed.
Lemma aside_spec q r : aside q r = false <-> exists t, q = r ++ t.
Proof.
  revert q. induction r as [|a r IH]; intros q.
  - rewrite aside_nil. split; [intros _; now exists q|reflexivity].
  - pose proof (onway_cons (Some q) a r) as O. cbn [onway] in O. destruct q as [|b q]; cbn [sub] in O.
    + split; [discriminate|intros (t & E); discriminate].
    + destruct (String.eqb b a) eqn:Eb; cbn in O.
      * apply String.eqb_eq in Eb. subst b. assert (aside (a :: q) (a :: r) = aside q r) as -> by (destruct (aside (a :: q) (a :: r)), (aside q r); cbn in O; congruence).
        rewrite IH. cbn. split; intros (t & E); exists t; congruence.
      * apply negb_false_iff in O. rewrite O. split; [discriminate|]. intros (t & E). injection E as -> _. now rewrite String.eqb_refl in Eb.
Qed.
Lemma ents_app fo l l' : ents fo (l ++ l') = ents fo l ++ ents fo l'.
Proof. unfold ents. now rewrite filter_app, map_app. Qed.
Lemma ents_under fo a l : ents fo (under [a] l) = pre lexeme [a] (ents (sub a fo) l).
Proof.
  assert (H : forall e, keepb fo (a :: fst e, snd e) = keepb (sub a fo) e) by (intros [r g]; unfold keepb; cbn [fst snd]; now rewrite onway_cons).
  unfold ents, under, pre. induction l as [|[r g] l IH]; [reflexivity|]. cbn [map filter fst snd app]. pose proof (H (r, g)) as E. cbn [fst snd] in E. rewrite E.
  destruct (keepb (sub a fo) (r, g)); cbn [map fst snd app]; [f_equal|]; exact IH.
Qed.
Lemma ents_in fo l r x : In (r, x) (ents fo l) <-> exists g, In (r, g) l /\ keepb fo (r, g) = true /\ x = actor_of g.
Proof.
  unfold ents. rewrite in_map_iff. split.
  - intros ([r' g] & [= <- <-] & H). apply filter_In in H. exists g. tauto.
  - intros (g & H & K & ->). exists (r, g). split; [reflexivity|]. now apply filter_In.
Qed.
Lemma ents_drop fo f : keepf fo f = false -> ents fo (actors f) = [].
Proof.
  unfold keepf, keepb. cbn [fst snd]. intros H. apply orb_false_iff in H. destruct H as [H1 H2]. apply negb_false_iff in H1. rewrite onway_nil in H2. destruct fo; [discriminate|].
  destruct (ents None (actors f)) as [|[r x] l] eqn:E; [reflexivity|]. exfalso. assert (In (r, x) (ents None (actors f))) as H by (rewrite E; now left).
  apply ents_in in H. destruct H as (g & H & K & _). unfold keepb in K. cbn [fst snd onway] in K. rewrite orb_false_r in K. now rewrite (all_empty_below _ _ _ H1 H) in K.
Qed.
Lemma ents_inner k f fo : valid lexeme k f -> forall e, In e (ents fo (actors f)) -> Forall inner (fst e).
Proof. intros V [r x] H. apply ents_in in H. destruct H as (g & H & _). eapply actors_inner; eauto. Qed.

(** ** Kept addresses through junctions *)
Definition isl (a : string) : bool := ins a JUNCTION_SCRIPTS.
Definition blocked (fo : option role) (l : list (role * sf)) : bool := existsb (fun e => keepb fo e && existsb isl (fst e))%bool l.
Lemma blocked_spec fo l : blocked fo l = true <-> exists r g, In (r, g) l /\ keepb fo (r, g) = true /\ existsb isl r = true.
Proof.
  unfold blocked. rewrite existsb_exists. split.
  - intros ([r g] & H & K). apply andb_true_iff in K. exists r, g. tauto.
  - intros (r & g & H & K & L). exists (r, g). split; auto. now apply andb_true_iff.
Qed.
Lemma blocked_app fo l l' : blocked fo (l ++ l') = (blocked fo l || blocked fo l')%bool.
Proof. apply existsb_app. Qed.
Lemma blocked_under fo a l : isl a = false -> blocked fo (under [a] l) = blocked (sub a fo) l.
Proof.
  intros Ha. assert (H : forall e, keepb fo (a :: fst e, snd e) = keepb (sub a fo) e) by (intros [r g]; unfold keepb; cbn [fst snd]; now rewrite onway_cons).
  unfold blocked, under. induction l as [|[r g] l IH]; [reflexivity|]. cbn [map existsb fst snd app]. pose proof (H (r, g)) as E. cbn [fst snd] in E. rewrite E, Ha. cbn [orb]. f_equal. exact IH.
Qed.
Lemma blocked_keep fo f : blocked fo (actors f) = true -> keepf fo f = true.
Proof.
  intros H. destruct (keepf fo f) eqn:K; [reflexivity|]. apply ents_drop in K. apply blocked_spec in H. destruct H as (r & g & H & K' & _).
  assert (In (r, actor_of g) (ents fo (actors f))) as I by (apply ents_in; eauto). rewrite K in I. destruct I.
Qed.

(** ** The function without its empty leaves *)
Fixpoint prune (k : kind) (fo : option role) (f : sf) : sf :=
  match f with
  | Jun _ _ => match k with KD => Dep None None None | KI => Indep None end
  | Indep x => Indep x
  | Dep x d i => Dep x (match d with Some g => if keepf (sub D fo) g then Some (prune KD (sub D fo) g) else None | None => None end)
                       (match i with Some g => if keepf (sub I fo) g then Some (prune KI (sub I fo) g) else None | None => None end)
  | Proc x v acts => Proc x v ((fix go (l : list (string * sf)) : list (string * sf) :=
      match l with [] => [] | (a, g) :: l => if keepf (sub a fo) g then (a, prune KD (sub a fo) g) :: go l else go l end) acts)
  end.
Lemma prune_proc k fo x v acts : prune k fo (Proc x v acts) =
  Proc x v (map (fun p => (fst p, prune KD (sub (fst p) fo) (snd p))) (filter (fun p => keepf (sub (fst p) fo) (snd p)) acts)).
Proof. cbn [prune]. f_equal. induction acts as [|[a g] l IH]; [reflexivity|]. cbn [filter fst snd]. rewrite IH. destruct (keepf (sub a fo) g); reflexivity. Qed.
Lemma prune_valid k f : forall fo, valid lexeme k f -> valid lexeme k (prune k fo f).
Proof.
  revert k. induction f as [link cs IH|x|x d i IHd IHi|x v acts IH] using sfun_ind'; intros k fo V.
  - destruct k; cbn; auto.
  - exact V.
  - cbn [prune valid] in *. destruct V as (-> & Vd & Vi). split; [reflexivity|]. split.
    + destruct d as [g|]; [|exact Logic.I]. destruct (keepf _ g); [|exact Logic.I]. now apply IHd.
    + destruct i as [g|]; [|exact Logic.I]. destruct (keepf _ g); [|exact Logic.I]. now apply IHi.
  - destruct V.
Qed.
Lemma ents_dep fo x d i : keepf fo (Dep x d i) = true -> ents fo (actors (Dep x d i)) =
  ([], x) :: pre lexeme [I] (ents (sub I fo) (actorso lexeme i)) ++ pre lexeme [D] (ents (sub D fo) (actorso lexeme d)).
Proof.
  intros K. rewrite actors_dep. change (([], Dep x d i) :: ?l) with ([([], Dep x d i)] ++ l). rewrite !ents_app, !ents_under. unfold ents at 1. cbn [filter]. unfold keepf in K. rewrite K. reflexivity.
Qed.
Lemma children_linked link i cs (e : role * sf) : In e (children_actors lexeme link i cs) -> exists a r, fst e = link :: a :: r.
Proof. intros H. apply children_actors_in in H. destruct H as (j & c & r & _ & E & _). eauto. Qed.
Lemma ents_jun fo link cs : keepf fo (Jun link cs) = true -> ents fo (actors (Jun link cs)) = ([], None) :: ents fo (children_actors lexeme link 0 cs).
Proof. intros K. rewrite actors_jun'. unfold ents. cbn [filter]. unfold keepf in K. now rewrite K. Qed.
Lemma blocked_jun fo link cs : In link JUNCTION_SCRIPTS -> (blocked fo (actors (Jun link cs)) = true <-> ents fo (children_actors lexeme link 0 cs) <> []).
Proof.
  intros L. rewrite actors_jun'. split.
  - intros H. apply blocked_spec in H. destruct H as (r & g & [[= <- <-]|H] & K & E); [discriminate|]. intros N. assert (H' : In (r, actor_of g) (ents fo (children_actors lexeme link 0 cs))) by (apply ents_in; eauto).
    rewrite N in H'. destruct H'.
  - intros H. destruct (ents fo _) as [|[r x] l] eqn:E; [easy|]. assert (H' : In (r, x) (ents fo (children_actors lexeme link 0 cs))) by (rewrite E; now left).
    apply ents_in in H'. destruct H' as (g & Hg & K & _). apply blocked_spec. exists r, g. split; [now right|]. split; [exact K|].
    apply children_linked in Hg. destruct Hg as (a & t & Er). cbn in Er. subst r. cbn [existsb]. unfold isl at 1. now rewrite (proj2 (ins_In _ _) L).
Qed.
Lemma blocked_dep fo x d i : blocked fo (actors (Dep x d i)) = (blocked (sub I fo) (actorso lexeme i) || blocked (sub D fo) (actorso lexeme d))%bool.
Proof.
  rewrite actors_dep. change (([], Dep x d i) :: ?l) with ([([], Dep x d i)] ++ l). rewrite !blocked_app, !blocked_under by reflexivity. unfold blocked at 1. cbn [existsb fst]. now rewrite andb_false_r.
Qed.
Lemma prune_lst k f : forall fo, valid lexeme k f -> keepf fo f = true -> blocked fo (actors f) = false -> lst lexeme (prune k fo f) = ents fo (actors f).
Proof.
  revert k. induction f as [link cs IH|x|x d i IHd IHi|x v acts IH] using sfun_ind'; intros k fo V K B.
  - apply valid_jun in V. destruct V as (L & _). rewrite ents_jun by exact K. destruct (ents fo (children_actors lexeme link 0 cs)) eqn:E.
    + destruct k; reflexivity.
    + assert (blocked fo (actors (Jun link cs)) = true) by (apply blocked_jun; [exact L|now rewrite E]). congruence.
  - unfold ents. cbn [actors filter]. unfold keepf in K. rewrite K. reflexivity.
  - cbn [valid] in V. destruct V as (-> & Vd & Vi). rewrite blocked_dep in B. apply orb_false_iff in B. destruct B as [Bi Bd]. rewrite ents_dep by exact K. cbn [prune]. rewrite lst_dep. f_equal. f_equal; f_equal.
    + destruct i as [g|]; [|reflexivity]. cbn [actorso] in *. destruct (keepf (sub I fo) g) eqn:Kg; [now apply IHi|]. now rewrite ents_drop.
    + destruct d as [g|]; [|reflexivity]. cbn [actorso] in *. destruct (keepf (sub D fo) g) eqn:Kg; [now apply IHd|]. now rewrite ents_drop.
  - destruct V.
Qed.
Lemma from_prune k f fo fuel : valid lexeme k f -> keepf fo f = true -> blocked fo (actors f) = false -> short lexeme fuel (ents fo (actors f)) ->
  from lexeme k fuel (ents fo (actors f)) = Ok (prune k fo f).
Proof. intros V K B S. apply from_perm; [now apply prune_valid| |exact S]. rewrite (prune_lst k f fo V K B). apply Permutation_refl. Qed.

Lemma short_app n (l l' : list (role * option lexeme)) : short lexeme n (l ++ l') <-> short lexeme n l /\ short lexeme n l'.
Proof. apply Forall_app. Qed.
Lemma from_blocked k f : forall fo fuel, valid lexeme k f -> blocked fo (actors f) = true -> short lexeme fuel (ents fo (actors f)) ->
  from lexeme k fuel (ents fo (actors f)) = Err IndexError.
Proof.
  revert k. induction f as [link cs IH|x|x d i IHd IHi|x v acts IH] using sfun_ind'; intros k fo fuel V B S; pose proof (blocked_keep _ _ B) as K.
  - apply valid_jun in V. destruct V as (L & _). apply blocked_jun in B; [|exact L]. rewrite ents_jun in * by exact K.
    assert (M : forall e, In e (ents fo (children_actors lexeme link 0 cs)) -> exists a r, fst e = a :: r /\ In a JUNCTION_SCRIPTS).
    { intros [r y] H. apply ents_in in H. destruct H as (g & H & _). apply children_linked in H. destruct H as (a & t & E). cbn in E. subst r. cbn. eauto. }
    destruct (ents fo (children_actors lexeme link 0 cs)) as [|e l]; [easy|]. destruct fuel as [|fuel]; [unfold short in S; apply Forall_cons_iff in S; cbn in S; lia|].
    destruct k; cbn [from].
    + cbn [dep_from]. change (dep_scan dep_init (([], None) :: e :: l)) with (dep_scan (@dep_init lexeme) (e :: l)). rewrite dep_scan_junction by exact M. reflexivity.
    + reflexivity.
  - unfold blocked in B. cbn in B. rewrite andb_false_r in B. discriminate.
  - cbn [valid] in V. destruct V as (-> & Vd & Vi). rewrite blocked_dep in B. rewrite ents_dep in * by exact K.
    unfold short in S. apply Forall_cons_iff in S. destruct S as [S0 S]. apply Forall_app in S. destruct S as [Si Sd]. apply short_pre in Si, Sd.
    destruct fuel as [|fuel]; [cbn in S0; lia|]. cbn [pred] in Si, Sd. cbn [from dep_from]. rewrite dep_scan_plain.
    2: reflexivity.
    2:{ intros e [<-|H]; [now left|]. apply in_app_iff in H. rewrite !pre_in in H. right. destruct H as [(r & E & _)|(r & E & _)]; unfold heads; rewrite E; [now left|now right]. }
    2:{ cbn [filter bare fst d_actor dep_init]. rewrite filter_app, !filter_pre_bare. cbn. lia. }
    cbn [bind d_jun d_dep d_indep dep_init app filter heads fst]. rewrite !filter_app, !filter_pre_heads.
    change (String.eqb I D) with false. change (String.eqb D I) with false. rewrite !String.eqb_refl. cbn [app]. rewrite app_nil_r, !tailed_pre.
    destruct (blocked (sub D fo) (actorso lexeme d)) eqn:Bd.
    + destruct d as [g|]; [|discriminate]. cbn [actorso] in *. pose proof (IHd g eq_refl KD (sub D fo) fuel Vd Bd Sd) as E. cbn [from] in E.
      unfold opt_from at 1. destruct (ents (sub D fo) (actors g)) eqn:En.
      * exfalso. apply blocked_spec in Bd. destruct Bd as (r & h & H & Kh & _). assert (H' : In (r, actor_of h) (ents (sub D fo) (actors g))) by (apply ents_in; eauto). rewrite En in H'. destruct H'.
      * rewrite E. reflexivity.
    + rewrite orb_false_r in B. assert (Od : exists d', opt_from (dep_from fuel) (ents (sub D fo) (actorso lexeme d)) = Ok d').
      { destruct d as [g|]; cbn [actorso] in *; [|eexists; reflexivity]. destruct (keepf (sub D fo) g) eqn:Kg.
        - pose proof (from_prune KD g (sub D fo) fuel Vd Kg Bd Sd) as E. cbn [from] in E. unfold opt_from. destruct (ents (sub D fo) (actors g)); [eauto|]. rewrite E. cbn. eauto.
        - rewrite ents_drop by exact Kg. cbn. eauto. }
      destruct Od as (d' & ->). cbn [bind].
      destruct i as [g|]; [|discriminate]. cbn [actorso] in *. pose proof (IHi g eq_refl KI (sub I fo) fuel Vi B Si) as E. cbn [from] in E.
      unfold opt_from. destruct (ents (sub I fo) (actors g)) eqn:En.
      * exfalso. apply blocked_spec in B. destruct B as (r & h & H & Kh & _). assert (H' : In (r, actor_of h) (ents (sub I fo) (actors g))) by (apply ents_in; eauto). rewrite En in H'. destruct H'.
      * rewrite E. reflexivity.
  - destruct V.
Qed.

(** ** Processes *)
Lemma ents_proc fo x v acts : ents fo (actors (Proc x v acts)) =
  (if keepb fo ([v], Proc x v acts) then [([v], x)] else []) ++
  List.concat (map (fun p => pre lexeme [fst p] (ents (sub (fst p) fo) (actors (snd p)))) (filter (fun p => keepf (sub (fst p) fo) (snd p)) acts)).
Proof.
  rewrite actors_proc. change (([v], ?f) :: ?l) with ([([v], f)] ++ l). rewrite ents_app. f_equal.
  - unfold ents. cbn [filter]. destruct (keepb fo _); reflexivity.
  - induction acts as [|[a g] acts IH]; [reflexivity|]. cbn [map List.concat filter fst snd]. rewrite ents_app, ents_under, IH. destruct (keepf (sub a fo) g) eqn:K; [reflexivity|]. now rewrite ents_drop.
Qed.
Lemma keep_nonempty fo k g : valid lexeme k g -> keepf fo g = true -> ents fo (actors g) <> [].
Proof. intros V K E. assert (H : In ([], actor_of g) (ents fo (actors g))) by (apply ents_in; exists g; split; [eapply actors_root; eauto|split; [exact K|reflexivity]]). rewrite E in H. destruct H. Qed.
Lemma scan_acts fo x v : forall acts acts', Forall (fun p : string * sf => In (fst p) ACTANTS /\ valid lexeme KD (snd p)) acts -> NoDup (map fst acts' ++ map fst acts) ->
  (forall p, In p acts -> keepf (sub (fst p) fo) (snd p) = true) ->
  proc_scan {| p_actor := x; p_valence := v; p_actants := acts' |} (List.concat (map (fun p => pre lexeme [fst p] (ents (sub (fst p) fo) (actors (snd p)))) acts)) =
  Ok {| p_actor := x; p_valence := v; p_actants := acts' ++ map (fun p => (fst p, ents (sub (fst p) fo) (actors (snd p)))) acts |}.
Proof.
  induction acts as [|[r g] acts IH]; intros acts' F N K; [cbn; now rewrite app_nil_r|].
  apply Forall_cons_iff in F. destruct F as [[Hr Vg] F]. cbn [map fst snd List.concat] in *. rewrite proc_scan_block; auto.
  - rewrite IH; auto; [now rewrite <- app_assoc| |intros; apply K; now right]. rewrite map_app. cbn. now rewrite <- app_assoc.
  - eapply keep_nonempty; eauto. apply (K (r, g)). now left.
  - intros e s He Hs. apply inner_not_actant. pose proof (ents_inner _ _ _ Vg e He) as J. rewrite Forall_forall in J. auto.
  - apply NoDup_remove_2 in N. intros H. apply N, in_app_iff. now left.
Qed.
Lemma blocked_proc fo x v acts : In v VALENCES -> Forall (fun p : string * sf => In (fst p) ACTANTS) acts ->
  (blocked fo (actors (Proc x v acts)) = true <-> exists p, In p acts /\ blocked (sub (fst p) fo) (actors (snd p)) = true).
Proof.
  intros Hv F. rewrite actors_proc. change (([v], ?f) :: ?l) with ([([v], f)] ++ l). rewrite blocked_app.
  assert (E1 : blocked fo [([v], Proc x v acts)] = false).
  { unfold blocked. cbn [existsb fst]. assert (isl v = false) as ->. { cbn in Hv. destruct Hv as [<-|[<-|[<-|[]]]]; reflexivity. } cbn. now rewrite andb_false_r. }
  rewrite E1. cbn [orb]. clear E1. generalize (Proc x v acts) as P0. intros _. induction acts as [|[a g] acts IH]; [split; [discriminate|intros (p & [] & _)]|].
  apply Forall_cons_iff in F. destruct F as [Ha F]. cbn [map List.concat fst snd] in *. rewrite blocked_app, orb_true_iff, IH by exact F. rewrite blocked_under.
  2:{ clear - Ha. cbn in Ha. repeat (destruct Ha as [<-|Ha]; [reflexivity|]). destruct Ha. }
  split.
  - intros [H|(p & H & H')]; [exists (a, g); split; [now left|exact H]|exists p; split; [now right|exact H']].
  - intros (p & [<-|H] & H'); [left; exact H'|right; eauto].
Qed.
Lemma proc_state_of fo x v acts : pvalid lexeme (Proc x v acts) ->
  proc_scan proc_init (ents fo (actors (Proc x v acts))) =
  Ok {| p_actor := if keepb fo ([v], Proc x v acts) then x else None; p_valence := if keepb fo ([v], Proc x v acts) then Some v else None;
        p_actants := map (fun p => (fst p, ents (sub (fst p) fo) (actors (snd p)))) (filter (fun p => keepf (sub (fst p) fo) (snd p)) acts) |}.
Proof.
  cbn [pvalid]. intros (V & N & F). rewrite ents_proc.
  assert (F' : Forall (fun p : string * sf => In (fst p) ACTANTS /\ valid lexeme KD (snd p)) (filter (fun p => keepf (sub (fst p) fo) (snd p)) acts)).
  { rewrite Forall_forall in *. intros p Hp. apply filter_In in Hp. apply F, Hp. }
  assert (N' : NoDup (map fst (filter (fun p : string * sf => keepf (sub (fst p) fo) (snd p)) acts))).
  { clear - N. induction acts as [|p acts IH]; [constructor|]. cbn in *. apply NoDup_cons_iff in N. destruct (keepf _ _); [|tauto]. cbn. constructor; [|tauto].
    intros H. apply (proj1 N). apply in_map_iff in H. destruct H as (q & <- & H). apply filter_In in H. now apply in_map. }
  assert (K : forall p, In p (filter (fun p : string * sf => keepf (sub (fst p) fo) (snd p)) acts) -> keepf (sub (fst p) fo) (snd p) = true) by (intros p Hp; apply filter_In in Hp; tauto).
  destruct (keepb fo ([v], Proc x v acts)).
  - cbn [app proc_scan]. unfold proc_step at 1. cbn [fst]. rewrite (proj2 (ins_In _ _) V). cbn [p_actor proc_init bind p_actants snd]. now rewrite scan_acts.
  - cbn [app]. unfold proc_init. now rewrite scan_acts.
Qed.
Lemma proc_prune x v acts fo fuel : pvalid lexeme (Proc x v acts) -> short lexeme (S fuel) (ents fo (actors (Proc x v acts))) ->
  proc_from fuel (ents fo (actors (Proc x v acts))) =
  if blocked fo (actors (Proc x v acts)) then Err IndexError
  else if keepb fo ([v], Proc x v acts) then Ok (prune KD fo (Proc x v acts)) else Err ValueError.
Proof.
  intros V S. unfold proc_from. rewrite proc_state_of by exact V. cbn [bind p_actants p_valence p_actor]. destruct V as (V & N & F).
  pose proof (blocked_proc fo x v acts V) as BP. assert (Fa : Forall (fun p : string * sf => In (fst p) ACTANTS) acts) by (eapply Forall_impl; [|exact F]; intros p Hp; apply Hp). specialize (BP Fa).
  assert (Sh : forall p, In p (filter (fun p : string * sf => keepf (sub (fst p) fo) (snd p)) acts) -> short lexeme fuel (ents (sub (fst p) fo) (actors (snd p)))).
  { intros p Hp. rewrite ents_proc in S. apply short_app in S. destruct S as [_ S]. change fuel with (pred (Datatypes.S fuel)). apply short_pre with (a := fst p). unfold short in *. rewrite Forall_forall in *. intros e He. apply S.
    apply in_concat. exists (pre lexeme [fst p] (ents (sub (fst p) fo) (actors (snd p)))). split; [apply in_map_iff; eauto|exact He]. }
  destruct (blocked fo (actors (Proc x v acts))) eqn:B.
  - destruct (proj1 BP eq_refl) as (p & Hp & Bp). pose proof (blocked_keep _ _ Bp) as Kp.
    assert (Hp' : In p (filter (fun p : string * sf => keepf (sub (fst p) fo) (snd p)) acts)) by (apply filter_In; auto).
    assert (G : forall l, incl l (filter (fun p : string * sf => keepf (sub (fst p) fo) (snd p)) acts) -> In p l ->
       mapM (fun p0 => do f <- dep_from fuel (snd p0); Ok (fst p0, f)) (map (fun p => (fst p, ents (sub (fst p) fo) (actors (snd p)))) l) = Err IndexError).
    { induction l as [|q l IH]; intros Hl Hin; [destruct Hin|]. cbn [map mapM fst snd]. assert (Hq : In q (filter (fun p : string * sf => keepf (sub (fst p) fo) (snd p)) acts)) by (apply Hl; now left).
      pose proof (Sh q Hq) as Sq. apply filter_In in Hq. destruct Hq as [Hq Kq]. rewrite Forall_forall in F. destruct (F q Hq) as [_ Vq].
      destruct (blocked (sub (fst q) fo) (actors (snd q))) eqn:Bq.
      - pose proof (from_blocked KD (snd q) (sub (fst q) fo) fuel Vq Bq Sq) as E. cbn [from] in E. now rewrite E.
      - pose proof (from_prune KD (snd q) (sub (fst q) fo) fuel Vq Kq Bq Sq) as E. cbn [from] in E. rewrite E. cbn [bind]. destruct Hin as [->|Hin]; [congruence|].
        rewrite IH; [reflexivity| |exact Hin]. intros z Hz. apply Hl. now right. }
    rewrite G; [reflexivity|apply incl_refl|exact Hp'].
  - idtac.
    assert (G : mapM (fun p0 => do f <- dep_from fuel (snd p0); Ok (fst p0, f)) (map (fun p => (fst p, ents (sub (fst p) fo) (actors (snd p)))) (filter (fun p : string * sf => keepf (sub (fst p) fo) (snd p)) acts)) =
       Ok (map (fun p => (fst p, prune KD (sub (fst p) fo) (snd p))) (filter (fun p : string * sf => keepf (sub (fst p) fo) (snd p)) acts))).
    { apply mapM_Forall2. assert (G : forall l, incl l (filter (fun p : string * sf => keepf (sub (fst p) fo) (snd p)) acts) ->
         Forall2 (fun p0 y => (do f <- dep_from fuel (snd p0); Ok (fst p0, f)) = Ok y) (map (fun p => (fst p, ents (sub (fst p) fo) (actors (snd p)))) l) (map (fun p => (fst p, prune KD (sub (fst p) fo) (snd p))) l)).
      { induction l as [|q l IH]; intros Hl; [constructor|]. cbn [map]. constructor; [|apply IH; intros z Hz; apply Hl; now right]. cbn [fst snd].
        assert (Hq : In q (filter (fun p : string * sf => keepf (sub (fst p) fo) (snd p)) acts)) by (apply Hl; now left).
        pose proof (Sh q Hq) as Sq. apply filter_In in Hq. destruct Hq as [Hq Kq]. rewrite Forall_forall in F. destruct (F q Hq) as [_ Vq].
        assert (Bq : blocked (sub (fst q) fo) (actors (snd q)) = false). { destruct (blocked (sub (fst q) fo) (actors (snd q))) eqn:Bq; [|reflexivity]. assert (false = true) by (apply BP; eauto). discriminate. }
        pose proof (from_prune KD (snd q) (sub (fst q) fo) fuel Vq Kq Bq Sq) as E. cbn [from] in E. now rewrite E. }
      apply G, incl_refl. }
    rewrite G. cbn [bind]. rewrite prune_proc. destruct (keepb fo ([v], Proc x v acts)); reflexivity.
Qed.

(** ** Addresses *)
Lemma index_inj' i j : i < 12 -> j < 12 -> nth i JUNCTION_INDEX "" = nth j JUNCTION_INDEX "" -> i = j.
Proof. apply index_inj. Qed.
Lemma actors_down k f : valid lexeme k f -> forall r g t h, In (r, g) (actors f) -> In (r ++ t, h) (actors f) -> In (t, h) (actors g).
Proof.
  revert k. induction f as [link cs IH|x|x d i IHd IHi|x v acts IH] using sfun_ind'; intros k V r g t h H H'.
  - rewrite actors_jun' in H. destruct H as [[= <- <-]|H]; [exact H'|]. apply valid_jun in V. destruct V as (L & Nc & V). apply children_actors_in in H. destruct H as (j & c & r' & Ec & Er & H). cbn [fst snd Nat.add] in *. subst r.
    rewrite actors_jun' in H'. destruct H' as [[=]|H']. apply children_actors_in in H'. destruct H' as (j' & c' & r2 & Ec' & Er & H'). cbn [fst snd Nat.add app] in *. injection Er as En Er.
    assert (j < List.length cs) by (apply nth_error_Some; congruence). assert (j' < List.length cs) by (apply nth_error_Some; congruence).
    assert (j = j') by (apply index_inj'; [lia|lia|exact En]). subst j'. assert (c' = c) by congruence. subst c' r2. rewrite Forall_forall in IH, V. apply nth_error_In in Ec. eapply IH; eauto.
  - destruct H as [[= <- <-]|[]]. exact H'.
  - cbn [valid] in V. destruct V as (_ & Vd & Vi). rewrite actors_dep in H. destruct H as [[= <- <-]|H]; [exact H'|]. rewrite actors_dep in H'. apply in_app_iff in H. rewrite !under_in in H.
    destruct H as [(r' & E & H)|(r' & E & H)]; cbn [fst snd app] in *; subst r; (destruct H' as [[=]|H']); apply in_app_iff in H'; rewrite !under_in in H';
      destruct H' as [(r2 & E & H')|(r2 & E & H')]; cbn [fst snd app] in *; injection E as E; try discriminate; subst r2.
    + destruct i as [f|]; [|destruct H]. eapply IHi; eauto.
    + destruct d as [f|]; [|destruct H]. eapply IHd; eauto.
  - destruct V.
Qed.
Lemma actors_up k f : valid lexeme k f -> forall r g t h, In (r, g) (actors f) -> In (t, h) (actors g) -> In (r ++ t, h) (actors f).
Proof.
  revert k. induction f as [link cs IH|x|x d i IHd IHi|x v acts IH] using sfun_ind'; intros k V r g t h H H'.
  - rewrite actors_jun' in H. destruct H as [[= <- <-]|H]; [exact H'|]. apply valid_jun in V. destruct V as (L & Nc & V). apply children_actors_in in H. destruct H as (j & c & r' & Ec & Er & H). cbn [fst snd Nat.add] in *. subst r.
    rewrite actors_jun'. right. apply children_actors_in. exists j, c, (r' ++ t). split; [exact Ec|]. split; [reflexivity|]. cbn [snd]. rewrite Forall_forall in IH, V. apply nth_error_In in Ec. eapply IH; eauto.
  - destruct H as [[= <- <-]|[]]. exact H'.
  - cbn [valid] in V. destruct V as (_ & Vd & Vi). rewrite actors_dep in H. destruct H as [[= <- <-]|H]; [exact H'|]. rewrite actors_dep. right. apply in_app_iff. rewrite !under_in. apply in_app_iff in H. rewrite !under_in in H.
    destruct H as [(r' & E & H)|(r' & E & H)]; cbn [fst snd app] in *; subst r; [left|right]; exists (r' ++ t); (split; [reflexivity|]).
    + destruct i as [f|]; [|destruct H]. eapply IHi; eauto.
    + destruct d as [f|]; [|destruct H]. eapply IHd; eauto.
  - destruct V.
Qed.
Definition isv (r : role) : Prop := exists v, r = [v] /\ In v VALENCES.
Lemma valence_actant v : In v VALENCES -> In v ACTANTS -> False.
Proof. intros H H'. apply valence_not_actant in H. apply ins_In in H'. congruence. Qed.
Lemma proc_node x v acts r g : pvalid lexeme (Proc x v acts) -> In (r, g) (actors (Proc x v acts)) ->
  (r = [v] /\ g = Proc x v acts) \/ exists a r' f, r = a :: r' /\ In (a, f) acts /\ In a ACTANTS /\ valid lexeme KD f /\ In (r', g) (actors f).
Proof.
  cbn [pvalid]. intros (V & N & F) H. rewrite actors_proc in H. destruct H as [[= <- <-]|H]; [now left|]. right. apply in_concat in H. destruct H as (l & Hl & H). apply in_map_iff in Hl. destruct Hl as ([a f] & <- & Ha).
  apply under_in in H. destruct H as (r' & E & H). cbn [fst snd app] in *. subst r. rewrite Forall_forall in F. destruct (F _ Ha). exists a, r', f. auto.
Qed.
(** A node which has a lexeme that is not empty, in the function: at an address below, or the valence. *)
Lemma node_full c f r g : cvalid lexeme c f -> In (r, g) (actors f) ->
  (all_empty g = false <-> exists s h, In (s, h) (actors f) /\ blank (actor_of h) = false /\ ((exists t, s = r ++ t) \/ isv r)).
Proof.
  intros V H. assert (Nv : forall k, valid lexeme k f -> ~ isv r).
  { intros k Vk (v & -> & Hv). pose proof (actors_inner _ _ _ Vk _ _ H) as F. apply Forall_cons_iff in F. destruct F as [[->|[->|[J|J]]] _]; try (cbn in Hv; intuition discriminate).
    - clear - Hv J. apply ins_In in J. cbn in Hv. destruct Hv as [<-|[<-|[<-|[]]]]; discriminate.
    - clear - Hv J. apply ins_In in J. cbn in Hv. destruct Hv as [<-|[<-|[<-|[]]]]; discriminate. }
  assert (Q : (exists k, valid lexeme k f) \/ pvalid lexeme f) by (destruct c; cbn [cvalid] in V; [now right|left; eauto|left; eauto]).
  rewrite all_empty_false. destruct Q as [(k & Vk)|P].
  - split.
    + intros (t & h & Ht & B). exists (r ++ t), h. split; [eapply actors_up; eauto|]. split; [exact B|left; eauto].
    + intros (s & h & Hs & B & [(t & ->)|Hv]); [|elim (Nv k Vk Hv)]. exists t, h. split; [eapply actors_down; eauto|exact B].
  - destruct f as [| | |x v acts]; try solve [destruct P]. destruct (proc_node _ _ _ _ _ P H) as [[-> ->]|(a & r' & f & -> & Ha & Aa & Vf & Hr)].
    + split.
      * intros (s & h & Hs & B). exists s, h. split; [exact Hs|]. split; [exact B|]. right. exists v. split; [reflexivity|]. apply P.
      * intros (s & h & Hs & B & _). eauto.
    + split.
      * intros (t & h & Ht & B). exists (a :: r' ++ t), h. split; [|split; [exact B|left; now exists t]]. rewrite actors_proc. right. apply in_concat. exists (under [a] (actors f)). split; [apply in_map_iff; now exists (a, f)|].
        apply under_in. exists (r' ++ t). split; [reflexivity|]. cbn [snd]. eapply actors_up; eauto.
      * intros (s & h & Hs & B & [(t & ->)|(v' & E & Hv)]).
        2:{ injection E as -> ->. elim (valence_actant v'); auto. }
        exists t, h. split; [|exact B]. destruct (proc_node _ _ _ _ _ P Hs) as [[E ->]|(a2 & r2 & f2 & E & Ha2 & _ & _ & Hr2)].
        { injection E as -> E. elim (valence_actant v); auto. apply P. }
        injection E as <- <-. cbn [pvalid] in P. destruct P as (_ & N & _). assert (f2 = f) by (eapply nodup_fst; eauto). subst f2. eapply actors_down; eauto.
Qed.
Lemma self_full (h : sf) : blank (actor_of h) = false -> all_empty h = false.
Proof.
  intros B. apply all_empty_false. destruct h as [l cs|x|x d i|x v acts].
  - discriminate.
  - exists [], (Indep x). split; [now left|exact B].
  - exists [], (Dep x d i). split; [rewrite actors_dep; now left|exact B].
  - exists [v], (Proc x v acts). split; [rewrite actors_proc; now left|exact B].
Qed.

(** ** Without junctions *)
Definition plain (f : sf) : Prop := forall r g, In (r, g) (actors f) -> is_jun g = false.
Lemma plain_lst f : plain f -> lst lexeme f = map (fun e => (fst e, actor_of (snd e))) (actors f).
Proof. intros H. unfold lst. rewrite filter_true; [reflexivity|]. intros [r g] Hg. cbn [snd]. now rewrite (H r g Hg). Qed.
Lemma plain_dep x d i : (forall g, d = Some g -> plain g) -> (forall g, i = Some g -> plain g) -> plain (Dep x d i).
Proof.
  intros Hd Hi r g H. rewrite actors_dep in H. destruct H as [[= <- <-]|H]; [reflexivity|]. apply in_app_iff in H. rewrite !under_in in H. destruct H as [(r' & _ & H)|(r' & _ & H)]; cbn [snd] in H.
  - destruct i as [f|]; [|destruct H]. eapply Hi; eauto.
  - destruct d as [f|]; [|destruct H]. eapply Hd; eauto.
Qed.
Lemma prune_plain k f : forall fo, valid lexeme k f -> plain (prune k fo f).
Proof.
  revert k. induction f as [link cs IH|x|x d i IHd IHi|x v acts IH] using sfun_ind'; intros k fo V.
  - destruct k; cbn [prune]; [apply plain_dep; discriminate|]. intros r g [[= <- <-]|[]]. reflexivity.
  - intros r g [[= <- <-]|[]]. reflexivity.
  - cbn [valid] in V. destruct V as (_ & Vd & Vi). cbn [prune]. apply plain_dep; intros g E.
    + destruct d as [f|]; [|discriminate]. destruct (keepf _ f); [|discriminate]. injection E as <-. now apply IHd.
    + destruct i as [f|]; [|discriminate]. destruct (keepf _ f); [|discriminate]. injection E as <-. now apply IHi.
  - destruct V.
Qed.
Lemma prune_pvalid x v acts fo : pvalid lexeme (Proc x v acts) -> pvalid lexeme (prune KD fo (Proc x v acts)).
Proof.
  rewrite prune_proc. cbn [pvalid]. intros (V & N & F). split; [exact V|]. rewrite map_map. cbn [fst]. split.
  - clear - N. induction acts as [|p acts IH]; [constructor|]. cbn in *. apply NoDup_cons_iff in N. destruct (keepf _ _); [|tauto]. cbn. constructor; [|tauto].
    intros H. apply (proj1 N). apply in_map_iff in H. destruct H as (q & <- & H). apply filter_In in H. now apply in_map.
  - rewrite Forall_forall in *. intros p Hp. apply in_map_iff in Hp. destruct Hp as (q & <- & Hq). apply filter_In in Hq. cbn [fst snd]. destruct (F q (proj1 Hq)) as [Ha Vq]. split; [exact Ha|]. now apply prune_valid.
Qed.
Lemma prune_proc_plain x v acts fo : pvalid lexeme (Proc x v acts) -> plain (prune KD fo (Proc x v acts)).
Proof.
  intros P. pose proof (prune_pvalid x v acts fo P) as P'. rewrite prune_proc in *. intros r g H. destruct (proc_node _ _ _ _ _ P' H) as [[_ ->]|(a & r' & f & -> & Ha & _ & _ & Hr)]; [reflexivity|].
  apply in_map_iff in Ha. destruct Ha as ([a0 f0] & [= <- <-] & Ha). apply filter_In in Ha. destruct Ha as [Ha _]. cbn [fst snd] in *. destruct P as (_ & _ & F). rewrite Forall_forall in F. destruct (F _ Ha) as [_ Vf]. eapply prune_plain; eauto.
Qed.
Lemma prune_proc_lst x v acts fo : pvalid lexeme (Proc x v acts) -> blocked fo (actors (Proc x v acts)) = false -> keepb fo ([v], Proc x v acts) = true ->
  lst lexeme (prune KD fo (Proc x v acts)) = ents fo (actors (Proc x v acts)).
Proof.
  intros (V & N & F) B K. rewrite prune_proc, lst_proc, ents_proc, K. cbn [app]. f_equal. f_equal. rewrite map_map. cbn [fst snd]. apply map_ext_in. intros p Hp. f_equal. apply filter_In in Hp. destruct Hp as [Hp Kp].
  rewrite Forall_forall in F. destruct (F p Hp) as [Ha Vp]. apply prune_lst; auto. destruct (blocked (sub (fst p) fo) (actors (snd p))) eqn:Bp; [|reflexivity].
  assert (blocked fo (actors (Proc x v acts)) = true); [|congruence]. apply blocked_proc; eauto. apply Forall_forall. intros q Hq. apply F, Hq.
Qed.
Lemma jun_link k f : valid lexeme k f -> forall r link cs, In (r, Jun link cs) (actors f) -> In link JUNCTION_SCRIPTS.
Proof.
  revert k. induction f as [l0 c0 IH|x|x d i IHd IHi|x v acts IH] using sfun_ind'; intros k V r link cs H.
  - rewrite actors_jun' in H. apply valid_jun in V. destruct V as (L & _ & V). destruct H as [[= <- <- <-]|H]; [exact L|]. apply children_actors_in in H. destruct H as (j & c & r' & Ec & _ & H). apply nth_error_In in Ec. rewrite Forall_forall in IH, V. eapply IH; eauto.
  - destruct H as [[=]|[]].
  - cbn [valid] in V. destruct V as (_ & Vd & Vi). rewrite actors_dep in H. destruct H as [[=]|H]. apply in_app_iff in H. rewrite !under_in in H. destruct H as [(r' & _ & H)|(r' & _ & H)]; cbn [snd] in H; [destruct i as [f|]|destruct d as [f|]]; try destruct H; [eapply IHi|eapply IHd]; eauto.
  - destruct V.
Qed.
(** A junction in a function of any kind. *)
Lemma jun_facts c f r link cs : cvalid lexeme c f -> In (r, Jun link cs) (actors f) ->
  In link JUNCTION_SCRIPTS /\ forall t h, In (t, h) (actors (Jun link cs)) <-> In (r ++ t, h) (actors f).
Proof.
  intros V H. assert (Q : forall k, valid lexeme k f -> In link JUNCTION_SCRIPTS /\ forall t h, In (t, h) (actors (Jun link cs)) <-> In (r ++ t, h) (actors f)).
  { intros k Vk. split; [eapply jun_link; eauto|]. intros t h. split; [eapply actors_up; eauto|eapply actors_down; eauto]. }
  destruct c; cbn [cvalid] in V; [|eapply Q; eauto|eapply Q; eauto]. destruct f as [| | |x v acts]; try solve [destruct V].
  destruct (proc_node _ _ _ _ _ V H) as [[_ ?]|(b & r' & f & -> & Hb & Ab & Vf & Hr)]; [discriminate|]. split; [eapply jun_link; eauto|]. intros t h. split.
  - intros Ht. rewrite actors_proc. right. apply in_concat. exists (under [b] (actors f)). split; [apply in_map_iff; now exists (b, f)|]. apply under_in. exists (r' ++ t). split; [reflexivity|]. cbn [snd]. eapply actors_up; eauto.
  - intros Hs. destruct (proc_node _ _ _ _ _ V Hs) as [[E _]|(b2 & r2 & f2 & E & Hb2 & _ & _ & Hr2)].
    + injection E as -> _. elim (valence_actant v); auto. apply V.
    + injection E as <- <-. cbn [pvalid] in V. destruct V as (_ & Nd & _). assert (f2 = f) by (eapply nodup_fst; eauto). subst f2. eapply actors_down; eauto.
Qed.
