(** Exactly when the sum of scripts is associative: lemmas for C17. *)
From Coq Require Import List String Bool NArith Arith Lia Permutation.
From Verif Require Import Base Script ScriptParser SortProofs ScriptWf ScriptStrProofs ScriptOrderProofs ScriptSpec ScriptCtorProofs ScriptParseProofs ScriptAlgProofs.
Import ListNotations.
Local Open Scope string_scope.

Lemma sumN_incl {A} (f : A -> N) l : forall l', NoDup l -> incl l l' -> (sumN (map f l) <= sumN (map f l'))%N.
Proof.
  induction l as [|x l IH]; intros l' N I; [apply N.le_0_l|]. apply NoDup_cons_iff in N. destruct N as [N1 N2].
  destruct (in_split x l' (I x (or_introl eq_refl))) as (l1 & l2 & ->). rewrite (sumN_perm (map f (l1 ++ x :: l2)%list) (map f (x :: l1 ++ l2)%list)) by (apply Permutation_map, Permutation_sym, Permutation_middle).
  cbn [map sumN fold_right]. apply N.add_le_mono_l. apply IH; [exact N2|]. intros y Hy. pose proof (I y (or_intror Hy)) as H. apply in_app_or in H. apply in_or_app. destruct H as [H|[H|H]]; [auto| |auto]. subst. contradiction.
Qed.
Lemma in_flatten cs d : In d (flatten cs) -> (exists c, In c cs /\ (d = c \/ In d (add_children c))) /\ forall s, In s cs -> is_add s = true -> script_eqb d s = false.
Proof.
  unfold flatten. intros H. apply dedup_in in H. apply filter_In in H. destruct H as [H M]. split.
  - apply in_app_or in H. destruct H as [H|H]; [eauto|]. apply in_flat_map in H. destruct H as (c & Hc & Hd). eauto.
  - intros s Hs As. destruct (script_eqb d s) eqn:E; [|reflexivity]. exfalso. apply negb_true_iff in M. assert (X : memb script_eqb d (filter is_add cs) = true); [|congruence].
    unfold memb. apply existsb_exists. exists s. split; [apply filter_In; auto|]. exact E.
Qed.
Definition total (cs : list script) : N := sumN (map cardinal (flatten cs)).
Lemma mk_add_flat so cs L : set_order so -> cs <> [] -> (forall c, In c cs -> layer c = L) ->
  mk_add so cs = match flatten cs with [] => Err IndexError | _ => if N.ltb MAX_SINGULAR_SEQUENCES (total cs) then Err TooManySingularSequences else Ok (Add (isort (so (flatten cs)))) end.
Proof.
  intros SO NE K. unfold mk_add. destruct cs as [|c0 r]; [congruence|].
  assert (B : forallb (fun c => Nat.eqb (layer c) (layer c0)) (c0 :: r) = true).
  { apply forallb_forall. intros c Hc. apply Nat.eqb_eq. rewrite (K c Hc), (K c0 (or_introl eq_refl)). reflexivity. }
  rewrite B. cbn [negb]. unfold total. pose proof (SO (flatten (c0 :: r))) as P. rewrite <- (sumN_perm (map cardinal (so (flatten (c0 :: r)))) (map cardinal (flatten (c0 :: r)))) by (now apply Permutation_map).
  destruct (so (flatten (c0 :: r))) as [|x l] eqn:E, (flatten (c0 :: r)) as [|y m] eqn:E'; [reflexivity|apply Permutation_nil in P; discriminate|apply Permutation_sym, Permutation_nil in P; discriminate|]. reflexivity.
Qed.
Lemma flat_wf cs : (forall c, In c cs -> wf c) -> forall x, In x (flatten cs) -> wf x.
Proof. intros W x Hx. now apply (flatten_in cs x W). Qed.
Lemma flat_nodup cs : (forall c, In c cs -> wf c) -> NoDup (map norm (flatten cs)).
Proof. intros W. apply distinct_norm_nodup; [now apply flat_wf|apply flatten_distinct]. Qed.
Lemma total_norm cs : (forall c, In c cs -> wf c) -> total cs = sumN (map cardinal (map norm (flatten cs))).
Proof. intros W. unfold total. rewrite map_cardinal_norm; [reflexivity|now apply flat_wf]. Qed.
Lemma total_le cs cs' : (forall c, In c cs -> wf c) -> (forall c, In c cs' -> wf c) -> (forall n, In n (map norm (flatten cs)) -> In n (map norm (flatten cs'))) -> (total cs <= total cs')%N.
Proof. intros W W' I. rewrite !total_norm by assumption. apply sumN_incl; [now apply flat_nodup|exact I]. Qed.
Lemma flat_terms cs n : (forall c, In c cs -> nf c) -> In n (map norm (flatten cs)) <-> in_terms cs n.
Proof. intros F. rewrite <- (flatten_norm cs n F), in_map_iff. split; intros (x & A & B); eauto. Qed.
Lemma wf_bound c : wf c -> (cardinal c <= MAX_SINGULAR_SEQUENCES)%N.
Proof. destruct c as [l|p|a b d|cs]; intros W; [discriminate|discriminate|cbn in W; tauto|cbn in W; tauto]. Qed.
Lemma total_addends cs c : wf c -> (forall c, In c cs -> wf c) -> (forall n, In n (map norm (flatten cs)) -> In n (map norm (addends c))) -> (total cs <= MAX_SINGULAR_SEQUENCES)%N.
Proof.
  intros W Wc I. etransitivity; [|apply (wf_bound c W)]. rewrite total_norm by assumption. etransitivity; [apply (sumN_incl cardinal _ (map norm (addends c))); [now apply flat_nodup|exact I]|].
  rewrite map_cardinal_norm.
  - destruct c as [| | |cs']; cbn [addends map]; try (unfold sumN; cbn [fold_right]; rewrite N.add_0_r; reflexivity). reflexivity.
  - intros x Hx. destruct c; try (destruct Hx as [<-|[]]; exact W). now apply (wf_add_in _ _ W).
Qed.
Lemma some_term c : nf c -> exists n, in_terms [c] n.
Proof. intros [W _]. destruct c as [l|p|a b d|[|x cs]]; [| | |cbn in W; tauto|]; try (eexists; eexists; split; [left; reflexivity|left; split; reflexivity]). exists (norm x). apply in_terms_add. now left. Qed.
Lemma addends_terms c n : in_terms [c] n <-> In n (map norm (addends c)).
Proof.
  destruct c as [l|p|a b d|cs]; [| | |apply in_terms_add]; (split; [intros (e & [<-|[]] & [[_ <-]|(d' & [] & _)]); left; reflexivity|intros [<-|[]]; eexists; split; [left; reflexivity|left; auto]]).
Qed.
Lemma two {A} (P : A -> Prop) x y : P x -> P y -> forall c, In c [x; y] -> P c.
Proof. intros H1 H2 c [<-|[<-|[]]]; assumption. Qed.
Lemma add2 so x y : set_order so -> nf x -> nf y -> layer x = layer y ->
  (script_add so x y = Err TooManySingularSequences /\ (MAX_SINGULAR_SEQUENCES < total [x; y])%N) \/
  (exists l, script_add so x y = Ok (Add l) /\ (total [x; y] <= MAX_SINGULAR_SEQUENCES)%N /\ wf (Add l) /\ layer (Add l) = layer x /\ forall n, In n (map norm l) <-> in_terms [x] n \/ in_terms [y] n).
Proof.
  intros SO Nx Ny L. assert (F : forall c, In c [x; y] -> nf c) by (now apply two). pose proof (mk_add_flat so [x; y] (layer x) SO ltac:(discriminate) (two _ x y eq_refl (eq_sym L))) as E. fold (script_add so x y) in E.
  destruct (flatten [x; y]) as [|z m] eqn:Z.
  { exfalso. destruct (some_term x Nx) as (n & Hn). assert (X : In n (map norm (flatten [x; y]))) by (apply flat_terms; [exact F|apply in_terms_two; now left]). rewrite Z in X. destruct X. }
  destruct (N.ltb_spec MAX_SINGULAR_SEQUENCES (total [x; y])) as [T|T]; [left; auto|right]. destruct (script_add_terms so x y _ SO Nx Ny E) as (L1 & _ & W & l & El & I). exists l. rewrite El in *. auto 6.
Qed.
Lemma add2_layers so x y : layer x <> layer y -> script_add so x y = Err IncompatiblesScriptsLayers.
Proof. intros D. unfold script_add, mk_add. cbn [forallb]. rewrite Nat.eqb_refl. destruct (Nat.eqb_spec (layer y) (layer x)) as [E|E]; [congruence|reflexivity]. Qed.
(** The same term on both sides. *)
Definition repeated (a b : script) : Prop := is_add a = false /\ script_eq a b.
Lemma eq_norm a b : wf a -> wf b -> script_eq a b <-> norm a = norm b.
Proof. intros Wa Wb. rewrite <- (script_eqb_norm a b Wa Wb). unfold script_eqb, script_eq. now rewrite String.eqb_eq. Qed.
Lemma single_term c z : nf c -> (forall n, in_terms [c] n -> n = z) -> is_add c = false /\ norm c = z.
Proof.
  intros [W N] H. destruct c as [l|p|a b d|[|x [|y cs]]]; try (split; [reflexivity|apply H; apply addends_terms; now left]).
  - cbn in W. tauto.
  - elim (N x). reflexivity.
  - exfalso. pose proof (H (norm x)) as X. pose proof (H (norm y)) as Y. rewrite in_terms_add in X, Y. cbn in X, Y. pose proof (map_norm_nodup _ W) as D. cbn [map] in D. apply NoDup_cons_iff in D. destruct D as [D _]. apply D. left. rewrite Y, X by auto. reflexivity.
Qed.
Lemma repeated_other a b : nf a -> nf b -> repeated a b -> is_add b = false /\ norm a = norm b.
Proof.
  intros Na Nb [A E]. apply (eq_norm a b (nf_wf _ Na) (nf_wf _ Nb)) in E. split; [|exact E]. pose proof (norm_notadd a (nf_wf _ Na) A) as X. rewrite E in X. destruct b as [| | |[|x [|y cs]]]; try reflexivity.
  - destruct Nb as [W _]. cbn in W. tauto.
  - destruct Nb as [_ N]. elim (N x). reflexivity.
  - cbn in X. discriminate X.
Qed.
Lemma repeated_sum a b l : nf a -> nf b -> wf (Add l) -> (forall n, In n (map norm l) <-> in_terms [a] n \/ in_terms [b] n) -> ((exists z, l = [z]) <-> repeated a b).
Proof.
  intros Na Nb W I. split.
  - intros (z & ->). destruct (single_term a (norm z) Na) as [Aa Ea]; [intros n Hn; symmetry; assert (X : In n (map norm [z])) by (apply I; now left); destruct X as [X|[]]; exact X|].
    destruct (single_term b (norm z) Nb) as [Ab Eb]; [intros n Hn; symmetry; assert (X : In n (map norm [z])) by (apply I; now right); destruct X as [X|[]]; exact X|].
    split; [exact Aa|]. apply eq_norm; [apply Na|apply Nb|congruence].
  - intros R. destruct (repeated_other a b Na Nb R) as [Ab E]. destruct R as [Aa _]. assert (U : forall n, In n (map norm l) -> n = norm a).
    { intros n Hn. apply I in Hn. rewrite !addends_terms in Hn. destruct a; try discriminate Aa; destruct b; try discriminate Ab; cbn [addends map In] in Hn; intuition congruence. }
    pose proof (map_norm_nodup _ W) as D. destruct l as [|x [|y l]]; [cbn in W; tauto|eauto|]. exfalso. cbn [map] in D. apply NoDup_cons_iff in D. destruct D as [D _]. apply D. left. rewrite (U (norm y)), (U (norm x)) by (cbn; auto). reflexivity.
Qed.
(** Adding a one-term sum: its term is lost. *)
Section One.
  Variable so : list script -> list script.
  Hypothesis SO : set_order so.
  Variables x c : script.
  Hypothesis W : wf (Add [x]).
  Hypothesis Nc : nf c.
  Hypothesis L : layer x = layer c.
  Variable cs : list script.
  Hypothesis I1 : In (Add [x]) cs.
  Hypothesis I2 : forall e, In e cs -> e = Add [x] \/ e = c.
  Lemma cs_wf : forall e, In e cs -> wf e.
  Proof. intros e He. destruct (I2 e He) as [-> | ->]; [exact W|apply Nc]. Qed.
  Lemma x_wf : wf x /\ is_add x = false.
  Proof. destruct (wf_add_in _ x W (or_introl eq_refl)) as (A & B & _). auto. Qed.
  Lemma one_flat n : In n (map norm (flatten cs)) -> In n (map norm (addends c)) /\ n <> norm x.
  Proof.
    intros H. apply in_map_iff in H. destruct H as (d & <- & Hd). assert (Wd : wf d) by (apply (flat_wf cs cs_wf d Hd)). pose proof (flatten_in cs d cs_wf Hd) as (_ & Ad & _). destruct (in_flatten cs d Hd) as ((e & He & Ho) & R).
    assert (X : norm d <> norm x).
    { intros E. pose proof (R (Add [x]) I1 eq_refl) as Y. assert (Z : script_eqb d (Add [x]) = true); [|congruence]. apply script_eqb_norm; [exact Wd|exact W|]. rewrite norm_add. cbn [map lone]. exact E. }
    split; [|exact X]. destruct (I2 e He) as [-> | ->].
    - destruct Ho as [-> |[<-|[]]]; [discriminate Ad|congruence].
    - destruct Ho as [-> |Ho]; [destruct c; try (left; reflexivity); discriminate Ad|]. destruct c; cbn [add_children] in Ho; try (destruct Ho; fail). now apply in_map.
  Qed.
  Lemma one_layers : forall e, In e cs -> layer e = layer c.
  Proof. intros e He. destruct (I2 e He) as [-> | ->]; [exact L|reflexivity]. Qed.
  Lemma one_result : (mk_add so cs = Err IndexError) \/ exists l, mk_add so cs = Ok (Add l) /\ wf (Add l) /\ ~ In (norm x) (map norm l).
  Proof.
    assert (NE : cs <> []) by (intros E; rewrite E in I1; destruct I1). pose proof (mk_add_flat so cs (layer c) SO NE one_layers) as E. pose proof (total_addends cs c (nf_wf _ Nc) cs_wf (fun n Hn => proj1 (one_flat n Hn))) as T. destruct (N.ltb_spec MAX_SINGULAR_SEQUENCES (total cs)) as [T'|_]; [exfalso; apply N.lt_nge in T'; contradiction|].
    destruct (flatten cs) as [|z m] eqn:Z; [left; exact E|right]. rewrite <- Z in E. exists (isort (so (flatten cs))). split; [exact E|]. split.
    - apply (mk_add_wf so cs _ SO cs_wf E).
    - intros H. apply in_map_iff in H. destruct H as (d & Ed & Hd). apply (Permutation_in _ (isort_perm _)) in Hd. apply (Permutation_in _ (SO _)) in Hd. apply (one_flat (norm x)); [|reflexivity]. rewrite <- Ed. now apply in_map.
  Qed.
  Lemma one_empty : norm c = norm x -> is_add c = false -> mk_add so cs = Err IndexError.
  Proof.
    intros E A. assert (NE : cs <> []) by (intros Ec; rewrite Ec in I1; destruct I1). rewrite (mk_add_flat so cs (layer c) SO NE one_layers). destruct (flatten cs) as [|z m] eqn:Z; [reflexivity|]. exfalso. assert (X : In (norm z) (map norm (flatten cs))) by (rewrite Z; now left). apply one_flat in X. destruct X as [X Y]. destruct c; try discriminate A; destruct X as [X|[]]; congruence.
  Qed.
End One.
Lemma layer_terms c n : nf c -> in_terms [c] n -> layer n = layer c.
Proof.
  intros [W _] H. rewrite addends_terms in H. apply in_map_iff in H. destruct H as (d & <- & Hd). destruct c as [| | |cs]; try (destruct Hd as [<-|[]]; now apply layer_norm). destruct (wf_add_in cs d W Hd) as (Wd & _ & E). rewrite layer_norm by exact Wd. exact E.
Qed.
Lemma terms_text l l' : wf (Add l) -> wf (Add l') -> script_eq (Add l) (Add l') -> forall n, In n (map norm l) <-> In n (map norm l').
Proof.
  intros W W' E n. apply (eq_norm _ _ W W') in E. rewrite !norm_add in E.
  assert (K : forall k, wf (Add k) -> forall y, In y (map norm k) -> is_add y = false) by (intros k Wk y Hy; apply in_map_iff in Hy; destruct Hy as (d & <- & Hd); destruct (wf_add_in k d Wk Hd) as (Wd & Ad & _); now apply norm_notadd).
  pose proof (K l W) as K1. pose proof (K l' W') as K2. destruct (map norm l) as [|x [|y m]], (map norm l') as [|x' [|y' m']]; cbn [lone] in E; try (injection E as <-); try (subst; tauto); try congruence; try tauto.
  all: try (subst; exfalso; specialize (K1 _ (or_introl eq_refl)); discriminate K1); try (subst; exfalso; specialize (K2 _ (or_introl eq_refl)); discriminate K2).
Qed.
Section Assoc.
  Variables s1 s2 s3 s4 : list script -> list script.
  Hypothesis S1 : set_order s1.
  Hypothesis S2 : set_order s2.
  Hypothesis S3 : set_order s3.
  Hypothesis S4 : set_order s4.
  Variables a b c : script.
  Hypothesis Na : nf a.
  Hypothesis Nb : nf b.
  Hypothesis Nc : nf c.
  Notation left_sum := (do ab <- script_add s1 a b; script_add s3 ab c).
  Notation right_sum := (do bc <- script_add s2 b c; script_add s4 a bc).
  Lemma bigger x y z l so : set_order so -> nf x -> nf y -> nf z -> layer x = layer y -> (forall n, In n (map norm l) <-> in_terms [y] n \/ in_terms [z] n) -> nf (Add l) -> layer (Add l) = layer x ->
    (MAX_SINGULAR_SEQUENCES < total [x; y])%N -> script_add so x (Add l) = Err TooManySingularSequences.
  Proof.
    intros SO Nx Ny Nz Lxy I Nl Ll T. destruct (add2 so x (Add l) SO Nx Nl (eq_sym Ll)) as [[E _]|(m & E & T' & _)]; [exact E|]. exfalso. apply N.lt_nge in T. apply T. etransitivity; [|exact T'].
    apply total_le; [apply two; [apply Nx|apply Ny]|apply two; [apply Nx|apply Nl]|]. intros n. rewrite !flat_terms by (now apply two). rewrite !in_terms_two, in_terms_add, I. tauto.
  Qed.
  Lemma bigger' x y z l so : set_order so -> nf x -> nf y -> nf z -> layer x = layer y -> (forall n, In n (map norm l) <-> in_terms [z] n \/ in_terms [y] n) -> nf (Add l) -> layer (Add l) = layer x ->
    (MAX_SINGULAR_SEQUENCES < total [y; x])%N -> script_add so (Add l) x = Err TooManySingularSequences.
  Proof.
    intros SO Nx Ny Nz Lxy I Nl Ll T. destruct (add2 so (Add l) x SO Nl Nx Ll) as [[E _]|(m & E & T' & _)]; [exact E|]. exfalso. apply N.lt_nge in T. apply T. etransitivity; [|exact T'].
    apply total_le; [apply two; [apply Ny|apply Nx]|apply two; [apply Nl|apply Nx]|]. intros n. rewrite !flat_terms by (now apply two). rewrite !in_terms_two, in_terms_add, I. tauto.
  Qed.
  Lemma sum_nf x y l : nf x -> nf y -> wf (Add l) -> (forall n, In n (map norm l) <-> in_terms [x] n \/ in_terms [y] n) -> ~ repeated x y -> nf (Add l).
  Proof. intros Nx Ny W I R. split; [exact W|]. intros z E. injection E as ->. apply R. apply (repeated_sum x y [z] Nx Ny W I). eauto. Qed.
  Lemma assoc_none : layer a = layer b -> layer b = layer c -> ~ repeated a b -> ~ repeated b c -> same_result left_sum right_sum.
  Proof.
    intros L1 L2 R1 R2. destruct (add2 s1 a b S1 Na Nb L1) as [[E T]|(l & E & T & W & Ll & I)], (add2 s2 b c S2 Nb Nc L2) as [[E' T']|(l' & E' & T' & W' & Ll' & I')]; rewrite E, E'; cbn [bind same_result].
    - reflexivity.
    - assert (X : script_add s4 a (Add l') = Err TooManySingularSequences) by (apply (bigger a b c); auto; [apply (sum_nf b c); auto|congruence]). rewrite X. reflexivity.
    - assert (X : script_add s3 (Add l) c = Err TooManySingularSequences) by (apply (bigger' c b a); auto; [apply (sum_nf a b); auto|congruence]). rewrite X. reflexivity.
    - apply (script_add_assoc s1 s2 s3 s4 a b c); auto; [apply (sum_nf a b); auto|apply (sum_nf b c); auto].
  Qed.
  Lemma repeated_add so x y : set_order so -> nf x -> nf y -> layer x = layer y -> repeated x y -> exists z, script_add so x y = Ok (Add [z]) /\ wf (Add [z]) /\ layer z = layer x /\ norm z = norm x.
  Proof.
    intros SO Nx Ny L R. destruct (repeated_other x y Nx Ny R) as [Ay En]. destruct (add2 so x y SO Nx Ny L) as [[E T]|(l & E & T & W & Ll & I)].
    - exfalso. apply N.lt_nge in T. apply T. apply (total_addends _ x); [apply Nx|apply two; [apply Nx|apply Ny]|]. intros n. rewrite flat_terms by (now apply two). rewrite in_terms_two, !addends_terms. destruct R as [Ax _]. destruct x; try discriminate Ax; destruct y; try discriminate Ay; cbn [addends map In]; intuition congruence.
    - destruct (proj2 (repeated_sum x y l Nx Ny W I) R) as (z & ->). exists z. split; [exact E|]. split; [exact W|]. split; [exact Ll|]. assert (X : In (norm z) (map norm [z])) by (now left). apply I in X. rewrite !addends_terms in X. destruct R as [Ax _]. destruct x; try discriminate Ax; destruct y; try discriminate Ay; cbn [addends map In] in X; intuition congruence.
  Qed.
  Lemma assoc_left : layer a = layer b -> layer b = layer c -> repeated a b -> ~ repeated b c -> ~ same_result left_sum right_sum.
  Proof.
    intros L1 L2 R1 R2. destruct (repeated_add s1 a b S1 Na Nb L1 R1) as (z & E & W & Lz & Ez). rewrite E. cbn [bind].
    destruct (one_result s3 S3 z c W Nc ltac:(congruence) [Add [z]; c] ltac:(now left)) as [X|(m & X & Wm & Hm)]; [intros e [<-|[<-|[]]]; auto| |]; fold (script_add s3 (Add [z]) c) in X; rewrite X;
    (destruct (add2 s2 b c S2 Nb Nc L2) as [[E' T']|(l' & E' & T' & W' & Ll' & I')]; rewrite E'; cbn [bind]; [intros Y; (discriminate Y || exact Y)|]);
    (destruct (add2 s4 a (Add l') S4 Na (sum_nf b c l' Nb Nc W' I' R2) ltac:(congruence)) as [[F' T'']|(k & F' & T'' & Wk & Lk & Ik)]; rewrite F'; [intros Y; (discriminate Y || exact Y)|]); [intros Y; exact Y|].
    cbn [same_result]. intros Y. apply Hm. apply (terms_text m k Wm Wk Y). apply Ik. left. rewrite Ez. apply addends_terms. destruct R1 as [Aa _]. destruct a; try discriminate Aa; now left.
  Qed.
  Lemma assoc_right : layer a = layer b -> layer b = layer c -> ~ repeated a b -> repeated b c -> ~ same_result left_sum right_sum.
  Proof.
    intros L1 L2 R1 R2. destruct (repeated_add s2 b c S2 Nb Nc L2 R2) as (z & E & W & Lz & Ez). rewrite E. cbn [bind].
    destruct (one_result s4 S4 z a W Na ltac:(congruence) [a; Add [z]] ltac:(right; now left)) as [X|(m & X & Wm & Hm)]; [intros e [<-|[<-|[]]]; auto| |]; fold (script_add s4 a (Add [z])) in X; rewrite X;
    (destruct (add2 s1 a b S1 Na Nb L1) as [[E' T']|(l' & E' & T' & W' & Ll' & I')]; rewrite E'; cbn [bind]; [intros Y; (discriminate Y || exact Y)|]);
    (destruct (add2 s3 (Add l') c S3 (sum_nf a b l' Na Nb W' I' R1) Nc ltac:(congruence)) as [[F' T'']|(k & F' & T'' & Wk & Lk & Ik)]; rewrite F'; [intros Y; (discriminate Y || exact Y)|]); [intros Y; exact Y|].
    cbn [same_result]. intros Y. apply Hm. apply (terms_text k m Wk Wm Y). apply Ik. right. rewrite Ez. destruct (repeated_other b c Nb Nc R2) as [Ac ->]. apply addends_terms. destruct c; try discriminate Ac; now left.
  Qed.
  Lemma assoc_both : layer a = layer b -> layer b = layer c -> repeated a b -> repeated b c -> same_result left_sum right_sum.
  Proof.
    intros L1 L2 R1 R2. destruct (repeated_add s1 a b S1 Na Nb L1 R1) as (z & E & W & Lz & Ez). destruct (repeated_add s2 b c S2 Nb Nc L2 R2) as (z' & E' & W' & Lz' & Ez'). rewrite E, E'. cbn [bind].
    destruct (repeated_other a b Na Nb R1) as [Ab Eab]. destruct (repeated_other b c Nb Nc R2) as [Ac Ebc].
    assert (X : script_add s3 (Add [z]) c = Err IndexError) by (apply (one_empty s3 S3 z c W Nc ltac:(congruence)); [now left|intros e [<-|[<-|[]]]; auto|congruence|exact Ac]).
    assert (Y : script_add s4 a (Add [z']) = Err IndexError) by (apply (one_empty s4 S4 z' a W' Na ltac:(congruence)); [right; now left|intros e [<-|[<-|[]]]; auto|congruence|apply R1]).
    rewrite X, Y. reflexivity.
  Qed.
  Lemma assoc_exact : same_result left_sum right_sum <->
    (layer a = layer b -> layer b = layer c -> (repeated a b <-> repeated b c)) /\
    (layer a = layer b -> layer b <> layer c -> script_add s1 a b <> Err TooManySingularSequences) /\
    (layer b = layer c -> layer a <> layer b -> script_add s2 b c <> Err TooManySingularSequences).
  Proof.
    assert (Dec : forall x y, repeated x y \/ ~ repeated x y).
    { intros x y. unfold repeated, script_eq. destruct (is_add x); [right; intros [? _]; discriminate|]. destruct (string_dec (str x) (str y)); [left; auto|right; tauto]. }
    destruct (Nat.eq_dec (layer a) (layer b)) as [L1|L1], (Nat.eq_dec (layer b) (layer c)) as [L2|L2].
    - split; [|intros (H & _)].
      + intros H. split; [|split; congruence]. intros _ _. destruct (Dec a b) as [R1|R1], (Dec b c) as [R2|R2]; try tauto; exfalso; [now apply assoc_left in R2|now apply assoc_right in R2].
      + specialize (H L1 L2). destruct (Dec a b) as [R1|R1]; [apply assoc_both; tauto|apply assoc_none; tauto].
    - rewrite (add2_layers s2 b c L2). cbn [bind]. destruct (add2 s1 a b S1 Na Nb L1) as [[E T]|(l & E & T & W & Ll & I)]; rewrite E; cbn [bind].
      + split; [discriminate|]. intros (_ & H & _). elim (H L1 L2). reflexivity.
      + rewrite (add2_layers s3 (Add l) c) by congruence. split; [|reflexivity]. intros _. split; [congruence|]. split; [discriminate|congruence].
    - rewrite (add2_layers s1 a b L1). cbn [bind]. destruct (add2 s2 b c S2 Nb Nc L2) as [[E T]|(l & E & T & W & Ll & I)]; rewrite E; cbn [bind].
      + split; [discriminate|]. intros (_ & _ & H). elim (H L2 L1). reflexivity.
      + rewrite (add2_layers s4 a (Add l)) by congruence. split; [|reflexivity]. intros _. split; [congruence|]. split; [congruence|discriminate].
    - rewrite (add2_layers s1 a b L1), (add2_layers s2 b c L2). cbn [bind same_result]. split; [|reflexivity]. intros _. split; [congruence|]. split; congruence.
  Qed.
End Assoc.
