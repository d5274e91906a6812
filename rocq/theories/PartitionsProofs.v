(** Lemmas for Properties30. *)
From Coq Require Import List String Bool Arith NArith Lia.
From Verif Require Import Base Script ScriptAlgProofs Usl Sfun UslParser Path PathSpec PathProofs PathAlgProofs PathDerefProofs PathBuildProofs Instance UslTable Partitions PartitionsSpec.
Import ListNotations.
Local Open Scope list_scope.

(** * Trees of texts *)
Inductive stree := ST (l : list (string * stree)).
Definition sk (t : stree) := match t with ST l => l end.
Lemma stree_ind' (P : stree -> Prop) : (forall l, Forall (fun e => P (snd e)) l -> P (ST l)) -> forall t, P t.
Proof.
  intros H. fix IH 1. intros [l]. apply H. induction l as [|[k t] l IHl]; constructor; [apply IH|exact IHl].
Qed.
Lemma ptree_ind' (P : ptree -> Prop) : (forall l, Forall (fun e => P (snd e)) l -> P (PT l)) -> forall t, P t.
Proof.
  intros H. fix IH 1. intros [l]. apply H. induction l as [|[k t] l IHl]; constructor; [apply IH|exact IHl].
Qed.
Definition names := list string.
Definition sexpand (k : string) (sub acc : list (list names)) : list (list names) :=
  map (fun r => r ++ [[k]]) acc ++ flat_map (fun r => map (fun e => r ++ map (cons k) e) sub) acc.
Fixpoint sparts (t : stree) : list (list names) :=
  (fix go (l : list (string * stree)) (acc : list (list names)) : list (list names) :=
    match l with [] => acc | (k, t) :: l => go l (sexpand k (sparts t) acc) end) (sk t) [[]].
Definition sfold (l : list (string * stree)) (acc : list (list names)) : list (list names) :=
  fold_left (fun acc e => sexpand (fst e) (sparts (snd e)) acc) l acc.
Lemma sparts_eq l : sparts (ST l) = sfold l [[]].
Proof. unfold sfold. cbn. generalize ([[]] : list (list names)). induction l as [|[k t] l IH]; intros acc; [reflexivity|apply IH]. Qed.

Inductive snode : stree -> names -> Prop :=
| sn_here l k t : In (k, t) l -> snode (ST l) [k]
| sn_below l k t n : In (k, t) l -> snode t n -> snode (ST l) (k :: n).
Inductive uniq : stree -> Prop :=
| uniq_ l : NoDup (map fst l) -> Forall (fun e => uniq (snd e)) l -> uniq (ST l).
Lemma snode_nil t : ~ snode t []. Proof. intros H. inversion H. Qed.
Lemma snode_inv l k n : snode (ST l) (k :: n) -> exists t, In (k, t) l /\ (n = [] \/ snode t n).
Proof. intros H. inversion H; subst; eauto. Qed.

Lemma FOP_app {A} (R : A -> A -> Prop) a b : ForallOrdPairs R a -> ForallOrdPairs R b -> (forall x y, In x a -> In y b -> R x y) -> ForallOrdPairs R (a ++ b).
Proof.
  induction a as [|x a IH]; intros Ha Hb H; [exact Hb|]. inversion Ha; subst. cbn. constructor.
  - apply Forall_app. split; [assumption|]. apply Forall_forall. intros y Hy. apply H; [now left|exact Hy].
  - apply IH; auto. intros z y Hz. apply H. now right.
Qed.
Lemma FOP_map {A B} (f : A -> B) (R : B -> B -> Prop) l : ForallOrdPairs (fun x y => R (f x) (f y)) l -> ForallOrdPairs R (map f l).
Proof. induction 1; cbn; constructor; auto. now apply Forall_map. Qed.
Lemma FOP_impl {A} (R R' : A -> A -> Prop) l : (forall x y, In x l -> In y l -> R x y -> R' x y) -> ForallOrdPairs R l -> ForallOrdPairs R' l.
Proof.
  intros H F. induction F as [|x l Fx F IH]; constructor.
  - rewrite Forall_forall in *. intros y Hy. apply H; [now left|now right|auto].
  - apply IH. intros a b Ha Hb. apply H; now right.
Qed.
Lemma FOP_flat_map {A B} (f : A -> list B) (R : B -> B -> Prop) l :
  (forall x, In x l -> ForallOrdPairs R (f x)) ->
  ForallOrdPairs (fun x y => forall a b, In a (f x) -> In b (f y) -> R a b) l -> ForallOrdPairs R (flat_map f l).
Proof.
  intros H F. induction F as [|x l Fx F IH]; cbn; [constructor|]. apply FOP_app; [apply H; now left|apply IH; intros; apply H; now right|].
  intros a b Ha Hb. apply in_flat_map in Hb. destruct Hb as (y & Hy & Hb). rewrite Forall_forall in Fx. eauto.
Qed.

Definition headed (K : string -> Prop) (r : list names) : Prop := forall n, In n r -> exists k m, n = k :: m /\ K k.
Lemma split_same (K : string -> Prop) k r r' x x' : headed K r -> headed K r' -> ~ K k -> headed (eq k) x -> headed (eq k) x' ->
  same_set (r ++ x) (r' ++ x') -> same_set r r' /\ same_set x x'.
Proof.
  intros Hr Hr' Hk Hx Hx' H. split; intros n; split; intros Hn.
  - destruct (Hr _ Hn) as (j & m & E & Kj). assert (I : In n (r' ++ x')) by (apply H, in_app_iff; auto).
    apply in_app_iff in I. destruct I as [I|I]; auto. destruct (Hx' _ I) as (j' & m' & E' & <-). subst. injection E' as -> ->. contradiction.
  - destruct (Hr' _ Hn) as (j & m & E & Kj). assert (I : In n (r ++ x)) by (apply H, in_app_iff; auto).
    apply in_app_iff in I. destruct I as [I|I]; auto. destruct (Hx _ I) as (j' & m' & E' & <-). subst. injection E' as -> ->. contradiction.
  - destruct (Hx _ Hn) as (j & m & E & <-). assert (I : In n (r' ++ x')) by (apply H, in_app_iff; auto).
    apply in_app_iff in I. destruct I as [I|I]; auto. destruct (Hr' _ I) as (j' & m' & E' & Kj). subst. injection E' as -> ->. contradiction.
  - destruct (Hx' _ Hn) as (j & m & E & <-). assert (I : In n (r ++ x)) by (apply H, in_app_iff; auto).
    apply in_app_iff in I. destruct I as [I|I]; auto. destruct (Hr _ I) as (j' & m' & E' & Kj). subst. injection E' as -> ->. contradiction.
Qed.
Lemma headed_one k : headed (eq k) [[k]].
Proof. intros n [<-|[]]. eauto. Qed.
Lemma headed_cons k e : headed (eq k) (map (cons k) e).
Proof. intros n Hn. apply in_map_iff in Hn. destruct Hn as (m & <- & _). eauto. Qed.

Definition antichain (r : list names) : Prop := forall a b, In a r -> In b r -> is_prefix a b -> a = b.
Definition valid (t : stree) (r : list names) : Prop := NoDup r /\ (forall n, In n r -> snode t n) /\ antichain r.
Definition exact (t : stree) (R : list (list names)) : Prop :=
  (forall r, In r R -> valid t r) /\
  (forall S, (forall n, In n S -> snode t n) -> antichain S -> exists r, In r R /\ same_set r S) /\
  ForallOrdPairs (fun a b => ~ same_set a b) R.

Lemma valid_headed l r : valid (ST l) r -> headed (fun k => In k (map fst l)) r.
Proof.
  intros (_ & H & _) n Hn. apply H in Hn. destruct n as [|k n]; [now apply snode_nil in Hn|]. apply snode_inv in Hn. destruct Hn as (t & I & _).
  exists k, n. split; auto. apply in_map_iff. exists (k, t). auto.
Qed.
Lemma prefix_heads a b k m k' m' : a = k :: m -> b = k' :: m' -> is_prefix a b -> k = k' /\ is_prefix m m'.
Proof. intros -> -> (c & E). injection E as -> ->. split; auto. now exists c. Qed.
Lemma antichain_app (K : string -> Prop) k r x : headed K r -> ~ K k -> headed (eq k) x -> antichain r -> antichain x -> antichain (r ++ x).
Proof.
  intros Hr Hk Hx Ar Ax a b Ha Hb P. apply in_app_iff in Ha, Hb. destruct Ha as [Ha|Ha], Hb as [Hb|Hb]; auto.
  - destruct (Hr _ Ha) as (j & m & E & Kj), (Hx _ Hb) as (j' & m' & E' & <-). destruct (prefix_heads _ _ _ _ _ _ E E' P) as [-> _]. contradiction.
  - destruct (Hx _ Ha) as (j & m & E & <-), (Hr _ Hb) as (j' & m' & E' & Kj). destruct (prefix_heads _ _ _ _ _ _ E E' P) as [-> _]. contradiction.
Qed.
Lemma nodup_app (K : string -> Prop) k (r x : list names) : headed K r -> ~ K k -> headed (eq k) x -> NoDup r -> NoDup x -> NoDup (r ++ x).
Proof.
  intros Hr Hk Hx Nr Nx. induction Nr as [|n r Hn Nr IH]; [exact Nx|]. cbn. constructor.
  - intros I. apply in_app_iff in I. destruct I as [I|I]; auto. destruct (Hx _ I) as (j & m & E & <-). destruct (Hr n (or_introl eq_refl)) as (j' & m' & E' & Kj).
    subst. injection E' as -> ->. contradiction.
  - apply IH. intros y Hy. apply Hr. now right.
Qed.
Lemma antichain_cons k e : antichain e -> antichain (map (cons k) e).
Proof.
  intros A a b Ha Hb P. apply in_map_iff in Ha, Hb. destruct Ha as (a' & <- & Ha), Hb as (b' & <- & Hb).
  destruct (prefix_heads _ _ _ _ _ _ eq_refl eq_refl P) as [_ P']. f_equal. auto.
Qed.
Lemma snode_mono l k n e : snode (ST l) n -> snode (ST (l ++ [(k, e)])) n.
Proof. intros H. inversion H; subst; [apply sn_here with t|apply sn_below with t]; auto; apply in_app_iff; auto. Qed.

Definition head_is (k : string) (n : names) : bool := match n with j :: _ => String.eqb j k | [] => false end.
Definition rest_of (n : names) : names := match n with _ :: m => m | [] => [] end.

Lemma snoc_exact l k t : NoDup (map fst (l ++ [(k, t)])) -> exact t (sparts t) -> exact (ST l) (sfold l [[]]) ->
  exact (ST (l ++ [(k, t)])) (sfold (l ++ [(k, t)]) [[]]).
Proof.
  intros ND (V & C & D) (VL & CL & DL). unfold sfold. rewrite fold_left_app. fold (sfold l [[]]). set (R := sfold l [[]]) in *. cbn [fold_left fst snd].
  set (K := fun j => In j (map fst l)).
  assert (NK : ~ K k). { rewrite map_app in ND. apply NoDup_remove_2 in ND. now rewrite app_nil_r in ND. }
  assert (HR : forall r, In r R -> headed K r) by (intros r Hr; apply valid_headed; auto).
  assert (IN : In (k, t) (l ++ [(k, t)])) by (apply in_app_iff; right; now left).
  split; [|split].
  - intros r Hr. unfold sexpand in Hr. apply in_app_iff in Hr. destruct Hr as [Hr|Hr].
    + apply in_map_iff in Hr. destruct Hr as (r0 & <- & Hr0). destruct (VL _ Hr0) as (N0 & S0 & A0). split; [|split].
      * apply (nodup_app K k); auto using headed_one. constructor; [auto|constructor].
      * intros n Hn. apply in_app_iff in Hn. destruct Hn as [Hn|[<-|[]]]; [now apply snode_mono, S0|]. now apply sn_here with t.
      * apply (antichain_app K k); auto using headed_one. intros a b [<-|[]] [<-|[]] _. reflexivity.
    + apply in_flat_map in Hr. destruct Hr as (r0 & Hr0 & Hr). apply in_map_iff in Hr. destruct Hr as (e & <- & He).
      destruct (VL _ Hr0) as (N0 & S0 & A0). destruct (V _ He) as (Ne & Se & Ae). split; [|split].
      * apply (nodup_app K k); auto using headed_cons. apply FinFun.Injective_map_NoDup; auto. intros a b E. now injection E.
      * intros n Hn. apply in_app_iff in Hn. destruct Hn as [Hn|Hn]; [now apply snode_mono, S0|]. apply in_map_iff in Hn. destruct Hn as (m & <- & Hm).
        apply sn_below with t; auto.
      * apply (antichain_app K k); auto using headed_cons, antichain_cons.
  - intros S HS AS.
    destruct (CL (filter (fun n => negb (head_is k n)) S)) as (r & Hr & Er).
    { intros n Hn. apply filter_In in Hn. destruct Hn as (Hn & B). apply HS in Hn. destruct n as [|j n]; [now apply snode_nil in Hn|].
      cbn in B. apply negb_true_iff, String.eqb_neq in B. apply snode_inv in Hn. destruct Hn as (t' & I & O). apply in_app_iff in I. destruct I as [I|[I|[]]]; [|injection I as <- <-; congruence].
      destruct O as [->|O]; [now apply sn_here with t'|now apply sn_below with t']. }
    { intros a b Ha Hb. apply filter_In in Ha, Hb. apply AS; tauto. }
    assert (SUB : forall m, In (k :: m) S -> m = [] \/ snode t m).
    { intros m Hm. apply HS, snode_inv in Hm. destruct Hm as (t' & I & O). apply in_app_iff in I. destruct I as [I|[I|[]]]; [|injection I as <-; auto].
      exfalso. apply NK. apply in_map_iff. exists (k, t'). auto. }
    destruct (in_dec (list_eq_dec string_dec) [k] S) as [I|I].
    + exists (r ++ [[k]]). split.
      * unfold sexpand. apply in_app_iff. left. apply in_map_iff. eauto.
      * intros n. rewrite in_app_iff, (Er n), filter_In. split.
        -- intros [[Hn _]|[<-|[]]]; auto.
        -- intros Hn. destruct (head_is k n) eqn:B; [right|left; auto]. left. destruct n as [|j n]; [discriminate|]. cbn in B. apply String.eqb_eq in B. subst j.
           apply AS; auto. now exists n.
    + destruct (C (map rest_of (filter (head_is k) S))) as (e & He & Ee).
      { intros n Hn. apply in_map_iff in Hn. destruct Hn as (m & <- & Hm). apply filter_In in Hm. destruct Hm as (Hm & B). destruct m as [|j m]; [discriminate|].
        cbn in B. apply String.eqb_eq in B. subst j. cbn. destruct (SUB m Hm) as [->|]; auto. contradiction. }
      { intros a b Ha Hb P. apply in_map_iff in Ha, Hb. destruct Ha as (a' & <- & Ha), Hb as (b' & <- & Hb). apply filter_In in Ha, Hb.
        destruct Ha as (Ha & Ba), Hb as (Hb & Bb). destruct a' as [|j a']; [discriminate|]. destruct b' as [|j' b']; [discriminate|]. cbn in Ba, Bb, P |- *.
        apply String.eqb_eq in Ba, Bb. subst. assert (E : k :: a' = k :: b'). { apply AS; auto. destruct P as (c & ->). now exists c. } now injection E. }
      exists (r ++ map (cons k) e). split.
      * unfold sexpand. apply in_app_iff. right. apply in_flat_map. exists r. split; auto. apply in_map_iff. eauto.
      * intros n. rewrite in_app_iff, (Er n), filter_In. split.
        -- intros [[Hn _]|Hn]; auto. apply in_map_iff in Hn. destruct Hn as (m & <- & Hm). apply Ee in Hm. apply in_map_iff in Hm. destruct Hm as (n & <- & Hn).
           apply filter_In in Hn. destruct Hn as (Hn & B). destruct n as [|j n]; [discriminate|]. cbn in B. apply String.eqb_eq in B. now subst j.
        -- intros Hn. destruct (head_is k n) eqn:B; [right|left; auto]. destruct n as [|j n]; [discriminate|]. pose proof B as B'. cbn in B. apply String.eqb_eq in B. subst j.
           apply in_map. apply Ee. apply in_map_iff. exists (k :: n). split; auto. apply filter_In. auto.
  - assert (NE : forall r r' e, In r R -> In r' R -> In e (sparts t) -> ~ same_set (r ++ [[k]]) (r' ++ map (cons k) e)).
    { intros r r' e Hr Hr' He H. apply (split_same K k) in H; auto using headed_one, headed_cons. destruct H as (_ & H).
      assert (I : In [k] (map (cons k) e)) by (apply H; now left). apply in_map_iff in I. destruct I as (m & E & Hm). injection E as ->.
      destruct (V _ He) as (_ & Se & _). apply Se in Hm. now apply snode_nil in Hm. }
    unfold sexpand. apply FOP_app.
    + apply FOP_map. apply (FOP_impl (fun a b => ~ same_set a b)); auto. intros r r' Hr Hr' N H. apply N. apply (split_same K k) in H; auto using headed_one. tauto.
    + apply FOP_flat_map.
      * intros r Hr. apply FOP_map. apply (FOP_impl (fun a b => ~ same_set a b)); auto. intros e e' He He' N H. apply N.
        apply (split_same K k) in H; auto using headed_cons. destruct H as (_ & H). intros n. specialize (H (k :: n)). rewrite !in_map_iff in H.
        split; intros Hn; [destruct H as [H _]|destruct H as [_ H]]; (destruct H as (m & E & Hm); [eauto|]); injection E as ->; auto.
      * apply (FOP_impl (fun a b => ~ same_set a b)); auto. intros r r' Hr Hr' N a b Ha Hb H. apply in_map_iff in Ha, Hb.
        destruct Ha as (e & <- & He), Hb as (e' & <- & He'). apply N. apply (split_same K k) in H; auto using headed_cons. tauto.
    + intros a b Ha Hb. apply in_map_iff in Ha. destruct Ha as (r & <- & Hr). apply in_flat_map in Hb. destruct Hb as (r' & Hr' & Hb). apply in_map_iff in Hb.
      destruct Hb as (e & <- & He). auto.
Qed.
Lemma nodup_left {A} (a b : list A) : NoDup (a ++ b) -> NoDup a.
Proof. induction a as [|x a IH]; cbn; intros H; [constructor|]. inversion H; subst. constructor; auto. intros I. apply H2, in_app_iff. auto. Qed.
Lemma sparts_exact t : uniq t -> exact t (sparts t).
Proof.
  induction t as [l IH] using stree_ind'. intros U. inversion U as [l' ND UK E]; subst l'. clear U. rewrite sparts_eq.
  induction l as [|[k t] l IHl] using rev_ind.
  - cbn. split; [|split].
    + intros r [<-|[]]. split; [constructor|split; [intros ? []|intros ? ? []]].
    + intros S HS _. exists []. split; [now left|]. intros n. split; [intros []|]. intros Hn. apply HS in Hn. inversion Hn; subst; contradiction.
    + repeat constructor.
  - apply Forall_app in IH, UK. destruct IH as (IH & IHk), UK as (UK & UKk). apply snoc_exact; auto.
    + inversion IHk; subst. inversion UKk; subst. auto.
    + apply IHl; auto. rewrite map_app in ND. now apply nodup_left in ND.
Qed.

(** * Leaves *)
Fixpoint sleaves (t : stree) : list names :=
  flat_map (fun e => match e with (k, t) => match sk t with [] => [[k]] | _ => map (cons k) (sleaves t) end end) (sk t).
Lemma sleaves_eq l : sleaves (ST l) = flat_map (fun e => match sk (snd e) with [] => [[fst e]] | _ => map (cons (fst e)) (sleaves (snd e)) end) l.
Proof. cbn. apply flat_map_ext. intros [k t]. reflexivity. Qed.
Definition maximal (t : stree) (n : names) : Prop := snode t n /\ forall m, snode t m -> is_prefix n m -> m = n.
Lemma uniq_kid (l : list (string * stree)) k t t' : NoDup (map fst l) -> In (k, t) l -> In (k, t') l -> t = t'.
Proof.
  induction l as [|[j x] l IH]; cbn; [tauto|]. intros ND. inversion ND as [|? ? NI ND']; subst. intros [E|I] [E'|I'].
  - congruence.
  - injection E as -> ->. exfalso. apply NI. apply in_map_iff. exists (k, t'). auto.
  - injection E' as -> ->. exfalso. apply NI. apply in_map_iff. exists (k, t). auto.
  - eauto.
Qed.
Lemma sleaves_spec t : uniq t -> NoDup (sleaves t) /\ forall n, In n (sleaves t) <-> maximal t n.
Proof.
  induction t as [l IH] using stree_ind'. intros U. inversion U as [l' ND UK E]; subst l'. clear U. rewrite sleaves_eq.
  rewrite Forall_forall in IH, UK. split.
  - clear - ND IH UK. induction l as [|[k t] l IHl]; [constructor|]. cbn. inversion ND as [|? ? NI ND']; subst.
    assert (A : NoDup (match sk t with [] => [[k]] | _ => map (cons k) (sleaves t) end)).
    { destruct (IH (k, t) (or_introl eq_refl) (UK (k, t) (or_introl eq_refl))) as (N & _). cbn in N. destruct (sk t); [repeat constructor; intros []|].
      apply FinFun.Injective_map_NoDup; auto. intros a b E. now injection E. }

    apply NoDup_app_both; auto. { apply IHl; auto; intros e He; [apply IH|apply UK]; now right. }
    intros n Hn Hn'. apply in_flat_map in Hn'. destruct Hn' as ([j x] & I & Hn'). cbn in Hn'.
    assert (H1 : exists m, n = k :: m). { destruct (sk t); [destruct Hn as [<-|[]]; eauto|]. apply in_map_iff in Hn. destruct Hn as (m & <- & _). eauto. }
    assert (H2 : exists m, n = j :: m). { destruct (sk x); [destruct Hn' as [<-|[]]; eauto|]. apply in_map_iff in Hn'. destruct Hn' as (m & <- & _). eauto. }
    destruct H1 as (m & ->), H2 as (m' & E). injection E as <- <-. apply NI. apply in_map_iff. exists (k, x). auto.
  - intros n. rewrite in_flat_map. split.
    + intros ([k t] & I & Hn). cbn in Hn. destruct (IH _ I (UK _ I)) as (_ & S). cbn in S. destruct (sk t) as [|e0 r0] eqn:E.
      * destruct Hn as [<-|[]]. split; [now apply sn_here with t|]. intros m Hm (c & ->). cbn in Hm. apply snode_inv in Hm. destruct Hm as (t' & I' & O).
        rewrite <- (uniq_kid _ _ _ _ ND I I') in O. destruct O as [->|O]; [reflexivity|]. destruct t as [lt]. cbn in E. subst. inversion O; subst; contradiction.
      * apply in_map_iff in Hn. destruct Hn as (m & <- & Hm). apply S in Hm. destruct Hm as (Hm & M). split; [now apply sn_below with t|].
        intros m' Hm' (c & ->). cbn in Hm' |- *. apply snode_inv in Hm'. destruct Hm' as (t' & I' & O). rewrite <- (uniq_kid _ _ _ _ ND I I') in O.
        f_equal. destruct O as [O|O]; [|apply M; auto; now exists c]. apply app_eq_nil in O. destruct O as (-> & ->). reflexivity.
    + intros (Hn & M). destruct n as [|k n]; [now apply snode_nil in Hn|]. apply snode_inv in Hn. destruct Hn as (t & I & O). exists (k, t). split; auto. cbn.
      destruct (IH _ I (UK _ I)) as (_ & S). cbn in S. destruct (sk t) as [|[j x] r0] eqn:E.
      * destruct O as [->|O]; [now left|]. destruct t as [lt]. cbn in E. subst. inversion O; subst; contradiction.
      * apply in_map. apply S. assert (Hj : snode t [j]). { destruct t as [lt]. cbn in E. subst. apply sn_here with x. now left. }
        split.
        -- destruct O as [->|O]; auto. assert (E' : k :: [j] = [k]) by (apply M; [now apply sn_below with t|now exists [j]]). discriminate.
        -- intros m Hm (c & ->). assert (E' : k :: n ++ c = k :: n) by (apply M; [now apply sn_below with t|now exists c]). now injection E'.
Qed.
Fixpoint scount (t : stree) : nat :=
  list_sum (map (fun e => match e with (_, t) => match sk t with [] => 1 | _ => scount t end end) (sk t)).
Lemma scount_leaves t : scount t = List.length (sleaves t).
Proof.
  induction t as [l IH] using stree_ind'. rewrite sleaves_eq. cbn. induction IH as [|[k t] l H F IHl]; [reflexivity|]. cbn in *.
  rewrite app_length, IHl. f_equal. destruct (sk t); [reflexivity|]. now rewrite map_length.
Qed.

(** * Insertion *)
Fixpoint stouch (k : string) (f : stree -> stree) (l : list (string * stree)) : list (string * stree) :=
  match l with
  | [] => [(k, f (ST []))]
  | (k', t) :: l => if String.eqb k' k then (k', f t) :: l else (k', t) :: stouch k f l
  end.
Fixpoint sgraft (ks : names) (t : stree) : stree :=
  match ks with [] => t | k :: ks => ST (stouch k (sgraft ks) (sk t)) end.
Lemma stouch_keys k f l j : In j (map fst (stouch k f l)) <-> j = k \/ In j (map fst l).
Proof.
  induction l as [|[k' t] l IH]; cbn; [intuition|]. destruct (String.eqb k' k) eqn:E; cbn.
  - apply String.eqb_eq in E. subst. intuition.
  - rewrite IH. intuition.
Qed.
Lemma stouch_nodup k f l : NoDup (map fst l) -> NoDup (map fst (stouch k f l)).
Proof.
  induction l as [|[k' t] l IH]; cbn; intros ND; [repeat constructor; intros []|]. inversion ND; subst. destruct (String.eqb k' k) eqn:E; cbn; [now constructor|].
  apply String.eqb_neq in E. constructor; auto. rewrite stouch_keys. intros [->|I]; [congruence|contradiction].
Qed.
Lemma stouch_uniq k f l : (forall t, uniq t -> uniq (f t)) -> Forall (fun e => uniq (snd e)) l -> Forall (fun e => uniq (snd e)) (stouch k f l).
Proof.
  intros H. induction l as [|[k' t] l IH]; cbn; intros F.
  - constructor; [|constructor]. cbn. apply H. constructor; constructor.
  - inversion F as [|? ? F1 F2]; subst. destruct (String.eqb k' k); constructor; cbn in *; auto.
Qed.
Lemma sgraft_uniq ks : forall t, uniq t -> uniq (sgraft ks t).
Proof.
  induction ks as [|k ks IH]; intros t U; [exact U|]. destruct U as [l ND F]. cbn. constructor; [now apply stouch_nodup|now apply stouch_uniq].
Qed.
(** the subtree where the insertion takes place *)
Definition kid_of (k : string) (l : list (string * stree)) : stree :=
  match find (fun e => String.eqb (fst e) k) l with Some e => snd e | None => ST [] end.
Lemma stouch_in k f l j t : NoDup (map fst l) -> (In (j, t) (stouch k f l) <-> (j <> k /\ In (j, t) l) \/ (j = k /\ t = f (kid_of k l))).
Proof.
  unfold kid_of. induction l as [|[k' x] l IH]; cbn [stouch find fst snd map]; intros ND.
  - cbn. split; [intros [E|[]]; injection E as <- <-; auto|intros [[_ []]|[-> ->]]; auto].
  - inversion ND as [|? ? NI ND']; subst. destruct (String.eqb k' k) eqn:E; cbn [In snd].
    + apply String.eqb_eq in E. subst. split.
      * intros [E|I]; [injection E as <- <-; auto|]. left. split; [|auto]. intros ->. apply NI, in_map_iff. exists (k, t). auto.
      * intros [[N [E|I]]|[-> ->]]; auto. injection E as <- <-. congruence.
    + apply String.eqb_neq in E. rewrite (IH ND'). split.
      * intros [E'|[[N I]|[-> ->]]]; auto. injection E' as <- <-. auto.
      * intros [[N [E'|I]]|[-> ->]]; auto.
Qed.
Lemma kid_of_in k l t : NoDup (map fst l) -> In (k, t) l -> kid_of k l = t.
Proof.
  unfold kid_of. induction l as [|[k' x] l IH]; cbn; [tauto|]. intros ND. inversion ND as [|? ? NI ND']; subst. destruct (String.eqb k' k) eqn:E.
  - apply String.eqb_eq in E. subst. intros [E|I]; [now injection E|]. exfalso. apply NI, in_map_iff. exists (k, t). auto.
  - apply String.eqb_neq in E. intros [E'|I]; [injection E' as <- <-; congruence|auto].
Qed.
Lemma kid_of_uniq k l : Forall (fun e => uniq (snd e)) l -> uniq (kid_of k l).
Proof.
  intros F. unfold kid_of. destruct (find _ l) as [e|] eqn:E; [|constructor; constructor]. apply find_some in E. rewrite Forall_forall in F. now apply F.
Qed.
Lemma kid_of_node k l n : snode (kid_of k l) n -> snode (ST l) (k :: n).
Proof.
  unfold kid_of. destruct (find _ l) as [[j t]|] eqn:E.
  - apply find_some in E. destruct E as (I & E). cbn in *. apply String.eqb_eq in E. subst. now apply sn_below.
  - intros H. inversion H; subst; contradiction.
Qed.
Lemma sgraft_node ks : forall t n, uniq t -> (snode (sgraft ks t) n <-> snode t n \/ (n <> [] /\ is_prefix n ks)).
Proof.
  induction ks as [|k ks IH]; intros t n U.
  - cbn. split; [auto|]. intros [H|(N & c & E)]; auto. destruct n; [congruence|discriminate].
  - destruct U as [l ND F]. cbn. split.
    + intros H. destruct n as [|j n]; [now apply snode_nil in H|]. apply snode_inv in H. destruct H as (t & I & O). apply stouch_in in I; auto.
      destruct I as [[N I]|[-> ->]]; [left; destruct O as [->|O]; [now apply sn_here with t|now apply sn_below with t]|].
      destruct O as [->|O]; [right; split; [discriminate|now exists ks]|]. apply IH in O; [|now apply kid_of_uniq]. destruct O as [O|(N & c & ->)]; [left; now apply kid_of_node|].
      right. split; [discriminate|now exists c].
    + intros [H|(N & c & E)].
      * destruct n as [|j n]; [now apply snode_nil in H|]. apply snode_inv in H. destruct H as (t & I & O). destruct (string_dec j k) as [->|N].
        -- assert (I' : In (k, sgraft ks t) (stouch k (sgraft ks) l)). { apply stouch_in; auto. right. split; auto. now rewrite (kid_of_in k l t). }
           destruct O as [->|O]; [now apply sn_here with (sgraft ks t)|]. apply sn_below with (sgraft ks t); auto. apply IH; auto. rewrite Forall_forall in F. apply (F _ I).
        -- assert (I' : In (j, t) (stouch k (sgraft ks) l)) by (apply stouch_in; auto). destruct O as [->|O]; [now apply sn_here with t|now apply sn_below with t].
      * destruct n as [|j n]; [congruence|]. cbn in E. injection E as <- ->.
        assert (I : In (k, sgraft (n ++ c) (kid_of k l)) (stouch k (sgraft (n ++ c)) l)) by (apply stouch_in; auto).
        destruct n as [|i n]; [now apply sn_here with (sgraft ([] ++ c) (kid_of k l))|]. apply sn_below with (sgraft ((i :: n) ++ c) (kid_of k l)); auto.
        apply IH; [now apply kid_of_uniq|]. right. split; [discriminate|now exists c].
Qed.
Lemma fold_node L : forall t, uniq t -> uniq (fold_left (fun t n => sgraft n t) L t) /\
  forall n, snode (fold_left (fun t n => sgraft n t) L t) n <-> snode t n \/ (n <> [] /\ exists m, In m L /\ is_prefix n m).
Proof.
  induction L as [|m L IH]; intros t U; cbn.
  - split; [exact U|]. intros n. split; [auto|]. intros [H|(_ & m & [] & _)]. exact H.
  - destruct (IH (sgraft m t) (sgraft_uniq m t U)) as (U' & H). split; [exact U'|]. intros n. rewrite H, sgraft_node by auto. split.
    + intros [[S|(N & P)]|(N & m' & I & P)]; [auto|right; split; eauto|right; split; eauto].
    + intros [S|(N & m' & [<-|I] & P)]; [auto|auto|right; split; eauto].
Qed.

(** * From the trees of paths *)
Fixpoint tx (t : ptree) : stree := ST (map (fun e => match e with (k, t) => (path_str k, tx t) end) (kids t)).
Lemma tx_eq l : tx (PT l) = ST (map (fun e => (path_str (fst e), tx (snd e))) l).
Proof. cbn. f_equal. apply map_ext. intros [k t]. reflexivity. Qed.
Lemma texts_eq p : texts p = path_str (alone p) :: match child_of p with Some c => texts c | None => [] end.
Proof. unfold texts. rewrite steps_eq. cbn. f_equal. now destruct (child_of p). Qed.
Lemma graft_eq p t : graft p t = PT (touch (alone p) (match child_of p with Some c => graft c | None => fun t => t end) (kids t)).
Proof. destruct p as [[c|]|? ? ? [c|]|? [c|]|? [c|]|? ? [c|]]; reflexivity. Qed.
Lemma tx_touch k f g l : (forall t, tx (f t) = g (tx t)) ->
  map (fun e => (path_str (fst e), tx (snd e))) (touch k f l) = stouch (path_str k) g (map (fun e => (path_str (fst e), tx (snd e))) l).
Proof.
  intros H. induction l as [|[k' t] l IH]; cbn; [now rewrite H|]. unfold path_eqb. destruct (String.eqb (path_str k') (path_str k)); cbn; [now rewrite H|now rewrite IH].
Qed.
Lemma tx_graft p : forall t, tx (graft p t) = sgraft (texts p) (tx t).
Proof.
  induction p as [p E|p c E IH] using path_ind'; intros [l]; rewrite graft_eq, texts_eq, E, tx_eq; cbn [sgraft kids]; f_equal; rewrite (tx_eq l); cbn [sk]; apply tx_touch; [reflexivity|exact IH].
Qed.
Lemma tx_fold L : forall t, tx (fold_left (fun t p => graft p t) L t) = fold_left (fun t n => sgraft n t) (map texts L) (tx t).
Proof. induction L as [|p L IH]; intros t; cbn; [reflexivity|]. now rewrite IH, tx_graft. Qed.
Lemma count_tx t : count_leaves t = scount (tx t).
Proof.
  induction t as [l IH] using ptree_ind'. rewrite tx_eq. cbn. induction IH as [|[k t] l H F IHl]; [reflexivity|]. cbn in *. rewrite IHl. f_equal.
  destruct t as [[|e r]]; [reflexivity|]. rewrite H. now rewrite tx_eq.
Qed.

(** * The shapes of the listed paths *)
Inductive state := InWord | InLexeme | InContent | InFlexion | Leaf.
Definition next (s : state) (p : path) : option state :=
  match s, p with
  | InWord, PUsl _ => Some Leaf
  | InWord, PRole _ _ _ => Some InLexeme
  | InLexeme, PLex Content _ => Some InContent
  | InLexeme, PLex Flexion _ => Some InFlexion
  | InContent, PPoly _ _ _ _ => Some Leaf
  | InFlexion, PFlex _ _ => Some Leaf
  | _, _ => None
  end.
Inductive along : state -> path -> Prop :=
| along_end s p s' : next s p = Some s' -> child_of p = None -> along s p
| along_more s p s' c : next s p = Some s' -> child_of p = Some c -> along s' c -> along s p.
Lemma along_ s p s' : next s p = Some s' -> match child_of p with Some c => along s' c | None => True end -> along s p.
Proof. intros N H. destruct (child_of p) eqn:E; [now apply along_more with s' p0|now apply along_end with s']. Qed.
Lemma along_inv s p : along s p -> exists s', next s p = Some s' /\ match child_of p with Some c => along s' c | None => True end.
Proof. intros A. destruct A as [s p s' N E|s p s' c N E A]; exists s'; rewrite E; auto. Qed.
Inductive shaped : state -> ptree -> Prop :=
| shaped_ s l : Forall (fun e => child_of (fst e) = None /\ exists s', next s (fst e) = Some s' /\ shaped s' (snd e)) l -> shaped s (PT l).
Lemma next_text s k p s1 s2 : path_str (alone k) = path_str (alone p) -> next s k = Some s1 -> next s p = Some s2 -> s1 = s2.
Proof.
  destruct s, k as [?|? ? ? ?|? ?|[] ?|? ? ?], p as [?|? ? ? ?|? ?|[] ?|? ? ?]; cbn; intros E H1 H2; try discriminate; congruence.
Qed.
Lemma next_alone s p : next s (alone p) = next s p. Proof. destruct s, p; try reflexivity; now destruct i. Qed.
Lemma alone_id k : child_of k = None -> alone k = k. Proof. destruct k; cbn; congruence. Qed.
Lemma child_alone p : child_of (alone p) = None. Proof. now destruct p. Qed.
Lemma graft_shaped p : forall s t, along s p -> shaped s t -> shaped s (graft p t).
Proof.
  assert (T : forall p s s' f l, next s p = Some s' -> (forall t, shaped s' t -> shaped s' (f t)) -> shaped s (PT l) -> shaped s (PT (touch (alone p) f l))).
  { clear. intros p s s' f l N Hf S. inversion S as [? ? F E1 E2]; subst. constructor. clear S. induction F as [|[k t] l (Ck & s1 & Nk & St) F IH]; cbn in *.
    - repeat constructor; cbn; [apply child_alone|]. exists s'. split; [now rewrite next_alone|]. apply Hf. constructor. constructor.
    - unfold path_eqb. destruct (String.eqb (path_str k) (path_str (alone p))) eqn:E.
      + apply String.eqb_eq in E. constructor; auto. cbn. split; auto. assert (s1 = s'). { apply (next_text s k p); auto. now rewrite alone_id. } subst. eauto.
      + constructor; auto. cbn. eauto. }
  induction p as [p E|p c E IH] using path_ind'; intros s [l] A S; apply along_inv in A; destruct A as (s' & N & C); rewrite E in C; rewrite graft_eq, E; cbn [kids].
  - apply (T p s s'); auto.
  - apply (T p s s'); auto.
Qed.
Lemma concat_next s s' k q : next s k = Some s' -> child_of k = None -> along s' q -> concat k q false = Ok (set_child k (Some q)).
Proof.
  intros N C A. apply along_inv in A. destruct A as (s2 & N2 & _).
  destruct s, k as [?|? ? ? ?|? ?|[] ?|? ? ?]; cbn in N; try discriminate; injection N as <-; cbn in C; subst;
  destruct q as [?|? ? ? ?|? ?|[] ?|? ? ?]; cbn in N2; try discriminate; reflexivity.
Qed.
Lemma texts_child k q : child_of k = None -> texts (set_child k (Some q)) = path_str k :: texts q.
Proof. intros C. rewrite texts_eq, child_set. f_equal. rewrite <- (alone_id k C) at 2. now destruct k. Qed.
Lemma mapM_all {A B} (f : A -> res B) (g : A -> B) l : (forall x, In x l -> f x = Ok (g x)) -> mapM f l = Ok (map g l).
Proof. induction l as [|x l IH]; intros H; cbn; [reflexivity|]. rewrite H by now left. cbn. rewrite IH; [reflexivity|]. intros y Hy. apply H. now right. Qed.
Lemma iter_shaped t : forall s, shaped s t -> exists R, iter_tree t = Ok R /\ map (map texts) R = sparts (tx t) /\ Forall (Forall (along s)) R.
Proof.
  induction t as [l IH] using ptree_ind'. intros s S. inversion S as [? ? F E1 E2]; subst. rewrite tx_eq, sparts_eq. unfold sfold. cbn [iter_tree kids].
  assert (G : forall acc, Forall (Forall (along s)) acc ->
    exists R, (fix go (l : list (path * ptree)) (acc : list (list path)) : res (list (list path)) :=
      match l with [] => Ok acc | (p, t) :: l => do sub <- iter_tree t; do acc <- expand_node p sub acc; go l acc end) l acc = Ok R /\
    map (map texts) R = fold_left (fun acc e => sexpand (fst e) (sparts (snd e)) acc) (map (fun e => (path_str (fst e), tx (snd e))) l) (map (map texts) acc) /\
    Forall (Forall (along s)) R).
  { clear S. induction F as [|[k t] l (Ck & s' & Nk & St) F IHl]; intros acc Ha; [eauto|]. inversion IH as [|? ? IHt IHl']; subst. cbn [fst snd map fold_left] in *.
    destruct (IHt s' St) as (sub & -> & Esub & Asub). cbn [bind].
    assert (A : forall q, along s' q -> along s (set_child k (Some q))).
    { intros q Aq. apply along_ with s'; [|now rewrite child_set]. rewrite <- Nk. destruct s, k as [?|? ? ? ?|? ?|[] ?|? ? ?]; reflexivity. }
    assert (Ak : along s k) by (apply along_ with s'; [auto|now rewrite Ck]).
    assert (EX : expand_node k sub acc = Ok (map (fun r => r ++ [k]) acc ++ List.concat (map (fun r => map (fun items => r ++ map (fun q => set_child k (Some q)) items) sub) acc))).
    { unfold expand_node. rewrite (mapM_all _ (fun r => map (fun items => r ++ map (fun q => set_child k (Some q)) items) sub)); [reflexivity|].
      intros r _. rewrite (mapM_all _ (fun items => r ++ map (fun q => set_child k (Some q)) items)); [reflexivity|].
      intros items Hi. rewrite (mapM_all _ (fun q => set_child k (Some q))); [reflexivity|]. intros q Hq. apply (concat_next s s'); auto.
      rewrite Forall_forall in Asub. specialize (Asub _ Hi). rewrite Forall_forall in Asub. auto. }
    rewrite EX. cbn [bind]. destruct (IHl IHl' (map (fun r => r ++ [k]) acc ++ List.concat (map (fun r => map (fun items => r ++ map (fun q => set_child k (Some q)) items) sub) acc))) as (R & ER & TR & AR).
    - apply Forall_app. split.
      + apply Forall_map. revert Ha. apply Forall_impl. intros r Hr. apply Forall_app. auto.
      + apply Forall_concat. apply Forall_map. revert Ha. apply Forall_impl. intros r Hr. apply Forall_map. revert Asub. apply Forall_impl. intros e He.
        apply Forall_app. split; auto. apply Forall_map. revert He. apply Forall_impl. auto.
    - exists R. split; [exact ER|split; [|exact AR]]. rewrite TR. f_equal. unfold sexpand. rewrite map_app, !map_map, <- Esub. f_equal.
      + apply map_ext. intros r. rewrite map_app. cbn. f_equal. f_equal. rewrite texts_eq, Ck. now rewrite (alone_id k Ck).
      + rewrite concat_map, map_map, flat_map_concat_map, map_map. f_equal. apply map_ext. intros r. rewrite !map_map. apply map_ext. intros e. rewrite map_app, !map_map. f_equal.
        apply map_ext. intros q. now apply texts_child. }
  destruct (G [[]]) as (R & H); [repeat constructor|]. exists R. exact H.
Qed.

(** * The listing *)
Lemma iter_pm_along u p x : In (p, x) (iter_pm u) -> along InContent p.
Proof.
  assert (A : forall g m k, along InContent (PPoly g m k None)) by (intros; apply along_ with Leaf; reflexivity || exact I).
  unfold iter_pm. intros [E|H]; [injection E as <- _; apply A|]. apply in_app_iff in H. destruct H as [H|H].
  - apply in_map_iff in H. destruct H as (s & E & _). injection E as <- _. apply A.
  - apply in_flat_map in H. destruct H as (g & _ & H). destruct (groups_at u g) as [gr|]; [|destruct H]. destruct H as [E|H]; [injection E as <- _; apply A|].
    apply in_map_iff in H. destruct H as (s & E & _). injection E as <- _. apply A.
Qed.
Lemma iter_lexeme_along l p x : In (p, x) (iter_lexeme l) -> along InLexeme p.
Proof.
  assert (AF : along InLexeme (PLex Flexion None)) by (apply along_ with InFlexion; [reflexivity|exact I]).
  assert (AC : along InLexeme (PLex Content None)) by (apply along_ with InContent; [reflexivity|exact I]).
  unfold iter_lexeme. intros [E|H]; [injection E as <- _; exact AF|]. apply in_app_iff in H. destruct H as [H|[E|H]].
  - apply in_map_iff in H. destruct H as ([q y] & E & H). injection E as <- _. cbn. unfold flexion_path. destruct q as [?|? [m|] ? ?|? ?|? ?|? ? ?]; auto.
    apply along_ with InFlexion; [reflexivity|]. cbn. apply along_ with Leaf; [reflexivity|exact I].
  - injection E as <- _. exact AC.
  - apply in_map_iff in H. destruct H as ([q y] & E & H). injection E as <- _. cbn. apply along_ with InContent; [reflexivity|]. cbn. eapply iter_pm_along; eauto.
Qed.
Lemma iter_word_along w l p x : iter_word w = Ok l -> In (p, x) l -> along InWord p.
Proof.
  unfold iter_word. intros E H. destruct (mapM (iter_entry (w_role w)) (as_list (w_context w) (w_fun w))) as [es|] eqn:M; [|discriminate]. cbn in E. injection E as <-.
  destruct H as [E|H]; [injection E as <- _; apply along_ with Leaf; [reflexivity|exact I]|]. apply in_concat in H. destruct H as (e & He & H).
  destruct (mapM_in _ _ _ _ M He) as ([r o] & _ & Ee). unfold iter_entry in Ee. cbn [fst snd] in Ee. destruct o as [lx|]; [|discriminate]. apply Ok_inj in Ee. subst e.
  destruct H as [E|H]; [injection E as <- _; apply along_ with InLexeme; [reflexivity|exact I]|]. apply in_map_iff in H. destruct H as ([q y] & E & H).
  injection E as <- _. cbn. apply along_ with InLexeme; [reflexivity|]. cbn. eapply iter_lexeme_along; eauto.
Qed.
Definition start (u : usl) : state := match u with UWord _ => InWord | ULexeme _ => InLexeme | _ => InContent end.
Lemma iter_along u l p x : iter_path u = Ok l -> In (p, x) l -> along (start u) p.
Proof.
  destruct u; cbn; intros E H; try discriminate; try (injection E as <-).
  - eapply iter_pm_along; eauto.
  - eapply iter_lexeme_along; eauto.
  - eapply iter_word_along; eauto.
Qed.

(** * The function *)
Lemma mapM_onto {A B} (f : A -> res B) l l' : mapM f l = Ok l' -> forall x, In x l -> exists y, In y l' /\ f x = Ok y.
Proof.
  revert l'. induction l as [|a l IH]; cbn; intros l' E x; [tauto|]. destruct (f a) as [b|] eqn:Ea; [|discriminate]. cbn in E. destruct (mapM f l) as [r|]; [|discriminate]. cbn in E. injection E as <-.
  intros [<-|I]; [exists b; split; [now left|auto]|]. destruct (IH r eq_refl x I) as (y & Hy & Ey). exists y. split; [now right|auto].
Qed.
Lemma element_deref p u x : element p u = Ok x <-> deref p (Some u) = Ok (Some x).
Proof. unfold element. destruct (deref p (Some u)) as [[y|]|]; cbn; split; congruence. Qed.
Lemma size_counts so x n : size so x = Ok n <-> counts so x n.
Proof.
  destruct x as [s|v|x|x]; cbn [size counts sequences]; [split; [intros [= H]; exact H|intros H; f_equal; exact H]|..];
  (destruct (usl_ss so _) as [l|]; cbn [bind]; [split; [intros [= <-]; eauto|intros (l' & E & <-); now injection E as ->]|split; [discriminate|intros (l' & E & _); discriminate]]).
Qed.
Lemma varying_spec so u L : varying so u = Ok L -> forall p, In p L <-> varies so u p.
Proof.
  unfold varying. intros E p. destruct (iter_path u) as [l|] eqn:EI; [|discriminate]. cbn [bind] in E.
  destruct (mapM _ l) as [bs|] eqn:M; [|discriminate]. cbn [bind] in E. injection E as <-. rewrite in_map_iff. split.
  - intros ([q b] & <- & H). apply filter_In in H. destruct H as (H & B). cbn in B |- *. subst b. destruct (mapM_in _ _ _ _ M H) as ([q' e] & I & E). cbn [fst] in E.
    destruct (element q' u) as [x|] eqn:Ex; [|discriminate]. cbn [bind] in E. destruct (size so x) as [n|] eqn:En; [|discriminate]. cbn [bind] in E. injection E as -> E.
    apply negb_true_iff, Nat.eqb_neq in E. exists l, e, x, n. repeat split; auto; [now apply element_deref|now apply size_counts].
  - intros (l' & e & x & n & E & I & Ex & En & N). rewrite EI in E. injection E as <-. apply element_deref in Ex. apply size_counts in En.
    exists (p, true). split; [reflexivity|]. apply filter_In. split; [|reflexivity]. assert (F := mapM_onto _ _ _ M _ I). destruct F as (y & Hy & Ey). cbn [fst] in Ey. rewrite Ex in Ey. cbn [bind] in Ey.
    rewrite En in Ey. cbn [bind] in Ey. injection Ey as <-. apply Nat.eqb_neq in N. now rewrite N in Hy.
Qed.
Lemma enumerate_spec so u d R : enumerate_partitions so u = Ok (d, R) -> exists t, uniq t /\ (forall n, snode t n <-> part so u n) /\ map (map texts) R = sparts t /\ d = scount t.
Proof.
  unfold enumerate_partitions. destruct (varying so u) as [L|] eqn:EV; [|discriminate]. cbn [bind]. set (T := fold_left (fun t p => graft p t) L (PT [])). intros E.
  assert (S : shaped (start u) T).
  { assert (A : Forall (along (start u)) L). { apply Forall_forall. intros p Hp. apply (varying_spec _ _ _ EV) in Hp. destruct Hp as (l & e & _ & _ & EI & I & _). eapply iter_along; eauto. }
    assert (G : forall L t, Forall (along (start u)) L -> shaped (start u) t -> shaped (start u) (fold_left (fun t p => graft p t) L t)).
    { clear. induction L as [|p L IH]; intros t A S; [exact S|]. inversion A; subst. cbn. apply IH; auto. now apply graft_shaped. }
    apply G; auto. constructor. constructor. }
  destruct (iter_shaped T _ S) as (R' & ER & TR & _). rewrite ER in E. cbn [bind] in E. injection E as <- <-. exists (tx T).
  destruct (fold_node (map texts L) (tx (PT []))) as (U & H); [constructor; constructor|]. rewrite <- tx_fold in U, H. fold T in U, H.
  split; [exact U|split; [|split; [exact TR|apply count_tx]]]. intros n. rewrite H. split.
  - intros [H0|(N & m & Hm & P)]; [inversion H0; subst; contradiction|]. apply in_map_iff in Hm. destruct Hm as (p & <- & Hp). split; auto. exists p. split; auto. now apply (varying_spec _ _ _ EV).
  - intros (N & p & Hp & P). right. split; auto. exists (texts p). split; auto. apply in_map. now apply (varying_spec _ _ _ EV).
Qed.
Lemma enumerate_ok so u L : varying so u = Ok L -> exists r, enumerate_partitions so u = Ok r.
Proof.
  intros EV. unfold enumerate_partitions. rewrite EV. cbn [bind].
  assert (A : Forall (along (start u)) L). { apply Forall_forall. intros p Hp. apply (varying_spec _ _ _ EV) in Hp. destruct Hp as (l & e & _ & _ & EI & I & _). eapply iter_along; eauto. }
  assert (G : forall L t, Forall (along (start u)) L -> shaped (start u) t -> shaped (start u) (fold_left (fun t p => graft p t) L t)).
  { clear. induction L as [|p L IH]; intros t A S; [exact S|]. inversion A; subst. cbn. apply IH; auto. now apply graft_shaped. }
  destruct (iter_shaped (fold_left (fun t p => graft p t) L (PT [])) (start u)) as (R & -> & _); [apply G; auto; constructor; constructor|]. cbn [bind]. eauto.
Qed.
Lemma deref_none p u : deref p None <> Ok (Some u).
Proof. rewrite deref_eq. destruct p as [?|? ? ? ?|? ?|[] ?|? ? ?]; cbn; discriminate. Qed.
Lemma step_word p u w : deref_step p (Some u) = Ok (Some (UWord w)) -> u = UWord w.
Proof.
  destruct p as [?|g m ? ?|m ?|[] ?|r ? ?], u as [s|v|l|x]; cbn [deref_step]; intros H; try discriminate; try (injection H as ->; reflexivity).
  - unfold deref_poly in H. destruct g; cbn [groups_at] in H;
      repeat match type of H with context [match ?x with _ => _ end] => destruct x end; discriminate.
  - unfold deref_flex in H. destruct (ins _ _); discriminate.
  - destruct (sfun_get (w_fun x) r) as [[?|]|]; discriminate.
Qed.
Lemma deref_word p : forall u w, deref p (Some u) = Ok (Some (UWord w)) -> u = UWord w.
Proof.
  induction p as [p E|p c E IH] using path_ind'; intros u w; rewrite deref_eq, E; intros H; destruct (deref_step p (Some u)) as [[n|]|] eqn:D; cbn [bind] in H; try discriminate.
  - injection H as ->. now apply step_word in D.
  - apply IH in H. subst n. now apply step_word in D.
  - now apply deref_none in H.
Qed.
