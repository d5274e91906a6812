(** The cells of the table of a word are its singular sequences. *)
From Coq Require Import List String Ascii Bool Arith Lia Permutation Sorted.
From Verif Require Import Base Script ScriptParser SortProofs ScriptWf ScriptStrProofs ScriptOrderProofs ScriptSpec ScriptCtorProofs ScriptParseProofs ScriptAlgProofs ScriptMoreProofs OrderTheory Commons Usl UslProofs UslSpec UslSsProofs
  SfunSpec Sfun SfunProofs SfunListProofs SfunWordProofs UslParser UslParserProofs UslRoundProofs Path PathLexProofs PathSpec PathProofs PathAlgProofs PathTextProofs PathDerefProofs PathBuildProofs Instance MemberProofs UslTable UslTableProofs UslTableSpec UslTableOrderProofs UslTableSsProofs LexBuildProofs LexTableSpec LexTableProofs LexTableSsProofs WordBuildProofs LexPartProofs WordTableProofs WordTableSpec WordTableSsProofs.
Import ListNotations.
Local Open Scope string_scope.

Lemma F2_choose {A B} (R : A -> B -> Prop) l : (forall x, In x l -> exists y, R x y) -> exists m, Forall2 R l m.
Proof. induction l as [|x l IH]; intros H; [exists []; constructor|]. destruct (H x (or_introl eq_refl)) as (y & Hy). destruct IH as (m & Hm); [intros z Hz; apply H; now right|]. exists (y :: m). now constructor. Qed.
Lemma choice_es so (es : list (role * lexeme)) ys : SfunSpec.choice so (map (fun e => (fst e, Some (snd e))) es) ys <-> Forall2 (fun e y => In y (lexeme_ss so (snd e))) es ys.
Proof.
  unfold SfunSpec.choice. revert ys. induction es as [|e es IH]; intros ys; cbn [map]; split; intros H; inversion H; subst; constructor; try (apply IH; assumption).
  - match goal with X : exists _, _ |- _ => destruct X as (z & E & Hz) end. cbn [snd] in E. injection E as <-. exact Hz.
  - eexists. split; [reflexivity|assumption].
Qed.
Lemma refill_es (es : list (role * lexeme)) ys : List.length ys = List.length es -> refilled (map (fun e => (fst e, Some (snd e))) es) ys = map (fun p => (fst (fst p), Some (snd p))) (combine es ys).
Proof. unfold refilled. rewrite map_map. cbn [fst]. revert ys. induction es as [|e l IH]; intros [|p ys] L; try discriminate L; [reflexivity|]. cbn. f_equal. apply IH. injection L. auto. Qed.
Lemma F2_pick {A B} (R : A -> B -> Prop) l m x : Forall2 R l m -> In x l -> exists y, In (x, y) (combine l m) /\ R x y.
Proof. intros H. induction H as [|e p l m E F IH]; intros Hx; [destruct Hx|]. destruct Hx as [->|Hx]; [exists p; split; [now left|exact E]|]. destruct (IH Hx) as (q & Hq & Rq). exists q. split; [now right|exact Rq]. Qed.
Lemma F2_pairs {A B} (R S : A -> B -> Prop) l m : Forall2 R l m -> (forall x y, In (x, y) (combine l m) -> R x y -> S x y) -> Forall2 S l m.
Proof. intros H. induction H as [|e p l m E F IH]; intros X; constructor; [apply X; [now left|exact E]|apply IH; intros; apply X; [now right|assumption]]. Qed.
Section Exact.
  Variable so : list script -> list script.
  Hypothesis SO : set_order so.
  Variable c : context.
  Variable f : sfun lexeme.
  Variable focus : role.
  Hypothesis V : SfunProofs.cvalid lexeme c f.
  Variable es : list (role * lexeme).
  Hypothesis Ees : map (fun e => (fst e, Some (snd e))) es = as_list c f.
  Hypothesis Fe : Forall entry_good es.
  Hypothesis Hf : In focus (map fst es).
  Variable w : word.
  Hypothesis W : mk_word f focus c = Ok w.
  Variables (a b : role) (x y : lexeme).
  Hypothesis Ha : In (a, x) es.
  Hypothesis Hb : In (b, y) es.
  Notation F := (pm_flexion x).
  Notation u := (pm_content y).
  Hypothesis NR : no_repetition u.
  Notation shows_word := (shows_word c focus).
  Hypothesis OF : forall i z, In (i, z) es -> i <> a -> groups (pm_flexion z) = [].
  Hypothesis OC : forall i z, In (i, z) es -> i <> b -> groups (pm_content z) = [].
  Hypothesis Cv : shown_flexion F.
  Hypothesis Sg : single_groups (groups u).
  Hypothesis L5 : List.length (constant u) + List.length (groups u) <= 5.
  Variables cs rs : list pm.
  Hypothesis PC : Permutation (map pm_str cs) (map pm_str (pm_ss so F)).
  Hypothesis PR : Permutation (map pm_str rs) (map pm_str (pm_ss so (content_choices y))).
  Hypothesis FC : Forall pok cs.
  Hypothesis FR : Forall flatpm rs.
  Notation at_words := (at_words es a b y).

  Lemma xgood i z : In (i, z) es -> lex_good z.
  Proof. intros H. rewrite Forall_forall in Fe. now apply (Fe _ H). Qed.
  Lemma xlok i z : In (i, z) es -> lok z.
  Proof. intros H. destruct (xgood i z H) as [[Cf _] [Cc _]]. split; now apply clean_ok. Qed.
  Lemma key_eq i z z' : In (i, z) es -> In (i, z') es -> z = z'.
  Proof.
    pose proof (es_keys c f V es Ees) as N. clear - N. induction es as [|[k t] l IH]; [intros []|]. cbn [map fst] in N. apply NoDup_cons_iff in N. destruct N as [N1 N2].
    intros [H|H] [H'|H']; [congruence|injection H as -> ->; elim N1; now apply (in_map fst) in H'|injection H' as -> ->; elim N1; now apply (in_map fst) in H|auto].
  Qed.
  Lemma role_ss i z : In (i, z) es -> lexeme_ss so z = flat_map (fun g => map (fun d => {| pm_flexion := g; pm_content := d |}) (pm_ss so (pm_content z))) (pm_ss so (pm_flexion z)).
  Proof.
    intros H. unfold lexeme_ss, pm_singular. destruct (Nat.eqb (List.length (pm_ss so (pm_flexion z))) 1) eqn:A; [|reflexivity]. destruct (Nat.eqb (List.length (pm_ss so (pm_content z))) 1) eqn:B; [|reflexivity]. apply Nat.eqb_eq in A, B. cbn [andb].
    assert (gF : groups (pm_flexion z) = []).
    { destruct (rdec i a) as [->|D]; [|now apply (OF i)]. rewrite (key_eq a z x H Ha) in *. destruct (groups F) as [|g l] eqn:E; [reflexivity|]. exfalso. apply (flex_not_singular so F SO (SF es Fe a x Ha) Cv); [rewrite E; discriminate|exact A]. }
    assert (gu : groups (pm_content z) = []).
    { destruct (rdec i b) as [->|D]; [|now apply (OC i)]. rewrite (key_eq b z y H Hb) in *. destruct (groups u) as [|g l] eqn:E; [reflexivity|]. exfalso. eapply (content_not_singular so SO y); [apply (SG es Fe b y Hb)|exact NR|rewrite E; exact Sg|rewrite E; exact L5|rewrite E; discriminate|exact B]. }
    unfold pm_ss. rewrite gF, gu. cbn. destruct z; reflexivity.
  Qed.
  Lemma in_role_ss i z p : In (i, z) es -> (In p (lexeme_ss so z) <-> In (pm_flexion p) (pm_ss so (pm_flexion z)) /\ In (pm_content p) (pm_ss so (pm_content z))).
  Proof.
    intros H. rewrite (role_ss i z H), in_flat_map. split.
    - intros (g & Hg & Hd). apply in_map_iff in Hd. destruct Hd as (d & <- & Hd). auto.
    - intros [H1 H2]. exists (pm_flexion p). split; [exact H1|]. apply in_map_iff. exists (pm_content p). split; [destruct p; reflexivity|exact H2].
  Qed.
  Lemma plain_one p q : groups p = [] -> In q (pm_ss so p) -> q = p.
  Proof. intros G. unfold pm_ss. rewrite G. intros [E|[]]. auto. Qed.
  Lemma take_flexion i z p : In (i, z) es -> In p (lexeme_ss so z) -> if rdec i a then exists s, In s cs /\ pm_str (pm_flexion p) = pm_str s else pm_flexion p = pm_flexion z.
  Proof.
    intros H Hp. apply (in_role_ss i z p H) in Hp. destruct Hp as [Hp _]. destruct (rdec i a) as [->|D]; [|apply plain_one; [now apply (OF i)|exact Hp]]. rewrite (key_eq a z x H Ha) in *. apply (in_map pm_str) in Hp. apply (Permutation_in _ (Permutation_sym PC)) in Hp. apply in_map_iff in Hp. destruct Hp as (s & E & Hs). eauto.
  Qed.
  Lemma take_content i z p : In (i, z) es -> In p (lexeme_ss so z) -> if rdec i b then exists r, In r rs /\ pm_str (pm_content p) = pm_str (rowc y r) else pm_content p = pm_content z.
  Proof.
    intros H Hp. apply (in_role_ss i z p H) in Hp. destruct Hp as [_ Hp]. destruct (rdec i b) as [->|D]; [|apply plain_one; [now apply (OC i)|exact Hp]]. rewrite (key_eq b z y H Hb) in *. apply (in_map pm_str) in Hp. eapply (content_exact so SO y) in Hp; [|apply (SG es Fe b y Hb)|exact NR|exact Sg|exact L5].
    destruct Hp as (t & Ht & E). apply (Permutation_in _ (Permutation_sym PR)) in Ht. apply in_map_iff in Ht. destruct Ht as (r & Er & Hr). exists r. split; [exact Hr|]. apply E; [|exact Er]. rewrite Forall_forall in FR. auto.
  Qed.
  Lemma give i z s r : In (i, z) es -> In s cs -> In r rs -> exists p, In p (lexeme_ss so z) /\ lexeme_str p = lexeme_str (put a b s (rowc y r) i z).
  Proof.
    intros H Hs Hr. assert (X : exists g, In g (pm_ss so (pm_flexion z)) /\ pm_str g = pm_str (if rdec i a then s else pm_flexion z)).
    { destruct (rdec i a) as [->|D]; [|exists (pm_flexion z); split; [unfold pm_ss; rewrite (OF i z H D); now left|reflexivity]]. rewrite (key_eq a z x H Ha). assert (Q : In (pm_str s) (map pm_str (pm_ss so F))) by (eapply Permutation_in; [exact PC|now apply in_map]). apply in_map_iff in Q. destruct Q as (g & E & Hg). eauto. }
    assert (Y : exists d, In d (pm_ss so (pm_content z)) /\ pm_str d = pm_str (if rdec i b then rowc y r else pm_content z)).
    { destruct (rdec i b) as [->|D]; [|exists (pm_content z); split; [unfold pm_ss; rewrite (OC i z H D); now left|reflexivity]]. rewrite (key_eq b z y H Hb). assert (Q : In (pm_str (rowc y r)) (map pm_str (pm_ss so u))).
      { eapply (content_exact so SO y); [apply (SG es Fe b y Hb)|exact NR|exact Sg|exact L5|]. exists (pm_str r). split; [eapply Permutation_in; [exact PR|now apply in_map]|]. intros r' Fr' E. rewrite Forall_forall in FR. eapply rowc_inj; [apply (SG es Fe b y Hb)|auto|exact Fr'|auto]. }
      apply in_map_iff in Q. destruct Q as (d & E & Hd). eauto. }
    destruct X as (g & Hg & Eg), Y as (d & Hd & Ed). exists {| pm_flexion := g; pm_content := d |}. assert (Hp : In {| pm_flexion := g; pm_content := d |} (lexeme_ss so z)) by (apply (in_role_ss i z _ H); auto). split; [exact Hp|].
    pose proof (lss_ok so SO z (xlok i z H)) as O. rewrite Forall_forall in O, FC, FR. apply lexeme_str_key; [apply O; exact Hp|apply (put_good es Fe a b y Hb); auto|]. cbn [put pm_flexion pm_content]. auto.
  Qed.
  Lemma wl_es : wl w = map (fun e => (fst e, Some (snd e))) es.
  Proof. destruct (mk_word_fields _ _ _ _ W) as (Wf & Wr & Wc). unfold wl. now rewrite Wf, Wc, Ees. Qed.
  Lemma w_ok : wok2 w.
  Proof.
    destruct (mk_word_fields _ _ _ _ W) as (Wf & Wr & Wc). split; [split; [now rewrite Wf, Wc|now rewrite Wf, Wr, Wc]|]. rewrite wl_es, map_map, Wr. split; [exact Hf|]. intros e l He El. apply in_map_iff in He. destruct He as ([i z] & <- & Hi). cbn in El. injection El as <-. now apply (xlok i).
  Qed.
  Lemma w_filled : MemberSpec.filled w.
  Proof. intros e He. fold (wl w) in He. rewrite wl_es in He. apply in_map_iff in He. destruct He as (z & <- & _). discriminate. Qed.
  Lemma made_text ys v s r q : Forall2 (fun e p => lexeme_str p = lexeme_str (put a b s (rowc y r) (fst e) (snd e))) es ys -> SfunSpec.choice so (wl w) ys -> made_from w ys q -> pok s -> flatpm r -> shows_word v (at_words s r) -> usl_str v = w_str q.
  Proof.
    intros F2 Ch M Ps Fr S. destruct (shown_ok c focus es Fe Hf a b y Hb v s r Ps Fr S) as (q' & T & Wq & Rq & Cq & L). rewrite T. destruct (made_ok so SO w ys q w_ok Ch M) as [Wq2 _]. destruct M as (_ & R & C & K). destruct (mk_word_fields _ _ _ _ W) as (Wf & Wr & Wc).
    apply (MemberProofs.word_texts q' q Wq Wq2). split; [congruence|]. split; [congruence|]. rewrite L, K, wl_es, refill_es by (symmetry; apply (UslSsProofs.Forall2_len _ _ _ F2)). apply Permutation_refl'. unfold WordTableSsProofs.at_words. generalize (rowc y r) F2. intros k X. clear - X. induction X as [|e p l m E X IH]; [reflexivity|]. cbn [map combine]. rewrite IH. f_equal. unfold kstr. cbn [fst snd actor_str]. now rewrite E.
  Qed.
  Lemma uniq e ys p p' : In (e, p) (combine es ys) -> In (e, p') (combine es (ys : list lexeme)) -> p = p'.
  Proof.
    pose proof (es_keys c f V es Ees) as N. clear - N. revert ys. induction es as [|k l IH]; intros ys; [intros []|]. destruct ys as [|h ys]; [intros []|]. cbn [combine map] in *. apply NoDup_cons_iff in N. destruct N as [N1 N2].
    assert (X : forall o, In (k, o) (combine l ys) -> False) by (intros o Ho; apply N1; apply in_combine_l in Ho; now apply (in_map fst) in Ho).
    intros [H|H] [H'|H']; [congruence|injection H as -> ->; elim (X _ H')|injection H' as -> ->; elim (X _ H)|now apply (IH N2 ys)].
  Qed.
  Lemma wexact cells ws t : Forall2 (fun r vs => Forall2 (fun s v => shows_word v (at_words s r)) cs vs) rs cells -> word_ss so w = Ok ws -> (In t (map w_str ws) <-> In t (List.concat (map (map usl_str) cells))).
  Proof.
    intros G Ew. destruct (word_ss_members so w ws w_ok w_filled Ew) as [M1 M2]. pose proof (proj1 (Forall_forall _ _) FC) as FC0. pose proof (proj1 (Forall_forall _ _) FR) as FR0. split.
    - intros H. apply in_map_iff in H. destruct H as (q & <- & Hq). destruct (M1 q Hq) as (ys & Ch & M). pose proof Ch as Ch'. rewrite wl_es in Ch'. apply choice_es in Ch'.
      destruct (F2_pick _ _ _ (a, x) Ch' Ha) as (pa & Ia & Pa). destruct (F2_pick _ _ _ (b, y) Ch' Hb) as (pb & Ib & Pb). cbn [snd] in Pa, Pb.
      pose proof (take_flexion a x pa Ha Pa) as Ta. destruct (rdec a a) as [_|]; [|congruence]. destruct Ta as (s & Hs & Es). pose proof (take_content b y pb Hb Pb) as Tb. destruct (rdec b b) as [_|]; [|congruence]. destruct Tb as (r & Hr & Er).
      destruct (Forall2_in_l _ _ _ G r Hr) as (vs & Hvs & Gr). destruct (Forall2_in_l _ _ _ Gr s Hs) as (v & Hv & S). apply in_concat. exists (map usl_str vs). split; [now apply in_map|]. apply in_map_iff. exists v. split; [|exact Hv].
      apply (made_text ys v s r q); [|exact Ch|exact M|auto|auto|exact S].
      apply (F2_pairs _ _ _ _ Ch'). intros [i z] p Hp Pp. cbn [fst snd] in *. assert (Hi : In (i, z) es) by (now apply in_combine_l in Hp).
      pose proof (lss_ok so SO z (xlok i z Hi)) as O. rewrite Forall_forall in O. apply lexeme_str_key; [auto|apply (put_good es Fe a b y Hb); auto|]. pose proof (take_flexion i z p Hi Pp) as Tf. pose proof (take_content i z p Hi Pp) as Tc. cbn [put pm_flexion pm_content]. split.
      + destruct (rdec i a) as [->|D]; [|congruence]. assert (z = x) as -> by (apply (key_eq a); assumption). rewrite <- Es. f_equal. f_equal. now apply (uniq (a, x) ys).
      + destruct (rdec i b) as [->|D]; [|congruence]. assert (z = y) as -> by (apply (key_eq b); assumption). rewrite <- Er. f_equal. f_equal. now apply (uniq (b, y) ys).
    - intros H. apply in_concat in H. destruct H as (ts & H & Ht). apply in_map_iff in H. destruct H as (vs & <- & Hv). apply in_map_iff in Ht. destruct Ht as (v & <- & Hv').
      destruct (Forall2_in_l _ _ _ (proj1 (Forall2_flip _ _ _) G) vs Hv) as (r & Hr & Gr). destruct (Forall2_in_l _ _ _ (proj1 (Forall2_flip _ _ _) Gr) v Hv') as (s & Hs & S).
      destruct (F2_choose (fun e p => In p (lexeme_ss so (snd e)) /\ lexeme_str p = lexeme_str (put a b s (rowc y r) (fst e) (snd e))) es) as (ys & F2); [intros [i z] Hi; now apply give|].
      assert (Ch : SfunSpec.choice so (wl w) ys) by (rewrite wl_es; apply choice_es; eapply F2_pairs; [exact F2|]; cbn; tauto).
      destruct (M2 ys Ch) as (q & Hq & M). apply in_map_iff. exists q. split; [|exact Hq]. symmetry. apply (made_text ys v s r q); [eapply F2_pairs; [exact F2|]; cbn; tauto|exact Ch|exact M|auto|auto|exact S].
  Qed.
End Exact.
