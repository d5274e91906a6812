(** Lemmas on the listing of the paradigms and on the transactions on paradigms. *)
From Coq Require Import List String Ascii Bool NArith Arith Lia Permutation.
From Verif Require Import Base Script ScriptParser ScriptSpec ScriptWf ScriptCtorProofs ScriptParseProofs ScriptEqProofs ScriptMoreProofs UslProofs SortProofs Factor Dictionary DictionarySpec DictLoadProofs
  Database DatabaseSpec DatabaseProofs DatabaseRefine Git GitProofs Cache Transactions TransactionsProofs Properties3 Properties4 Properties6 Paradigms ParadigmsSpec.
Import ListNotations.
Local Open Scope string_scope.

(** * The listing *)
Lemma split_lines_line b : forall cur s, ~ occurs "010" b -> split_lines cur (b ++ nl ++ s) = (cur ++ b) :: split_lines "" s.
Proof.
  induction b as [|c b IH]; intros cur s H.
  - cbn. rewrite app_string_nil. reflexivity.
  - rewrite occurs_cons in H. cbn [append split_lines]. destruct (Ascii.eqb_spec c "010") as [->|]; [tauto|].
    rewrite IH by tauto. rewrite app_string_assoc. reflexivity.
Qed.
Lemma until_quote_plain a s : ~ occurs """" a -> until_quote (a ++ """" ++ s) = a.
Proof.
  induction a as [|c a IH]; intros H; [reflexivity|]. rewrite occurs_cons in H. cbn [append until_quote].
  destruct (Ascii.eqb_spec c """") as [->|]; [tauto|]. f_equal. apply IH. tauto.
Qed.
Lemma listing_lines parse l : (forall r, In r l -> good_d parse r) ->
  map cut_line (lines (sconcat (map dline l))) = map dieml l.
Proof.
  induction l as [|r l IH]; intros H; [reflexivity|]. cbn [map sconcat]. pose proof (H r (or_introl eq_refl)) as G.
  destruct (dline_is_line _ _ G) as (b & E & Nb & _). rewrite E. unfold lines. rewrite app_string_assoc, split_lines_line by exact Nb.
  cbn [map append]. f_equal; [|apply IH; intros; apply H; simpl; auto].
  destruct r as [[[i ln] d] v]. destruct G as (_ & (Hq & _) & _). cbn [dieml fst]. unfold dline in E. rewrite (quote_id i Hq) in E.
  destruct b as [|c b]; [destruct i; discriminate|]. cbn [append] in E. injection E as <- E. unfold cut_line. cbn [after_quote]. rewrite Ascii.eqb_refl.
  assert (X : exists y, b = i ++ """" ++ y).
  { clear -E Hq. revert b E. induction i as [|c i IH]; intros b E.
    - destruct b as [|c b]; [cbn in E; discriminate|]. injection E as <- E. exists b. reflexivity.
    - destruct b as [|c' b]; cbn [append] in E; [injection E as _ E; destruct i; discriminate|]. injection E as <- E. rewrite occurs_cons in Hq. destruct (IH (fun x => Hq (or_intror x)) b E) as (y & ->). exists y. reflexivity. }
  destruct X as (y & ->). apply until_quote_plain, Hq.
Qed.
Lemma uniq_in l x : In x (uniq l) <-> In x l.
Proof.
  induction l as [|a [|b l] IH]; [tauto|tauto|]. change (uniq (a :: b :: l)) with (if String.eqb a b then uniq (b :: l) else a :: uniq (b :: l)).
  destruct (String.eqb_spec a b) as [->|].
  - rewrite IH. simpl. tauto.
  - change (In x (a :: uniq (b :: l)) <-> In x (a :: b :: l)). cbn [In]. rewrite IH. simpl. tauto.
Qed.

(** Texts of scripts *)
Lemma chars_occurs f s c : chars_all f s = true -> occurs c s -> f c = true.
Proof.
  induction s as [|x s IH]; intros H O; [destruct O|]. cbn [chars_all] in H. apply andb_true_iff in H as [H1 H2]. rewrite occurs_cons in O. destruct O as [-> |O]; auto.
Qed.
Lemma script_plain s : wf s -> plain (str s).
Proof.
  intros W. pose proof (script_word_chars _ (str_word s W)) as C. split; [|split]; intros O; apply (chars_occurs _ _ _ C) in O; discriminate.
Qed.
Lemma script_stripped s : wf s -> strip byte_space (str s) = str s /\ str s <> "".
Proof.
  intros W. destruct (str_word s W) as [C (c & d & r & E & L)]. split; [|rewrite E; discriminate].
  assert (N : forall x, script_char x = true -> byte_space x = false).
  { intros x Hx. destruct (byte_space x) eqn:Bx; [|reflexivity]. exfalso. revert Hx Bx. destruct x as [[|] [|] [|] [|] [|] [|] [|] [|]]; vm_compute; discriminate. }
  unfold strip. assert (Lf : lstrip byte_space (str s) = str s).
  { rewrite E in *. cbn [lstrip]. cbn [chars_all] in C. apply andb_true_iff in C as [C _]. rewrite (N c C). reflexivity. }
  rewrite Lf. clear -C N. induction (str s) as [|x t IH]; [reflexivity|]. cbn [chars_all] in C. apply andb_true_iff in C as [C1 C2]. cbn [rstrip]. rewrite (IH C2), (N x C1). destruct t; reflexivity.
Qed.

Section Folder.
  Variable so : list script -> list script.
  Hypothesis SO : set_order so.
  Variable parse_ieml : string -> res string.
  Variable path : bool -> string -> string.
  Variables is_desc listed : string -> bool.
  Variable fo : fsys -> fsys.
  Hypothesis ok : paradigms_folder so parse_ieml path is_desc listed.
  Hypothesis Fo : file_order fo.
  Let fok := pf_folder _ _ _ _ _ ok.

  Lemma normal_text p s : parse_ieml p = Ok p -> parse so p = Ok s -> str s = p.
  Proof. intros H E. apply (pf_scripts _ _ _ _ _ ok) in E. congruence. Qed.
  Lemma parsed_wf p s : parse so p = Ok s -> wf s.
  Proof. intros E. exact (constructible_wf _ (parse_constructible so SO _ _ E)). Qed.
  Lemma script_normal s : wf s -> parse_ieml (str s) = Ok (str s).
  Proof.
    intros W. destruct (parse_text so SO s W) as (v & Ev & _ & Sv). apply (pf_scripts _ _ _ _ _ ok) in Ev. congruence.
  Qed.

  (** The texts listed are those of the plural scripts which have a descriptor. *)
  Lemma list_paradigms_spec fs st i : Inv parse_ieml path fs st ->
    (In i (list_paradigms fo listed fs) <-> (exists s, parse so i = Ok s /\ cardinal s <> 1%N) /\ exists r, In r (fst st) /\ dieml r = i).
  Proof.
    intros (Sh & HD & _ & GD & _).
    set (keep := fun r : drecord => listed (path true (dieml r))).
    set (fs' := filter (fun f => listed (fst f)) fs). set (rs := filter keep (fst st)).
    assert (Gp : forall r, In r (fst st) -> parse_ieml (dieml r) = Ok (dieml r)).
    { intros [[[j l] d] v] H. destruct (GD _ H) as (P & _). exact P. }
    assert (Sh' : shape parse_ieml path fs').
    { destruct Sh as [N S]. split.
      - unfold fs'. clear -N. induction fs as [|f fs IH]; [constructor|]. cbn [map] in N. apply NoDup_cons_iff in N as [N1 N2]. cbn [filter]. destruct (listed (fst f)); [|auto]. cbn [map]. constructor; [|auto].
        intros H. apply N1. apply in_map_iff in H as (g & E & H). apply filter_In in H. rewrite <- E. apply in_map. tauto.
      - intros p H. apply S. apply in_map_iff in H as (g & <- & H). apply filter_In in H. apply in_map. tauto. }
    assert (HD' : holds parse_ieml path true dieml dline fs' rs).
    { intros j Hj. specialize (HD j Hj).
      assert (Eg : fs_get fs' (path true j) = if listed (path true j) then fs_get fs (path true j) else None).
      { unfold fs', fs_get. clear. induction fs as [|f fs IH]; [destruct (listed _); reflexivity|]. cbn [filter find]. destruct (listed (fst f)) eqn:L; cbn [find].
        - destruct (String.eqb_spec (path true j) (fst f)) as [E|]; [|exact IH]. rewrite E, L. reflexivity.
        - rewrite IH. destruct (String.eqb_spec (path true j) (fst f)) as [E|]; [|reflexivity]. rewrite E, L. reflexivity. }
      assert (Eo : own dieml rs j = if listed (path true j) then own dieml (fst st) j else []).
      { unfold own, rs. rewrite filter_filter. destruct (listed (path true j)) eqn:L.
        - apply filter_ext_in_. intros r _. unfold keep. destruct (String.eqb_spec j (dieml r)) as [<-|]; [rewrite L; reflexivity|apply andb_false_r].
        - apply filter_none. intros r _. unfold keep. destruct (String.eqb_spec j (dieml r)) as [<-|]; [rewrite L; reflexivity|apply andb_false_r]. }
      rewrite Eg, Eo. destruct (listed (path true j)); [exact HD|reflexivity]. }
    assert (Gp' : forall r, In r rs -> parse_ieml (dieml r) = Ok (dieml r)) by (intros r H; apply filter_In in H; apply Gp; tauto).
    destruct (read_all parse_ieml path is_desc fok true dieml dline fs' rs fo Sh' HD' Fo Gp') as (is & Nd & His & E).
    assert (Ef : filter (fun f => Bool.eqb (is_desc (fst f)) true) fs' = fs').
    { apply filter_all. intros f Hf. destruct Sh' as [_ S]. destruct (S (fst f) (in_map fst _ _ Hf)) as (b & j & Pj & Ep). rewrite Ep.
      rewrite (path_kind _ _ _ fok) by exact Pj. apply filter_In in Hf as [_ Hl]. rewrite Ep in Hl. apply (pf_listed _ _ _ _ _ ok b j Pj) in Hl as [-> _]. reflexivity. }
    rewrite Ef in E. unfold list_paradigms. change (filter (fun f => listed (fst f)) fs) with fs'. rewrite E. unfold listing.
    assert (G : forall r, In r (flat_map (own dieml rs) is) <-> In r rs).
    { intros r. rewrite in_flat_map. split; [intros (j & _ & H); apply filter_In in H; tauto|]. intros H. exists (dieml r). split; [apply His, H|]. apply filter_In. split; [exact H|apply String.eqb_refl]. }
    rewrite (listing_lines parse_ieml) by (intros r H; apply G in H; apply filter_In in H; apply GD; tauto).
    assert (K : forall j, In j (map dieml (flat_map (own dieml rs) is)) -> strip byte_space j = j /\ j <> "").
    { intros j H. apply in_map_iff in H as (r & <- & H). apply G in H. pose proof (Gp' _ H) as P. apply filter_In in H as [_ H]. apply (pf_listed _ _ _ _ _ ok true _ P) in H as [_ (s & Es & _)].
      rewrite <- (normal_text _ _ P Es). apply script_stripped, (parsed_wf _ _ Es). }
    assert (Em : map (strip byte_space) (uniq (map dieml (flat_map (own dieml rs) is))) = uniq (map dieml (flat_map (own dieml rs) is))).
    { etransitivity; [|apply map_id]. apply map_ext_in. intros j H. apply (proj1 (uniq_in _ _)) in H. apply K, H. }
    rewrite Em, filter_all by (intros j H; apply (proj1 (uniq_in _ _)) in H; apply K in H as [_ H]; apply negb_true_iff, String.eqb_neq, H).
    rewrite uniq_in, in_map_iff. split.
    - intros (r & <- & H). apply G in H. pose proof (Gp' _ H) as P. apply filter_In in H as [H L]. apply (pf_listed _ _ _ _ _ ok true _ P) in L as [_ L]. eauto.
    - intros (Hs & r & Hr & <-). exists r. split; [reflexivity|]. apply G, filter_In. split; [exact Hr|]. apply (pf_listed _ _ _ _ _ ok true _ (Gp _ Hr)). auto.
  Qed.
End Folder.
