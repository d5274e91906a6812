(** The files written by the database are the records of the specification. *)
From Coq Require Import List String Ascii Bool NArith Arith Lia Permutation.
From Verif Require Import Base ScriptStrProofs Database DatabaseSpec.
Import ListNotations.
Local Open Scope string_scope.

(** ** Strings *)
Lemma occurs_app c a b : occurs c (a ++ b) <-> occurs c a \/ occurs c b.
Proof.
  unfold occurs. induction a as [|x a IH]; simpl; [tauto|]. rewrite IH. tauto.
Qed.

Lemma occurs_cons c x s : occurs c (String x s) <-> x = c \/ occurs c s.
Proof. reflexivity. Qed.

Fixpoint quote (s : string) : string :=
  match s with
  | EmptyString => ""
  | String c r => if Ascii.eqb c """" then String """" (String """" (quote r)) else String c (quote r)
  end.

Lemma escape_quote v : escape_value v = quote (one_line v).
Proof.
  induction v as [|c v IH]; [reflexivity|]. simpl.
  destruct (Ascii.eqb_spec c """") as [->|H]; [simpl; rewrite IH; reflexivity|].
  destruct (Ascii.eqb_spec c "010") as [->|H']; [simpl; rewrite IH; reflexivity|].
  simpl. destruct (Ascii.eqb_spec c """"); [congruence|]. rewrite IH. reflexivity.
Qed.

Lemma one_line_no_nl v : ~ occurs "010" (one_line v).
Proof.
  induction v as [|c v IH]; [exact (fun x => x)|]. simpl.
  destruct (Ascii.eqb_spec c "010") as [->|H]; rewrite ?occurs_cons; intuition congruence.
Qed.

Lemma one_line_occurs c v : c <> "\"%char -> c <> "n"%char -> occurs c (one_line v) -> occurs c v.
Proof.
  induction v as [|x v IH]; [exact (fun _ _ x => x)|]. simpl. intros Hb Hn.
  destruct (Ascii.eqb_spec x "010") as [->|H]; rewrite ?occurs_cons; intuition congruence.
Qed.

Lemma one_line_id v : ~ occurs "010" v -> one_line v = v.
Proof.
  induction v as [|x v IH]; [reflexivity|]. simpl. rewrite occurs_cons. intros H.
  destruct (Ascii.eqb_spec x "010") as [->|Hx]; [tauto|]. rewrite IH by tauto. reflexivity.
Qed.

Lemma one_line_empty v : one_line v = "" <-> v = "".
Proof. destruct v as [|c v]; simpl; [tauto|]. destruct (Ascii.eqb c "010"); split; discriminate. Qed.

Lemma quote_id v : ~ occurs """" v -> quote v = v.
Proof.
  induction v as [|x v IH]; [reflexivity|]. simpl. rewrite occurs_cons. intros H.
  destruct (Ascii.eqb_spec x """") as [->|Hx]; [tauto|]. rewrite IH by tauto. reflexivity.
Qed.

Lemma quote_occurs c v : occurs c (quote v) -> occurs c v.
Proof.
  induction v as [|x v IH]; [exact (fun x => x)|]. simpl.
  destruct (Ascii.eqb_spec x """") as [->|H]; rewrite ?occurs_cons; tauto.
Qed.

Lemma eqb_app_cons a b x : String.eqb (String x a) (String x b) = String.eqb a b.
Proof. simpl. rewrite Ascii.eqb_refl. reflexivity. Qed.

Lemma prefix_cons x y a b : String.prefix (String x a) (String y b) = (Ascii.eqb x y && String.prefix a b)%bool.
Proof.
  simpl. destruct (ascii_dec x y) as [->|H].
  - rewrite Ascii.eqb_refl. reflexivity.
  - apply Ascii.eqb_neq in H. rewrite H. reflexivity.
Qed.

Lemma prefix_app p a b : String.prefix (p ++ a) (p ++ b) = String.prefix a b.
Proof. induction p as [|x p IH]; [reflexivity|]. simpl append. rewrite prefix_cons, Ascii.eqb_refl. exact IH. Qed.

Lemma prefix_sep c a b x y : ~ occurs c a -> ~ occurs c b ->
  String.prefix (a ++ String c x) (b ++ String c y) = (String.eqb a b && String.prefix x y)%bool.
Proof.
  revert b. induction a as [|u a IH]; intros [|v b]; rewrite ?occurs_cons; intros Ha Hb; simpl append.
  - rewrite prefix_cons, Ascii.eqb_refl. reflexivity.
  - rewrite prefix_cons. destruct (Ascii.eqb_spec c v); [subst; tauto|]. reflexivity.
  - rewrite prefix_cons. destruct (Ascii.eqb_spec u c); [subst; tauto|]. reflexivity.
  - rewrite prefix_cons. rewrite IH by tauto. simpl. destruct (Ascii.eqb u v); reflexivity.
Qed.

Lemma prefix_nil s : String.prefix "" s = true.
Proof. destruct s; reflexivity. Qed.

Lemma prefix_quoted v x : String.prefix (quote v ++ """") (quote x ++ """" ++ nl) = same_or_quoted v x.
Proof.
  unfold same_or_quoted. revert x. induction v as [|c v IH]; intros x.
  - simpl quote. simpl append. destruct x as [|d x].
    + reflexivity.
    + simpl quote. destruct (Ascii.eqb_spec d """") as [->|H]; simpl append.
      * rewrite !prefix_cons, !prefix_nil. reflexivity.
      * rewrite !prefix_cons. destruct (Ascii.eqb_spec """" d); [congruence|]. reflexivity.
  - simpl quote. destruct (Ascii.eqb_spec c """") as [->|H].
    + destruct x as [|d x]; [reflexivity|]. simpl quote.
      destruct (Ascii.eqb_spec d """") as [->|H]; simpl append.
      * rewrite !prefix_cons, eqb_app_cons, !Ascii.eqb_refl. simpl andb. apply IH.
      * rewrite !prefix_cons. cbn [String.eqb]. destruct (Ascii.eqb_spec """" d); [congruence|]. reflexivity.
    + destruct x as [|d x]; simpl quote.
      * simpl append. rewrite !prefix_cons. destruct (Ascii.eqb_spec c """"); [congruence|]. reflexivity.
      * destruct (Ascii.eqb_spec d """") as [->|H']; simpl append.
        -- rewrite !prefix_cons. simpl String.eqb. destruct (Ascii.eqb_spec c """"); [congruence|]. reflexivity.
        -- rewrite !prefix_cons, IH. simpl String.eqb. destruct (Ascii.eqb c d); reflexivity.
Qed.

Lemma same_or_quoted_plain v x : ~ occurs """" x -> same_or_quoted v x = String.eqb v x.
Proof.
  unfold same_or_quoted. intros H. destruct (String.eqb v x); [reflexivity|]. simpl.
  revert x H. induction v as [|c v IH]; intros [|d x] H; try reflexivity; rewrite occurs_cons in H; simpl append.
  - rewrite prefix_cons. destruct (Ascii.eqb_spec """" d); [subst; tauto|]. reflexivity.
  - rewrite prefix_cons, IH by tauto. apply andb_false_r.
Qed.

(** ** Lines *)
Lemma sconcat_app a b : sconcat (a ++ b)%list = sconcat a ++ sconcat b.
Proof. induction a as [|x a IH]; simpl; [reflexivity|]. rewrite IH, string_app_assoc. reflexivity. Qed.

Lemma sconcat_concat l : sconcat (map sconcat l) = sconcat (List.concat l).
Proof. induction l as [|x l IH]; simpl; [reflexivity|]. rewrite IH, sconcat_app. reflexivity. Qed.

(** A line: nothing but a newline at the end. *)
Definition is_line (s : string) : Prop :=
  exists b, s = b ++ nl /\ ~ occurs "010" b /\ ~ occurs "013" b.

Lemma readlines_line cur b s : ~ occurs "010" b -> ~ occurs "013" b ->
  readlines_aux cur (b ++ nl ++ s) = (cur ++ b ++ nl) :: readlines_aux "" s.
Proof.
  revert cur. induction b as [|c b IH]; intros cur; rewrite ?occurs_cons; intros Hn Hr.
  - reflexivity.
  - simpl append. cbn [readlines_aux].
    destruct (Ascii.eqb_spec c "010") as [->|]; [tauto|].
    destruct (Ascii.eqb_spec c "013") as [->|]; [tauto|].
    rewrite IH by tauto. f_equal. rewrite string_app_assoc. reflexivity.
Qed.

Lemma readlines_lines ls : Forall is_line ls -> readlines (sconcat ls) = ls.
Proof.
  unfold readlines. induction 1 as [|x ls (b & -> & Hn & Hr) _ IH]; [reflexivity|].
  cbn [sconcat]. rewrite string_app_assoc, readlines_line by auto. simpl append at 1. rewrite IH. reflexivity.
Qed.

(** ** The csv machine *)
Lemma csv_quoted f row v rest :
  csv_run InQuoted f row (quote v ++ String """" rest) = csv_run QuoteInQuoted (f ++ v) row rest.
Proof.
  revert f. induction v as [|c v IH]; intros f.
  - simpl append at 1. rewrite string_app_nil. reflexivity.
  - simpl quote. destruct (Ascii.eqb_spec c """") as [->|H]; simpl append at 1.
    + cbn [csv_run Ascii.eqb Bool.eqb]. cbn. rewrite IH, string_app_assoc. reflexivity.
    + cbn [csv_run]. apply Ascii.eqb_neq in H. rewrite H, IH, string_app_assoc. reflexivity.
Qed.

Lemma csv_field f row w rest : ~ occurs " " w -> ~ occurs "010" w ->
  csv_run InField f row (w ++ rest) = csv_run InField (f ++ w) row rest.
Proof.
  revert f. induction w as [|c w IH]; intros f; rewrite ?occurs_cons; intros Hs Hn.
  - rewrite string_app_nil. reflexivity.
  - simpl append at 1. cbn [csv_run].
    destruct (Ascii.eqb_spec c "010"); [tauto|]. destruct (Ascii.eqb_spec c " "); [tauto|].
    rewrite IH by tauto. rewrite string_app_assoc. reflexivity.
Qed.

(** A word written without quotes. *)
Definition word (w : string) : Prop :=
  w <> "" /\ ~ occurs " " w /\ ~ occurs "010" w /\ ~ occurs "013" w /\ ~ occurs """" w.

Lemma csv_word row w rest : word w ->
  csv_run StartField "" row (w ++ String " " rest) = csv_run StartField "" (row ++ [w])%list rest.
Proof.
  intros (H0 & Hs & Hn & Hr & Hq). destruct w as [|c w]; [congruence|].
  rewrite !occurs_cons in *. simpl append at 1. cbn [csv_run].
  destruct (Ascii.eqb_spec c "010"); [tauto|]. destruct (Ascii.eqb_spec c """"); [tauto|].
  destruct (Ascii.eqb_spec c " "); [tauto|].
  rewrite csv_field by tauto. cbn [csv_run Ascii.eqb Bool.eqb]. reflexivity.
Qed.

Lemma csv_dline i l d v rest : word l -> word d ->
  csv_rows ((""""  ++ quote i ++ """ " ++ l ++ " " ++ d ++ " """ ++ quote v ++ """" ++ nl) ++ rest)
  = [i; l; d; v] :: csv_rows rest.
Proof.
  intros Hl Hd. unfold csv_rows. rewrite !string_app_assoc. simpl append.
  cbn [csv_run Ascii.eqb Bool.eqb]. cbn.
  rewrite csv_quoted. cbn. rewrite csv_word by auto. rewrite csv_word by auto. cbn.
  rewrite csv_quoted. cbn. reflexivity.
Qed.

Lemma csv_sline i k v rest : word k ->
  csv_rows ((""""  ++ quote i ++ """ " ++ k ++ " """ ++ quote v ++ """" ++ nl) ++ rest)
  = [i; k; v] :: csv_rows rest.
Proof.
  intros Hk. unfold csv_rows. rewrite !string_app_assoc. simpl append.
  cbn [csv_run Ascii.eqb Bool.eqb]. cbn.
  rewrite csv_quoted. cbn. rewrite csv_word by auto. cbn.
  rewrite csv_quoted. cbn. reflexivity.
Qed.

(** ** Files *)
Lemma fs_get_set fs p c q : fs_get (fs_set fs p c) q = if String.eqb p q then Some c else fs_get fs q.
Proof.
  unfold fs_get, fs_set. destruct (existsb (fun f => String.eqb p (fst f)) fs) eqn:E.
  - induction fs as [|[a b] fs IH]; [discriminate|]. simpl in *.
    destruct (String.eqb_spec p a) as [->|Hpa]; simpl.
    + rewrite (String.eqb_sym q a). destruct (String.eqb_spec a q) as [->|Haq]; [reflexivity|].
      clear E IH. induction fs as [|[x y] fs IH]; [reflexivity|]. simpl.
      destruct (String.eqb_spec a x) as [->|Hax]; simpl.
      * destruct (String.eqb_spec q x); [subst; congruence|]. exact IH.
      * destruct (String.eqb_spec q x); [reflexivity|]. exact IH.
    + simpl in E. specialize (IH E). destruct (String.eqb_spec q a) as [->|Hqa].
      * destruct (String.eqb_spec p a); [congruence|]. reflexivity.
      * exact IH.
  - induction fs as [|[a b] fs IH]; simpl.
    + rewrite (String.eqb_sym q p). destruct (String.eqb p q); reflexivity.
    + simpl in E. apply orb_false_iff in E. destruct E as [Ea E].
      destruct (String.eqb_spec q a) as [->|Hqa].
      * rewrite Ea. reflexivity.
      * apply IH; exact E.
Qed.

Lemma fs_get_del fs p q : fs_get (fs_del fs p) q = if String.eqb p q then None else fs_get fs q.
Proof.
  unfold fs_get, fs_del. induction fs as [|[a b] fs IH]; simpl.
  - destruct (String.eqb p q); reflexivity.
  - destruct (String.eqb_spec p a) as [->|H]; simpl.
    + rewrite IH. rewrite (String.eqb_sym q a). destruct (String.eqb a q); reflexivity.
    + destruct (String.eqb_spec q a) as [->|Hq].
      * destruct (String.eqb_spec p a); [congruence|]. reflexivity.
      * exact IH.
Qed.

Lemma fs_get_append fs p c q :
  fs_get (fs_append fs p c) q =
  if String.eqb p q then Some (match fs_get fs p with Some c0 => c0 ++ c | None => c end) else fs_get fs q.
Proof. unfold fs_append. destruct (fs_get fs p); rewrite fs_get_set; reflexivity. Qed.

Lemma fs_set_paths fs p c :
  map fst (fs_set fs p c) = map fst fs /\ In p (map fst fs) \/
  map fst (fs_set fs p c) = (map fst fs ++ [p])%list /\ ~ In p (map fst fs).
Proof.
  unfold fs_set. destruct (existsb (fun f => String.eqb p (fst f)) fs) eqn:E.
  - left. split.
    + rewrite map_map. apply map_ext. intros [a b]. simpl. destruct (String.eqb_spec p a); subst; reflexivity.
    + apply existsb_exists in E. destruct E as ([a b] & Hin & Hp). apply String.eqb_eq in Hp. simpl in Hp. subst.
      apply in_map_iff. exists (a, b). auto.
  - right. split; [rewrite map_app; reflexivity|]. intros Hin. apply in_map_iff in Hin.
    destruct Hin as ([a b] & Hp & Hin). simpl in Hp. subst.
    assert (existsb (fun f => String.eqb p (fst f)) fs = true) as C; [|congruence].
    apply existsb_exists. exists (p, b). split; [auto|]. apply String.eqb_refl.
Qed.

Lemma NoDup_snoc {A} (l : list A) x : NoDup l -> ~ In x l -> NoDup (l ++ [x])%list.
Proof.
  induction 1 as [|y l Hy Hl IH]; simpl; intros Hx; constructor; auto using in_nil.
  - constructor.
  - rewrite in_app_iff. simpl. intuition.
Qed.

Lemma fs_set_nodup fs p c : NoDup (map fst fs) -> NoDup (map fst (fs_set fs p c)).
Proof. destruct (fs_set_paths fs p c) as [[-> _]|[-> H]]; auto using NoDup_snoc. Qed.
Lemma fs_append_nodup fs p c : NoDup (map fst fs) -> NoDup (map fst (fs_append fs p c)).
Proof. unfold fs_append. destruct (fs_get fs p); apply fs_set_nodup. Qed.
Lemma fs_del_nodup fs p : NoDup (map fst fs) -> NoDup (map fst (fs_del fs p)).
Proof.
  unfold fs_del. induction fs as [|[a b] fs IH]; simpl; [auto|]. inversion_clear 1.
  destruct (String.eqb p a); simpl; [auto|]. constructor; [|auto].
  intros Hin. apply in_map_iff in Hin. destruct Hin as ([x y] & Hx & Hin). apply filter_In in Hin. simpl in Hx. subst.
  apply H0. apply in_map_iff. exists (a, y). tauto.
Qed.

Lemma fs_get_in fs p c : NoDup (map fst fs) -> (In (p, c) fs <-> fs_get fs p = Some c).
Proof.
  unfold fs_get. induction fs as [|[a b] fs IH]; simpl; [split; [tauto|discriminate]|].
  inversion_clear 1 as [|x l Ha Hnd]. destruct (String.eqb_spec p a) as [->|Hne]; simpl.
  - split.
    + intros [Heq|Hin]; [congruence|]. exfalso. apply Ha. apply in_map_iff. exists (a, c). auto.
    + intros [=]; subst; auto.
  - rewrite <- IH by auto. split; [intros [Heq|Hin]; congruence|]; auto.
Qed.

Lemma fs_get_none fs p : fs_get fs p = None <-> ~ In p (map fst fs).
Proof.
  unfold fs_get. induction fs as [|[a b] fs IH]; simpl; [tauto|].
  destruct (String.eqb_spec p a) as [->|Hne]; simpl.
  - split; [discriminate|]. intros H. exfalso. apply H. auto.
  - rewrite IH. intuition.
Qed.

Lemma fs_set_path_in fs p c q : In q (map fst (fs_set fs p c)) -> q = p \/ In q (map fst fs).
Proof.
  destruct (fs_set_paths fs p c) as [[-> _]|[-> H]]; [auto|]. rewrite in_app_iff. simpl. intuition.
Qed.
Lemma fs_append_path_in fs p c q : In q (map fst (fs_append fs p c)) -> q = p \/ In q (map fst fs).
Proof. unfold fs_append. destruct (fs_get fs p); apply fs_set_path_in. Qed.
Lemma fs_del_path_in fs p q : In q (map fst (fs_del fs p)) -> In q (map fst fs).
Proof.
  rewrite !in_map_iff. intros (f & Hf & Hin). apply filter_In in Hin. exists f. tauto.
Qed.
