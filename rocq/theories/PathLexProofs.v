(** The lexer of paths on printed paths. *)
From Coq Require Import List String Ascii Bool NArith Arith Lia.
From Verif Require Import Base Script ScriptParser ScriptWf ScriptStrProofs Commons Usl Sfun UslProofs UslParser UslParserProofs Path.
Import ListNotations.
Local Open Scope string_scope.

(** *** The expression of morphemes reads a printed script to its end *)
Fixpoint scan (n : list ascii) (s : string) : option (list ascii) :=
  match s with
  | "" => Some n
  | String c r =>
    match after c n with
    | Some n => scan n r
    | None => if term_letter c then scan MARKS r else None
    end
  end.
Definition st (k : nat) : list ascii := skipn k MARKS.
Definition mark_idx (l : nat) : nat := nth l [0; 1; 2; 3; 4; 6; 7] 0.
Lemma scan_app a : forall n b, scan n (a ++ b) = match scan n a with Some n' => scan n' b | None => None end.
Proof.
  induction a as [|c a IH]; intros n b; [reflexivity|]. cbn [append scan]. destruct (after c n); [apply IH|].
  destruct (term_letter c); [apply IH|reflexivity].
Qed.
Lemma st_big k : 9 <= k -> st k = [].
Proof. intros H. unfold st. apply skipn_all2. exact H. Qed.
Lemma st_cases (P : list ascii -> Prop) : P (st 0) -> P (st 1) -> P (st 2) -> P (st 3) -> P (st 4) -> P (st 5) -> P (st 6) -> P (st 7) -> P (st 8) -> P [] -> forall k, P (st k).
Proof.
  intros. destruct (Nat.leb_spec 9 k) as [L|L]; [rewrite st_big by auto; auto|].
  do 9 (destruct k as [|k]; [assumption|]). lia.
Qed.
Lemma after_letter c k : term_letter c = true -> after c (st k) = None.
Proof.
  intros H. apply (st_cases (fun n => after c n = None)); try reflexivity;
  destruct c as [[|] [|] [|] [|] [|] [|] [|] [|]]; try discriminate; reflexivity.
Qed.
Lemma after_stop c k : delimiter c = true -> after c (st k) = None /\ term_letter c = false.
Proof.
  intros H. split; [|destruct c as [[|] [|] [|] [|] [|] [|] [|] [|]]; try discriminate; reflexivity].
  apply (st_cases (fun n => after c n = None)); try reflexivity;
  destruct c as [[|] [|] [|] [|] [|] [|] [|] [|]]; try discriminate; reflexivity.
Qed.
Lemma scan_letter c r k : term_letter c = true -> scan (st k) (String c r) = scan (st 0) r.
Proof. intros H. cbn [scan]. rewrite after_letter, H by auto. reflexivity. Qed.
Lemma scan_mark l k : l <= MAX_LAYER -> k <= mark_idx l -> scan (st k) (LAYER_MARK l) = Some (st (S (mark_idx l))).
Proof.
  unfold MAX_LAYER. intros H.
  do 7 (destruct l as [|l]; [cbn [mark_idx nth]; intros Hk; do 8 (destruct k as [|k]; [try reflexivity; exfalso; lia|]); exfalso; lia|]). exfalso. lia.
Qed.
Lemma mark_idx_S l : S l <= MAX_LAYER -> S (mark_idx l) <= mark_idx (S l).
Proof. unfold MAX_LAYER. intros H. do 6 (destruct l as [|l]; [cbn; lia|]). lia. Qed.
Lemma scan_plus l : l <= MAX_LAYER -> scan (st (S (mark_idx l))) "+" = Some (st 9).
Proof. unfold MAX_LAYER. intros H. do 7 (destruct l as [|l]; [reflexivity|]). lia. Qed.
Lemma scan_null l : l <= MAX_LAYER -> forall k, scan (st k) (null_str l) = Some (st (S (mark_idx l))).
Proof.
  induction l as [|l IH]; intros H k.
  - change (null_str 0) with (String "E" ":"). rewrite scan_letter by reflexivity. reflexivity.
  - rewrite null_str_S, scan_app, IH by lia. apply scan_mark; [auto|apply mark_idx_S; auto].
Qed.
Lemma wf_layer_atom s : wf s -> is_add s = false -> layer s <= MAX_LAYER.
Proof.
  destruct s as [l|p|a b c|cs]; intros W A.
  - exact W.
  - cbn. unfold MAX_LAYER. lia.
  - destruct W as (_ & _ & _ & _ & _ & _ & _ & _ & L & _). cbn [layer]. lia.
  - discriminate.
Qed.
Lemma wf_layer s : wf s -> layer s <= MAX_LAYER.
Proof.
  intros W. destruct (is_add s) eqn:A; [|now apply wf_layer_atom]. destruct s as [| | |cs]; try discriminate.
  assert (N : cs <> []) by (destruct W as (N & _); exact N). destruct cs as [|c cs]; [congruence|].
  destruct (wf_add_in _ c W) as (Wc & Ac & <-); [left; auto|]. now apply wf_layer_atom.
Qed.
Lemma scan_join l : l <= MAX_LAYER -> forall ws, ws <> [] -> Forall (fun w => forall k, scan (st k) w = Some (st (S (mark_idx l)))) ws ->
  forall k, scan (st k) (join "+" ws) = Some (st (S (mark_idx l))).
Proof.
  intros L. induction ws as [|w ws IH]; intros N F k; [congruence|]. apply Forall_cons_iff in F. destruct F as [Hw F].
  destruct ws as [|w' ws]; [apply Hw|].
  change (join "+" (w :: w' :: ws)) with (w ++ "+" ++ join "+" (w' :: ws)). rewrite scan_app, Hw, scan_app, scan_plus by auto.
  apply IH; [discriminate|exact F].
Qed.
Lemma scan_str s : wf s -> forall k, scan (st k) (str s) = Some (st (S (mark_idx (layer s)))).
Proof.
  induction s as [l|p|a b c IHa IHb IHc|cs IH] using script_ind'; intros W k.
  - apply scan_null. exact W.
  - cbn [str layer]. destruct p; (change (prim_char _ ++ LAYER_MARK 0) with (String "U" ":") ||
      change (prim_char _ ++ LAYER_MARK 0) with (String "A" ":") || change (prim_char _ ++ LAYER_MARK 0) with (String "S" ":") ||
      change (prim_char _ ++ LAYER_MARK 0) with (String "B" ":") || change (prim_char _ ++ LAYER_MARK 0) with (String "T" ":"));
      rewrite scan_letter by reflexivity; reflexivity.
  - pose proof (wf_layer _ W) as L. destruct (wf_mul_inv a b c W) as (Wa & Wb & Wc & _).
    destruct W as (_ & _ & _ & _ & _ & _ & Lb & Lc & La & _). cbn [str]. cbn [layer] in L |- *. destruct (mul_character a b c) as [ch|] eqn:E.
    + unfold mul_character in E. destruct a as [|p| |], b as [|q| |], c as [[|]| | |]; try discriminate. injection E as <-. cbn [layer].
      assert (X : exists d w, remarkable_mul p q = String d w /\ term_letter d = true /\ scan (st 0) (w ++ LAYER_MARK 1) = Some (st 2))
        by (destruct p, q; eexists; eexists; (split; [reflexivity|split; reflexivity])).
      destruct X as (d & w & -> & Hd & X). cbn [append]. rewrite scan_letter by auto. exact X.
    + rewrite scan_app.
      assert (X : forall k, scan (st k) (render3 (str a, is_empty a) (str b, is_empty b) (str c, is_empty c)) = Some (st (S (mark_idx (layer a))))).
      { clear k. intros k. unfold render3. cbn [fst snd]. specialize (IHa Wa). specialize (IHb Wb). specialize (IHc Wc). rewrite Lb in IHb. rewrite Lc in IHc.
        destruct (is_empty c); [destruct (is_empty b)|]; rewrite ?scan_app, IHa; auto. rewrite scan_app, IHb. apply IHc. }
      rewrite X. apply scan_mark; [exact L|apply mark_idx_S; exact L].
  - pose proof (wf_layer _ W) as L. rewrite str_add. unfold add_char0. destruct (if Nat.eqb (layer (Add cs)) 0 then add_character cs else None) as [ch|] eqn:E.
    + destruct (Nat.eqb (layer (Add cs)) 0) eqn:E0; [|discriminate]. apply Nat.eqb_eq in E0. rewrite E0. unfold add_character in E.
      destruct (find _ REMARKABLE_ADDITION) as [kv|] eqn:Ef; [|discriminate]. injection E as <-. apply find_some in Ef. destruct Ef as [Hin _].
      destruct Hin as [<-|[<-|[<-|[<-|[]]]]]; cbn [fst append]; rewrite scan_letter by reflexivity; reflexivity.
    + apply scan_join; [exact L| |].
      * destruct W as (N & _). destruct cs; [congruence|discriminate].
      * rewrite Forall_map. rewrite Forall_forall in *. intros c Hc k'. destruct (wf_add_in _ c W Hc) as (Wc & _ & <-). now apply IH.
Qed.
Lemma run_scan w : forall n n' r, scan n w = Some n' -> run n (w ++ r) = String.length w + run n' r.
Proof.
  induction w as [|c w IH]; intros n n' r H; [injection H as <-; reflexivity|]. cbn [scan append run String.length] in *.
  destruct (after c n) as [m|]; [cbn; f_equal; now apply IH|]. destruct (term_letter c); [|discriminate]. cbn. f_equal. now apply IH.
Qed.
Lemma run_str s r : wf s -> stops r -> run [] (str s ++ r) = String.length (str s).
Proof.
  intros W H. rewrite (run_scan _ [] _ r (scan_str s W 9)).
  destruct H as [->|(c & r' & -> & D)]; [cbn; lia|]. cbn [run]. destruct (after_stop c (S (mark_idx (layer s))) D) as [-> ->]. lia.
Qed.

(** *** No reserved word begins like a script *)
Definition starts (w : string) : Prop := exists c d r, w = String c (String d r) /\ term_letter c = true /\ (script_mark d = true \/ c = "w"%char).
Lemma starts_app a b : starts a -> starts (a ++ b).
Proof. intros (c & d & r & -> & H). exists c, d, (r ++ b). auto. Qed.
Lemma str_starts s : wf s -> starts (str s).
Proof.
  induction s as [l|p|a b c IHa IHb IHc|cs IH] using script_ind'; intros W.
  - unfold null_str. cbn. eexists. eexists. eexists. split; [reflexivity|auto].
  - destruct p; eexists; eexists; eexists; (split; [reflexivity|auto]).
  - destruct (wf_mul_inv a b c W) as (Wa & Wb & Wc & _). cbn [str]. destruct (mul_character a b c) as [ch|] eqn:E.
    + unfold mul_character in E. destruct a as [|p| |], b as [|q| |], c as [[|]| | |]; try discriminate. injection E as <-.
      destruct p, q; eexists; eexists; eexists; (split; [reflexivity|auto]).
    + apply starts_app. unfold render3. cbn [fst snd]. destruct (is_empty c); [destruct (is_empty b)|]; try apply starts_app; auto.
  - cbn [str]. destruct (if Nat.eqb (layer (Add cs)) 0 then add_character cs else None) as [ch|] eqn:E.
    + destruct (Nat.eqb (layer (Add cs)) 0); [|discriminate]. unfold add_character in E.
      destruct (find _ REMARKABLE_ADDITION) as [kv|] eqn:Ef; [|discriminate]. injection E as <-. apply find_some in Ef. destruct Ef as [Hin _].
      destruct Hin as [<-|[<-|[<-|[<-|[]]]]]; eexists; eexists; eexists; (split; [reflexivity|auto]).
    + pose proof (wf_add_children _ W) as F. destruct W as (N & _). destruct cs as [|c cs]; [congruence|]. cbn [map].
      apply Forall_cons_iff in F. destruct F as [Wc _]. apply Forall_cons_iff in IH. destruct IH as [Hc _]. specialize (Hc Wc).
      destruct (map str cs) as [|w ws]; [exact Hc|]. change (join "+" (str c :: w :: ws)) with (str c ++ "+" ++ join "+" (w :: ws)). now apply starts_app.
Qed.
Definition KEYWORDS := (["flexion"; "content"; "constant"; "role"; "group_"] ++ ROLE_NAMES)%list.
Lemma keywords_ok : forallb (fun k => match k with String c (String d _) => (negb (script_mark d) && negb (Ascii.eqb c "w"))%bool | _ => false end) KEYWORDS = true.
Proof. vm_compute. reflexivity. Qed.
Lemma starts_keyword w k : starts w -> In k KEYWORDS -> String.prefix k w = false.
Proof.
  intros (c & d & r & -> & _ & H) Hk. pose proof keywords_ok as K. rewrite forallb_forall in K. specialize (K _ Hk).
  destruct k as [|c' [|d' k]]; try discriminate. apply andb_true_iff in K. destruct K as [K1 K2]. apply negb_true_iff in K1, K2.
  cbn [String.prefix]. destruct (ascii_dec c' c) as [->|]; [|reflexivity]. destruct (ascii_dec d' d) as [->|]; [|reflexivity].
  destruct H as [H| ->]; [congruence|discriminate].
Qed.
Lemma starts_reserved w : starts w -> reserved w = false.
Proof.
  intros H. assert (K : forall k, In k KEYWORDS -> String.prefix k w = false) by (intros; now apply starts_keyword).
  unfold reserved, group_word. rewrite (K "group_") by (cbn; tauto). cbn [existsb].
  rewrite (K "flexion"), (K "content"), (K "constant"), (K "role") by (cbn; tauto). cbn [orb andb].
  apply not_true_is_false. intros E. apply existsb_exists in E. destruct E as (k & Hk & E). rewrite K in E; [discriminate|].
  apply in_or_app. now right.
Qed.
Lemma plex_skip w : forall r, plex (String.length w) (w ++ r) = plex 0 r.
Proof. induction w as [|c w IH]; intros r; [reflexivity|]. cbn [String.length append plex]. apply IH. Qed.
Lemma plex_token t w r : w <> "" -> ptoken_at (w ++ r) = Some (t, String.length w) -> plex 0 (w ++ r) = t :: plex 0 r.
Proof.
  intros N H. destruct w as [|c w]; [congruence|]. cbn [append] in *. cbn [plex]. rewrite H. cbn [String.length]. rewrite Nat.sub_succ, Nat.sub_0_r.
  now rewrite plex_skip.
Qed.
Lemma plex_script s r : wf s -> stops r -> plex 0 (str s ++ r) = KMorpheme (str s) :: plex 0 r.
Proof.
  intros W H. pose proof (str_starts s W) as St. apply plex_token.
  - destruct St as (c & d & r' & -> & _). discriminate.
  - pose proof (starts_app _ r St) as Sr. pose proof (starts_reserved _ Sr) as R. pose proof (run_str s r W H) as Hr.
    destruct Sr as (c & d & r' & E & L & _). rewrite E in *. unfold ptoken_at. rewrite L, R. cbn [andb negb]. rewrite Hr, <- E, take_all. reflexivity.
Qed.
Lemma plex_sep r : plex 0 (String ">" r) = KSep :: plex 0 r. Proof. reflexivity. Qed.
Lemma plex_blank r : plex 0 (String " " r) = plex 0 r. Proof. reflexivity. Qed.
Lemma plex_bang r : plex 0 (String "!" r) = KBang :: plex 0 r. Proof. reflexivity. Qed.
