(** Exactly when the sum of scripts is associative: C17. *)
From Coq Require Import List String Bool NArith Arith.
From Verif Require Import Base Script ScriptParser ScriptWf ScriptOrderProofs ScriptSpec ScriptCtorProofs ScriptAlgProofs AssocProofs Properties1.
Import ListNotations.
Local Open Scope string_scope.

(** Both sums give equal scripts or the same exception exactly when, in the same layer, the first two
    are one term if and only if the last two are, and, when only two neighbours are in the same
    layer, their sum does not have too many singular sequences. *)
Theorem C17_exact : forall so1 so2 so3 so4 a b c, set_order so1 -> set_order so2 -> set_order so3 -> set_order so4 ->
  regular a -> regular b -> regular c ->
  (same_result (do ab <- script_add so1 a b; script_add so3 ab c) (do bc <- script_add so2 b c; script_add so4 a bc) <->
   (layer a = layer b -> layer b = layer c -> (is_add a = false /\ script_eq a b <-> is_add b = false /\ script_eq b c)) /\
   (layer a = layer b -> layer b <> layer c -> script_add so1 a b <> Err TooManySingularSequences) /\
   (layer b = layer c -> layer a <> layer b -> script_add so2 b c <> Err TooManySingularSequences)).
Proof. intros. apply assoc_exact; auto using regular_nf. Qed.
Print Assumptions C17_exact.
(** Distinct terms can be added in any order. *)
Corollary C17_distinct : forall so1 so2 so3 so4 a b c, set_order so1 -> set_order so2 -> set_order so3 -> set_order so4 ->
  regular a -> regular b -> regular c -> layer a = layer b -> layer b = layer c -> ~ script_eq a b -> ~ script_eq b c ->
  same_result (do ab <- script_add so1 a b; script_add so3 ab c) (do bc <- script_add so2 b c; script_add so4 a bc).
Proof. intros. apply C17_exact; auto. split; [tauto|]. split; congruence. Qed.
Print Assumptions C17_distinct.
Notation "'left_sum' a b c" := (do ab <- script_add ident a b; script_add ident ab c) (at level 10, a at next level, b at next level, c at next level).
Notation "'right_sum' a b c" := (do bc <- script_add ident b c; script_add ident a bc) (at level 10, a at next level, b at next level, c at next level).
Definition shown (r : res script) : res string := do s <- r; Ok (str s).
(** A sum of two terms with overlapping neighbours, which is associative; a term repeated on one side,
    which is not; three times the same term, for which both sums raise; a sum with too many sequences. *)
Example C17_exact_case :
  shown (left_sum (text "wo.+wa.") (text "wa.+b.") (text "b.")) = Ok "wo.+wa.+b." /\ shown (right_sum (text "wo.+wa.") (text "wa.+b.") (text "b.")) = Ok "wo.+wa.+b." /\
  shown (left_sum (text "wo.") (text "wa.") (text "wa.")) = Ok "wo.+wa." /\ shown (right_sum (text "wo.") (text "wa.") (text "wa.")) = Ok "wo." /\
  shown (left_sum (text "wo.") (text "wo.") (text "wo.")) = Err IndexError /\ shown (right_sum (text "wo.") (text "wo.") (text "wo.")) = Err IndexError.
Proof. vm_compute. repeat split. Qed.
Theorem C17_exceptions_refuted : exists a b c, regular a /\ regular b /\ regular c /\ left_sum a b c = Err TooManySingularSequences /\ right_sum a b c = Err IncompatiblesScriptsLayers.
Proof. exists (text "M:M:.M:M:.O:O:.-"), (text "M:M:.M:M:.-"), (text "b."). split; [text_reg|]. split; [text_reg|]. split; [text_reg|]. split; vm_compute; reflexivity. Qed.
Print Assumptions C17_exceptions_refuted.
