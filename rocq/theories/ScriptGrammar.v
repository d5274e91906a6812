(** Specification: the grammar of ieml/dictionary/script/parser/parser.py 48-172 as a
    derivation relation between token sequences and syntax trees, independent of any
    parsing algorithm. *)
From Coq Require Import List String Arith.
From Verif Require Import Base Script ScriptParser.
Import ListNotations.

Inductive d_script : nat -> list token -> tree -> Prop :=
| d_prim x : d_script 0 [TPrimitive x; TMark 0] (TrPrim x)
| d_remadd k : d_script 0 [TRemAdd k; TMark 0] (TrRemAdd k)
| d_remmul k : d_script 1 [TRemMul k; TMark 1] (TrRemMul k)
| d_mul1 n w1 a1 :
    S n <= MAX_LAYER -> d_sum n w1 a1 ->
    d_script (S n) (w1 ++ [TMark (S n)]) (TrMul (S n) [a1])
| d_mul2 n w1 a1 w2 a2 :
    S n <= MAX_LAYER -> d_sum n w1 a1 -> d_sum n w2 a2 ->
    d_script (S n) (w1 ++ w2 ++ [TMark (S n)]) (TrMul (S n) [a1; a2])
| d_mul3 n w1 a1 w2 a2 w3 a3 :
    S n <= MAX_LAYER -> d_sum n w1 a1 -> d_sum n w2 a2 -> d_sum n w3 a3 ->
    d_script (S n) (w1 ++ w2 ++ w3 ++ [TMark (S n)]) (TrMul (S n) [a1; a2; a3])
with d_sum : nat -> list token -> list tree -> Prop :=
| d_one n w t : d_script n w t -> d_sum n w [t]
| d_more n w t w' ts :
    d_script n w t -> d_sum n w' ts -> d_sum n (w ++ TPlus :: w') (t :: ts).

(** parser.py 48-63: a term is a script or a sum of some layer. *)
Definition d_term (w : list token) (ts : list tree) : Prop :=
  exists n, d_sum n w ts.
