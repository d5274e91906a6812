(** Model of the tests of ieml/usl/constants.py 408-504 on addresses, of
    SyntagmaticFunction.check (ieml/usl/syntagmatic_function.py) and of check_word
    (ieml/usl/word.py). Definitions only. The tests of polymorphemes and lexemes are
    [check_pm] and [check_lexeme] of Usl.v. *)
From Coq Require Import List String Bool Arith.
From Verif Require Import Base Script Usl Sfun.
Import ListNotations.
Local Open Scope string_scope.

(** constants.py 408-410: [assert_]. Its messages are always computed, which never fails. *)
Definition assert_that (b : bool) : res unit := if b then Ok tt else Err ValueError.
(** 423, 434, 443: [sum(1 if s in _set else 0 for s in l)]. *)
Definition count_from (set l : list string) : nat := List.length (filter (fun s => ins s set) l).

(** 490-504. [ty] is the class of the function of the whole word: [None] for a junction,
    which none of the tests of 499 and 502 selects. 491: [s.empty] is never true of a script
    of ADDRESS_SCRIPTS, and a role is only made of them (syntagmatic_function.py 20). *)
Definition check_address (ty : option context) (l : role) : res unit :=
  do _ <- assert_that (forallb (fun s => ins s ADDRESS_SCRIPTS) l);
  do _ <- (if existsb (fun s => ins s (VALENCES ++ ACTANTS)) l
           then assert_that (Nat.eqb (count_from (VALENCES ++ ACTANTS) l) 1) else Ok tt);
  do _ <- assert_that (Nat.leb (count_from [INDEPENDANT_QUALITY] l) 1);
  match ty with
  | Some CDependant => assert_that (Nat.eqb (count_from (VALENCES ++ ACTANTS) l) 0)
  | Some CIndependant => assert_that (Nat.eqb (count_from (VALENCES ++ ACTANTS ++ [DEPENDANT_QUALITY]) l) 0)
  | _ => Ok tt
  end.

(** syntagmatic_function.py 218-231. [isinstance(self.actor, Lexeme)] fails on None only. *)
Definition check_node (ty : option context) (f : sfun lexeme) : res unit :=
  do _ <- (if is_jun f then Ok tt
           else match actor_of f with None => Err ValueError | Some x => check_lexeme x end);
  do _ <- mapM (fun e => check_address ty (fst e)) (actors f);
  Ok tt.
(** The classes accepted at 394, 401 and 482. *)
Definition quality_class (f : sfun lexeme) : bool := match f with Indep _ | Jun _ _ => true | _ => false end.
Definition actant_class (f : sfun lexeme) : bool := match f with Dep _ _ _ | Jun _ _ => true | _ => false end.
(** 218-231, 297-301, 390-405 and 469-486. The actants of a process are checked in the order
    they are stored in, instead of the order of 472-479: all their errors are alike. *)
Fixpoint check_fun (ty : option context) (f : sfun lexeme) : res unit :=
  do _ <- check_node ty f;
  match f with
  | Indep _ => Ok tt
  | Jun _ children =>
    (fix go (l : list (sfun lexeme)) : res unit :=
       match l with [] => Ok tt | c :: r => do _ <- check_fun ty c; go r end) children
  | Dep _ dependant independant =>
    do _ <- match independant with
            | Some g => do _ <- assert_that (quality_class g); check_fun ty g
            | None => Ok tt
            end;
    match dependant with
    | Some g => do _ <- assert_that (actant_class g); check_fun ty g
    | None => Ok tt
    end
  | Proc _ _ actants =>
    (fix go (l : list (string * sfun lexeme)) : res unit :=
       match l with
       | [] => Ok tt
       | p :: r => do _ <- assert_that (actant_class (snd p)); do _ <- check_fun ty (snd p); go r
       end) actants
  end.
(** [w.syntagmatic_fun.__class__] *)
Definition fun_class (f : sfun lexeme) : option context :=
  match f with Proc _ _ _ => Some CProcess | Dep _ _ _ => Some CDependant | Indep _ => Some CIndependant | Jun _ _ => None end.
(** word.py 12-23, 89-90 *)
Definition check_word (w : word) : res unit :=
  do _ <- check_address (fun_class (w_fun w)) (w_role w);
  check_fun (fun_class (w_fun w)) (w_fun w).
(** lexeme.py, [Lexeme.check]: [pass]. *)
Definition lexeme_check (l : lexeme) : res unit := Ok tt.
