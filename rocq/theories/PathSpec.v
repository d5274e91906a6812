(** Specifications used by Properties11: the paths in use, and what they designate. *)
From Coq Require Import List String Bool Arith.
From Verif Require Import Base Script Commons Usl UslSpec Sfun SfunSpec UslParser Path.
Import ListNotations.
Local Open Scope string_scope.

(** The paths of the parser and of iter_structure_path: role, then content or flexion, then
    the place of a morpheme, each optional, or the path [>] alone. [M]: the morphemes. *)
Section Proper.
  Variable M : script -> Prop.
  Definition opt_M (m : option script) : Prop := match m with Some m => M m | None => True end.
  (** in a polymorpheme *)
  Inductive place : path -> Prop :=
  | place_ g m k : opt_M m -> place (PPoly g m k None).
  (** in a lexeme *)
  Inductive lexeme_place : path -> Prop :=
  | lexeme_part i : lexeme_place (PLex i None)
  | lexeme_content p : place p -> lexeme_place (PLex Content (Some p))
  | lexeme_flexion m : M m -> lexeme_place (PLex Flexion (Some (PFlex m None))).
  Inductive proper : path -> Prop :=
  | proper_usl : proper (PUsl None)
  | proper_place p : place p -> proper p
  | proper_flexion m : M m -> proper (PFlex m None)
  | proper_lexeme p : lexeme_place p -> proper p
  | proper_role r f : r <> [] -> valid_role r -> proper (PRole r f None)
  | proper_role_lexeme r f p : r <> [] -> valid_role r -> lexeme_place p -> proper (PRole r f (Some p)).
End Proper.
(** A path into a group gives the multiplicity of the group, as a digit. *)
Definition one_digit (p : path) : Prop :=
  match tail p with
  | PPoly Constant _ _ _ => True
  | PPoly _ _ k _ => exists n, k = Some n /\ n < 10
  | _ => True
  end.

(** Two results of deference that are equal for Python. *)
Definition same_node (a b : res (option usl)) : Prop :=
  match a, b with
  | Ok (Some x), Ok (Some y) => usl_str x = usl_str y
  | Ok None, Ok None => True
  | Err e, Err e' => e = e'
  | _, _ => False
  end.

(** The components of a path, without their children. *)
Fixpoint steps (p : path) : list path :=
  alone p :: match p with
             | PUsl (Some c) | PPoly _ _ _ (Some c) | PFlex _ (Some c) | PLex _ (Some c) | PRole _ _ (Some c) => steps c
             | _ => []
             end.
(** The paths that the constructors build. *)
Inductive built_path : path -> Prop :=
| built_none p : child_of p = None -> built_path p
| built_usl c : built_path c -> built_path (PUsl (Some c))
| built_poly g m k c : built_path c -> built_path (PPoly g m k (Some c))
| built_flex m c : built_path c -> built_path (PFlex m (Some c))
| built_lex_usl i c : class_of c = ClUsl -> built_path c -> built_path (PLex i (Some c))
| built_content c : class_of c = ClPoly -> built_path c -> built_path (PLex Content (Some c))
| built_flexion c : class_of c = ClFlex -> built_path c -> built_path (PLex Flexion (Some c))
| built_role r f c : class_of c = ClUsl \/ class_of c = ClLex -> built_path c -> built_path (PRole r f (Some c)).
(** No component [>]. *)
Definition no_usl (p : path) : Prop := Forall (fun s => class_of s <> ClUsl) (steps p).
(** The components are of different kinds. *)
Definition layered (p : path) : Prop := no_usl p /\ NoDup (map class_of (steps p)).
(** [q] begins with a kind of component that [p] has not. *)
Definition fresh (p q : path) : Prop := ~ In (class_of q) (map class_of (steps p)).
(** Path [q] may follow the last component of [p]. *)
Definition follows (p q : path) : Prop :=
  match tail p, q with
  | PLex Content _, PPoly _ _ _ _ => True
  | PLex Content _, _ => False
  | PLex Flexion _, PFlex _ _ => True
  | PLex Flexion _, _ => False
  | PRole _ _ _, PLex _ _ => True
  | PRole _ _ _, _ => False
  | _, _ => True
  end.

(** The USLs that the constructors and the parser give. *)
Inductive usable : usl -> Prop :=
| usable_pm u : built u -> usable (UPm u)
| usable_lexeme l : built_lexeme l -> usable (ULexeme l)
| usable_word l r w : word_of l r = Ok w -> Forall built_lexeme (present l) -> usable (UWord w).
(** The lexemes of a USL. *)
Definition lexemes_of (u : usl) : list lexeme :=
  match u with
  | ULexeme l => [l]
  | UWord w => present (as_list (w_context w) (w_fun w))
  | _ => []
  end.
(** No flexion has a group. *)
Definition simple_flexions (u : usl) : Prop := forall l, In l (lexemes_of u) -> groups (pm_flexion l) = [].
