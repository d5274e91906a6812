(** Model of IEMLDatabase.get_descriptors(files_list), ieml/ieml_database/ieml_database.py 194-212
    with files_list given: the names go through [echo -ne] and [xargs -0 cat], run in the folder of
    the database. The programs are those of GNU (not in the repository): echo as its manual has it
    for escapes, with octal escapes without leading zero as its code has them. *)
From Coq Require Import List String Ascii Bool NArith Arith.
From Verif Require Import Base Database DatabasePath.
Import ListNotations.
Local Open Scope string_scope.

Definition octal (c : ascii) : option N :=
  let n := N_of_ascii c in if ((48 <=? n) && (n <=? 55))%N then Some (n - 48)%N else None.
Definition hexa (c : ascii) : option N :=
  let n := N_of_ascii c in
  if ((48 <=? n) && (n <=? 57))%N then Some (n - 48)%N
  else if ((97 <=? n) && (n <=? 102))%N then Some (n - 87)%N
  else if ((65 <=? n) && (n <=? 70))%N then Some (n - 55)%N else None.
(** Kept in an unsigned char. *)
Definition byte (n : N) : ascii := ascii_of_N (n mod 256).
Definition escape (c : ascii) : option ascii :=
  if Ascii.eqb c "a" then Some "007"%char else if Ascii.eqb c "b" then Some "008"%char
  else if Ascii.eqb c "e" then Some "027"%char else if Ascii.eqb c "f" then Some "012"%char
  else if Ascii.eqb c "n" then Some "010"%char else if Ascii.eqb c "r" then Some "013"%char
  else if Ascii.eqb c "t" then Some "009"%char else if Ascii.eqb c "v" then Some "011"%char
  else if Ascii.eqb c "\" then Some "\"%char else None.

(** What [echo -ne s] prints: \c stops, \0 takes at most three octal digits, \1 to \7 two more, \x
    one or two hexadecimal ones; other escapes are printed as they are. *)
Fixpoint echo_e (s : string) : string :=
  match s with
  | EmptyString => ""
  | String c r =>
    if negb (Ascii.eqb c "\") then String c (echo_e r) else
    match r with
    | EmptyString => String c ""
    | String e r1 =>
      match escape e with
      | Some x => String x (echo_e r1)
      | None =>
        if Ascii.eqb e "c" then "" else
        if Ascii.eqb e "0" then
          match r1 with
          | EmptyString => String (byte 0) ""
          | String d1 r2 =>
            match octal d1 with
            | None => String (byte 0) (echo_e r1)
            | Some n1 =>
              match r2 with
              | EmptyString => String (byte n1) ""
              | String d2 r3 =>
                match octal d2 with
                | None => String (byte n1) (echo_e r2)
                | Some n2 =>
                  match r3 with
                  | EmptyString => String (byte (8 * n1 + n2)) ""
                  | String d3 r4 =>
                    match octal d3 with
                    | None => String (byte (8 * n1 + n2)) (echo_e r3)
                    | Some n3 => String (byte (64 * n1 + 8 * n2 + n3)) (echo_e r4)
                    end
                  end
                end
              end
            end
          end
        else
        match octal e with
        | Some n1 =>
          match r1 with
          | EmptyString => String (byte n1) ""
          | String d2 r2 =>
            match octal d2 with
            | None => String (byte n1) (echo_e r1)
            | Some n2 =>
              match r2 with
              | EmptyString => String (byte (8 * n1 + n2)) ""
              | String d3 r3 =>
                match octal d3 with
                | None => String (byte (8 * n1 + n2)) (echo_e r2)
                | Some n3 => String (byte (64 * n1 + 8 * n2 + n3)) (echo_e r3)
                end
              end
            end
          end
        | None =>
          match (if Ascii.eqb e "x" then r1 else EmptyString) with
          | EmptyString => String "\" (String e (echo_e r1))
          | String _ _ =>
            match r1 with
            | EmptyString => String "\" (String e "")
            | String h1 r2 =>
              match hexa h1 with
              | None => String "\" (String e (echo_e r1))
              | Some n1 =>
                match r2 with
                | EmptyString => String (byte n1) ""
                | String h2 r3 =>
                  match hexa h2 with
                  | None => String (byte n1) (echo_e r2)
                  | Some n2 => String (byte (16 * n1 + n2)) (echo_e r3)
                  end
                end
              end
            end
          end
        end
      end
    end
  end.
(** An argument of [echo] made of a dash and letters n, e and E is one more option. *)
Fixpoint all_in (l : list ascii) (s : string) : bool :=
  match s with EmptyString => true | String c r => (existsb (Ascii.eqb c) l && all_in l r)%bool end.
Definition echo_option (s : string) : bool :=
  match s with String "-" (String c r) => all_in ["n"; "e"; "E"]%char (String c r) | _ => false end.
Definition echo_ne (s : string) : string := if echo_option s then "" else echo_e s.

(** [xargs -0]: the arguments are ended by zeros; what follows the last zero is one more, if any. *)
Fixpoint xargs0 (cur s : string) : list string :=
  match s with
  | EmptyString => if String.eqb cur "" then [] else [cur]
  | String c r => if Ascii.eqb c "000" then cur :: xargs0 "" r else xargs0 (cur ++ String c "") r
  end.

(** [r'\0'.join(files_list)] *)
Fixpoint join0 (l : list string) : string :=
  match l with [] => "" | [x] => x | x :: r => x ++ String "\" (String "0" (join0 r)) end.

Definition dash (s : string) : bool := match s with String "-" _ => true | _ => false end.

Section FilesList.
  Variable folder : string.
  (** What [cat] prints when an argument begins with a dash. *)
  Variable cat_options : fsys -> list string -> string.

  (** The file with this name seen from the folder; [cat] goes on after a missing one. Without
      argument it reads its empty input. *)
  Definition content (fs : fsys) (name : string) : string :=
    match fs_get fs (os_join folder name) with Some c => c | None => "" end.
  Definition cat (fs : fsys) (names : list string) : string :=
    if existsb dash names then cat_options fs names else sconcat (map (content fs) names).

  (** 195-212; an argument with a zero is refused by [subprocess.Popen]. *)
  Definition get_descriptors_of (fs : fsys) (files_list : list string) : res (list (string * string * string * string)) :=
    if existsb (fun f => existsb (Ascii.eqb "000") (list_ascii_of_string f)) files_list then Err ValueError
    else mapM row4 (csv_rows (cat fs (xargs0 "" (echo_ne (join0 files_list))))).
End FilesList.
