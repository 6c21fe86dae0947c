(** The source program in the prompt for invariants: llmlift_scripts/prompts.py:101-104. *)

From Coq Require Import String Ascii List Bool Arith.
From Verif Require Import LuModel.
Import ListNotations.
Local Open Scope string_scope.

(** [\w], which [\b] of prompts.py:103 goes by, in ASCII: letters, digits and the underscore *)
Definition is_word (c : ascii) : bool :=
  let n := nat_of_ascii c in
  (Nat.leb 48 n && Nat.leb n 57) || (Nat.leb 65 n && Nat.leb n 90) || (Nat.leb 97 n && Nat.leb n 122) || Nat.eqb n 95.
(** the second [\b] of prompts.py:103, after the letter n *)
Definition starts_word (s : string) : bool := match s with String c _ => is_word c | EmptyString => false end.

(** [.] matches every character but the newline (no DOTALL in prompts.py:102-104) *)
Fixpoint one_line (s : string) : bool :=
  match s with EmptyString => true | String c s' => negb (Ascii.eqb c "010") && one_line s' end.

(** A match of [\breturn\b.*?;] at the beginning of [s] (prompts.py:103), and what is after
    it; [prev] says whether the character before [s] is one of a word. *)
Definition return_match (prev : bool) (s : string) : option string :=
  if prev then None
  else match after "return" s with
       | None => None
       | Some r =>
           if starts_word r then None
           else match until ";" r with
                | Some (e, rest) => if one_line e then Some rest else None
                | None => None
                end
       end.

(** prompts.py:102-104: [re.sub], from left to right; every step makes the text shorter.
    [code] is [assertion_code]; a backslash in it, which [re.sub] would read as an escape,
    is not modelled. *)
Fixpoint assert_from (fuel : nat) (code : string) (prev : bool) (s : string) : option string :=
  match fuel with
  | O => None
  | S fuel' =>
      match return_match prev s with
      | Some rest =>
          match assert_from fuel' code false rest with Some u => Some ("assert " ++ code ++ ";" ++ u) | None => None end
      | None =>
          match s with
          | EmptyString => Some ""
          | String c s' => match assert_from fuel' code (is_word c) s' with Some u => Some (String c u) | None => None end
          end
      end
  end.
(** prompts.py:101-104: [inv_code_with_assert] *)
Definition inv_code_with_assert (code source : string) : option string :=
  assert_from (S (String.length source)) code false source.
