(** Removing comments from Python code: llmlift_scripts/parser.py:199-216. *)

From Coq Require Import String Ascii List Bool Arith.
From Verif Require Import LuModel.
Import ListNotations.
Local Open Scope string_scope.

(** [#.*?$] with MULTILINE replaced by nothing (parser.py:201, 207-209): from # to the end of
    the line; [skipping] says whether a # has been met in this line *)
Fixpoint remove_hash (skipping : bool) (s : string) : string :=
  match s with
  | EmptyString => ""
  | String c s' =>
      if Ascii.eqb c "010" then String c (remove_hash false s')
      else if skipping || Ascii.eqb c "#" then remove_hash true s'
      else String c (remove_hash false s')
  end.

(** the two kinds of triple quotes (parser.py:204) *)
Definition q1 : string := "'''".
Definition q2 : string := """""""".

(** A match of the pattern of parser.py:204 at the beginning, and what is after it *)
Definition quoted (s : string) : option string :=
  match after q1 s with
  | Some r => match until q1 r with Some (_, rest) => Some rest | None => None end
  | None =>
      match after q2 s with
      | Some r => match until q2 r with Some (_, rest) => Some rest | None => None end
      | None => None
      end
  end.
(** parser.py:212-214: [re.sub]; every step makes the text shorter: [fuel] *)
Fixpoint remove_quoted_from (fuel : nat) (s : string) : option string :=
  match fuel with
  | O => None
  | S fuel' =>
      match quoted s with
      | Some rest => remove_quoted_from fuel' rest
      | None =>
          match s with
          | EmptyString => Some ""
          | String c s' => match remove_quoted_from fuel' s' with Some u => Some (String c u) | None => None end
          end
      end
  end.
(** parser.py:212-214 *)
Definition remove_quoted (s : string) : option string := remove_quoted_from (S (String.length s)) s.
(** parser.py:199-216 *)
Definition remove_comments (s : string) : option string := remove_quoted (remove_hash false s).
