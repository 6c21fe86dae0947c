(** Reading s-expressions: synthesize_rosette.py:62-69 [generate_ast] and
    synthesize_cvc5.py:57-61 [generateAST]. *)

From Coq Require Import String Ascii List ZArith Bool.
From Verif Require Import Ast Dict.
Import ListNotations.
Local Open Scope string_scope.
Local Open Scope list_scope.

(** Python's nested lists of strings *)
Inductive sexp : Type := SA (w : string) | SL (l : list sexp).
Inductive token : Type := TL | TR | TW (w : string).

(** pyparsing's default white space: blank, tab, newline, carriage return *)
Definition is_blank (c : ascii) : bool :=
  Ascii.eqb c " " || Ascii.eqb c (ascii_of_nat 9) || Ascii.eqb c (ascii_of_nat 10) || Ascii.eqb c (ascii_of_nat 13).

(** [flush w ts]: the word [w], if there is one, before [ts] *)
Definition flush (p : string * list token) : list token :=
  match fst p with EmptyString => snd p | w => TW w :: snd p end.
Fixpoint lex (s : string) : string * list token :=
  match s with
  | EmptyString => ("", [])
  | String c r =>
      let p := lex r in
      if Ascii.eqb c "(" then ("", TL :: flush p)
      else if Ascii.eqb c ")" then ("", TR :: flush p)
      else if is_blank c then ("", flush p)
      else (String c (fst p), snd p)
  end.
Definition tokens (s : string) : list token := flush (lex s).

(** [pp.ZeroOrMore(pp.nestedExpr("(", ")")).parseString(s, parseAll=True)]: nested
    lists of words; words outside of parentheses are refused unless [words] is true.
    Simplification: pyparsing treats quoted strings as one word; quotes are ordinary
    characters here. *)
Fixpoint parse (words : bool) (ts : list token) (cur : list sexp) (up : list (list sexp)) : option (list sexp) :=
  match ts with
  | [] => match up with [] => Some (rev cur) | _ => None end
  | TL :: r => parse words r [] (cur :: up)
  | TR :: r => match up with [] => None | p :: up => parse words r (SL (rev cur) :: p) up end
  | TW w :: r => match up with
                 | [] => if words then parse words r (SA w :: cur) up else None
                 | _ => parse words r (SA w :: cur) up
                 end
  end.

Definition generate_ast (s : string) : option (list sexp) := parse false (tokens s) [] [].
