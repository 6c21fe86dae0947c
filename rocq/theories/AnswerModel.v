(** The answers of the three language models and what becomes of them in the loop over
    summaries: llmlift_scripts/synthesis.py:378-410, 573-637. *)

From Coq Require Import String Ascii List Bool Arith.
From Verif Require Import LuModel.
Import ListNotations.
Local Open Scope string_scope.

(** synthesis.py:62-65: [LLMModel] *)
Inductive llm_model : Type := Claude | Gpt | Gemini.

(** what a function of synthesis.py:573-637 returns: a text or a list of texts *)
Inductive pyval : Type := PStr (s : string) | PList (l : list string).
(** [OutOfFuel]: not an exception of Python, never returned (C61_total) *)
Inductive exc : Type := IndexError | TypeError | NoSolution | Other | OutOfFuel.
(** a value or an exception *)
Inductive res (A : Type) : Type := Ok (a : A) | Raise (e : exc).
Arguments Ok {A} a.
Arguments Raise {A} e.

(** [sep.join(l)] (synthesis.py:387, 596) *)
Fixpoint join (sep : string) (l : list string) : string :=
  match l with [] => "" | [s] => s | s :: l' => s ++ sep ++ join sep l' end.
(** the separators of synthesis.py:387 and 596 *)
Definition nl1 : string := String "010" "".
Definition nl2 : string := nl1 ++ nl1.

(** [\[replace_ite(s) for s in l\]] (synthesis.py:583) *)
Fixpoint replace_all (l : list string) : option (list string) :=
  match l with
  | [] => Some []
  | s :: l' => match replace_ite s, replace_all l' with Some u, Some m => Some (u :: m) | _, _ => None end
  end.
(** synthesis.py:597-598, 626-627 *)
Definition replaced (s : string) : res pyval :=
  match replace_ite s with Some u => Ok (PStr u) | None => Raise OutOfFuel end.

(** synthesis.py:630-637; [text] is the answer of the model to the messages (external) *)
Definition get_solution (m : llm_model) (text : string) : res pyval :=
  match extract_all_python_functions text with
  | None => Raise OutOfFuel
  | Some l =>
      match m with
      | Claude => match replace_all l with Some u => Ok (PList u) | None => Raise OutOfFuel end (* 582-583 *)
      | Gpt => replaced (join nl2 l)                                                            (* 596-598 *)
      | Gemini => match l with s :: _ => replaced s | [] => Raise IndexError end                (* 625-627 *)
      end
  end.

(** [nl.join(ps_sols)] (synthesis.py:387): a TypeError if an element is not a text *)
Fixpoint texts (l : list pyval) : option (list string) :=
  match l with
  | [] => Some []
  | PStr s :: l' => match texts l' with Some m => Some (s :: m) | None => None end
  | PList _ :: _ => None
  end.
(** synthesis.py:384-391: the earlier solutions shown to the model *)
Definition shown (sols : list pyval) : res string :=
  match texts sols with Some l => Ok (join nl1 l) | None => Raise TypeError end.

(** What follows for a text: the parser, the invariants and the verification
    (synthesis.py:395-564), here an oracle; the loop goes on, ends with a verified
    solution, or an exception leaves it. *)
Inductive step : Type := Next | Found | Raises (e : exc).

(** synthesis.py:378-570.  [llm] answers to the earlier solutions.  A solution that is no
    text makes [dedent] raise a TypeError in [check_solution] (parser.py:534), which 407-410
    catch: the loop goes on.  The result is the printed solution (570). *)
Fixpoint ps_loop (m : llm_model) (llm : string -> string) (rest : string -> step) (n : nat) (sols : list pyval) : res string :=
  match n with
  | O => Raise NoSolution
  | S n' =>
      match shown sols with
      | Raise e => Raise e
      | Ok history =>
          match get_solution m (llm history) with
          | Raise e => Raise e
          | Ok v =>
              match v with
              | PList _ => ps_loop m llm rest n' (sols ++ [v])%list
              | PStr s =>
                  match rest s with
                  | Next => ps_loop m llm rest n' (sols ++ [v])%list
                  | Found => Ok s
                  | Raises e => Raise e
                  end
              end
          end
      end
  end.
