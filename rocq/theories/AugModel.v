(** New arguments for the calls of a function: smt_util.py:195-226 [augment_arguments], used
    for dissolve_blend_8 (llmlift_scripts/synthesis.py:487-498). *)

From Coq Require Import String List Bool.
From Verif Require Import Ast.
Import ListNotations.
Local Open Scope string_scope.
Local Open Scope list_scope.

(** smt_util.py:195-226.  Variables and literals (198) include [NonTerm], a subclass of
    [Var]; [TargetCall] is a subclass of [Call] (200) and becomes a [Call] (212, 220).
    Slices (215-217) with [start_index] >= 0 only. *)
Fixpoint augment_arguments (fn : string) (new_args : list expr) (start_index : nat) (e : expr) : res expr :=
  match e with
  | Atom a => Ok (Atom a)
  | Node k t args =>
      match k with
      | KVar | KNonTerm | KLit => Ok e
      | KCall | KTargetCall =>
          match args with
          | Atom (PStr f) :: rest =>
              processed <- mapR (augment_arguments fn new_args start_index) rest ;;
              if String.eqb f fn
              then mkCall (Atom (PStr fn)) t (firstn start_index processed ++ new_args ++ skipn start_index processed)
              else mkCall (Atom (PStr f)) t processed
          | _ => Err ExIndex
          end
      | _ => args' <- mapR (augment_arguments fn new_args start_index) args ;; rebuild k t args'
      end
  end.
