(** Meaning of IR expressions.  This file is a reference semantics, not a model
    of code in /repo: it says which value an expression denotes.  Integer
    division, modulo and the called functions are parameters, so that a theorem
    about all interpretations holds for each backend's reading of them. *)

From Coq Require Import String List ZArith Bool.
From Verif Require Import Ast.
Import ListNotations.
Local Open Scope string_scope.
Local Open Scope Z_scope.
Set Implicit Arguments.

Inductive val : Type :=
| VInt (z : Z) | VBool (b : bool)
| VList (l : list val) | VTuple (l : list val)
| VFn (f : string).  (* a function passed as an argument, given by its name *)

Fixpoint val_eqb (a b : val) : bool :=
  match a, b with
  | VInt x, VInt y => Z.eqb x y
  | VBool x, VBool y => Bool.eqb x y
  | VFn f, VFn g => String.eqb f g
  | VList xs, VList ys | VTuple xs, VTuple ys => list_eqb val_eqb xs ys
  | _, _ => false
  end.

Record interp : Type := {
  i_div : Z -> Z -> option Z;
  i_mod : Z -> Z -> option Z;
  i_call : string -> list val -> option val }.

Definition env : Type := string -> option val.
Definition upd (r : env) (x : string) (v : val) : env :=
  fun y => if String.eqb x y then Some v else r y.

Section MapO.
  Variables (A B : Type) (f : A -> option B).
  Fixpoint mapO (l : list A) : option (list B) :=
    match l with
    | [] => Some []
    | a :: r => match f a with
                | Some b => match mapO r with
                            | Some bs => Some (b :: bs)
                            | None => None
                            end
                | None => None
                end
    end.
End MapO.

(** A literal of type [Bool] denotes the truth value of its Python object
    (ir.py:1905 prints it that way); an [Int] literal denotes its integer. *)
Definition lit_val (t : ty) (a : patom) : option val :=
  match t, a with
  | TBool, PBool b => Some (VBool b)
  | TBool, PInt z => Some (VBool (negb (Z.eqb z 0)))
  | TInt, PInt z => Some (VInt z)
  | _, _ => None
  end.

Definition as_int (v : val) : option Z :=
  match v with VInt z => Some z | _ => None end.
Definition as_bool (v : val) : option bool :=
  match v with VBool b => Some b | _ => None end.

Definition int2 (f : Z -> Z -> option val) (vs : list val) : option val :=
  match vs with
  | [VInt a; VInt b] => f a b
  | _ => None
  end.

(** n-ary and binary operators on values *)
Definition op_val (I : interp) (k : kind) (vs : list val) : option val :=
  match k with
  | KAdd => match mapO as_int vs with
            | Some (z :: zs) => Some (VInt (fold_left Z.add zs z))
            | _ => None end
  | KMul => match mapO as_int vs with
            | Some (z :: zs) => Some (VInt (fold_left Z.mul zs z))
            | _ => None end
  | KSub => int2 (fun a b => Some (VInt (a - b))) vs
  | KDiv => int2 (fun a b => option_map VInt (i_div I a b)) vs
  | KMod => int2 (fun a b => option_map VInt (i_mod I a b)) vs
  | KEq => match vs with [a; b] => Some (VBool (val_eqb a b)) | _ => None end
  | KLt => int2 (fun a b => Some (VBool (a <? b))) vs
  | KLe => int2 (fun a b => Some (VBool (a <=? b))) vs
  | KGt => int2 (fun a b => Some (VBool (b <? a))) vs
  | KGe => int2 (fun a b => Some (VBool (b <=? a))) vs
  | KAnd => match mapO as_bool vs with
            | Some (b :: bs) => Some (VBool (forallb (fun x => x) (b :: bs)))
            | _ => None end
  | KOr => match mapO as_bool vs with
           | Some (b :: bs) => Some (VBool (existsb (fun x => x) (b :: bs)))
           | _ => None end
  | KNot => match vs with [VBool b] => Some (VBool (negb b)) | _ => None end
  | KImplies => match vs with
                | [VBool a; VBool b] => Some (VBool (implb a b))
                | _ => None end
  | KTupleExpr => Some (VTuple vs)
  | KCallValue => match vs with VFn f :: rest => i_call I f rest | _ => None end
  | _ => None
  end.

Fixpoint eval (I : interp) (r : env) (e : expr) {struct e} : option val :=
  match e with
  | Atom _ => None
  | Node k t args =>
      match k with
      | KVar | KNonTerm => match args with [Atom (PStr x)] => r x | _ => None end
      | KLit => match args with [Atom a] => lit_val t a | _ => None end
      | KLet =>
          match args with
          | [Node KVar _ [Atom (PStr x)]; e1; e2] =>
              match eval I r e1 with
              | Some v => eval I (upd r x v) e2
              | None => None
              end
          | _ => None
          end
      | KIte =>
          match args with
          | [c; a; b] =>
              match eval I r c with
              | Some (VBool true) => eval I r a
              | Some (VBool false) => eval I r b
              | _ => None
              end
          | _ => None
          end
      | KCall | KTargetCall =>
          match args with
          | Atom (PStr f) :: rest =>
              match mapO (eval I r) rest with
              | Some vs => i_call I f vs
              | None => None
              end
          | _ => None
          end
      | _ => match mapO (eval I r) args with
             | Some vs => op_val I k vs
             | None => None
             end
      end
  end.

(** A boolean expression is valid when no assignment makes it false. *)
Definition valid (I : interp) (e : expr) : Prop :=
  forall r, eval I r e <> Some (VBool false).
