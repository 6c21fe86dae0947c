(** For which expressions the generated Python text is right, and what is asked of the
    functions that occur in it (specification of C13). *)

From Coq Require Import String Ascii List ZArith Bool.
From Verif Require Import Ast Semantics Dict PyGram.
Import ListNotations.
Local Open Scope string_scope.
Local Open Scope list_scope.

(** How tightly the text of an expression binds: 1 or, 2 and, 3 not, 4 comparison, 5 sum,
    6 product, 7 negative number, 8 a name, number, call or anything in brackets. *)
Definition level (e : expr) : nat :=
  match e with
  | Node KOr _ _ => 1 | Node KAnd _ _ => 2 | Node KNot _ _ => 3
  | Node (KEq | KLt | KLe | KGt | KGe) _ _ => 4
  | Node KAdd _ _ => 5 | Node KMul _ _ => 6
  | Node KLit _ [Atom (PInt z)] => if Z.ltb z 0 then 7 else 8
  | _ => 8
  end.

(** the functions with a notation of their own *)
Definition f_len := ["list_length"; "matrix_length"].
Definition f_get := ["list_get"; "matrix_get"].
Definition f_prepend := ["list_prepend"; "matrix_prepend"].
Definition f_append := ["list_append"; "matrix_append"].
Definition f_empty := ["list_empty"; "matrix_empty"].
Definition f_tail := ["list_tail"; "matrix_tail"].
Definition f_take := ["list_take"; "matrix_take"].
Definition f_slice := ["vec_slice"; "matrix_row_slice"].
Definition f_slice_len := ["vec_slice_with_length"; "matrix_row_slice_with_length"].
Definition notations := f_len ++ f_get ++ f_prepend ++ f_append ++ f_empty ++ f_tail ++ f_take ++ f_slice ++ f_slice_len.

(** The operands of a call that are not inside brackets bind tightly enough.  [fn] are
    the names of functions. *)
Definition call_clear (fn : string -> bool) (f : string) (args : list expr) : bool :=
  let lev i n := match nth_error args i with Some a => Nat.leb n (level a) | None => false end in
  let arity := List.length args in
  if smem f f_len then Nat.eqb arity 1
  else if smem f (f_get ++ f_tail ++ f_take) then Nat.eqb arity 2 && lev 0 8
  else if smem f f_prepend then Nat.eqb arity 2 && lev 1 5
  else if smem f f_append then Nat.eqb arity 2 && lev 0 5
  else if smem f f_empty then Nat.eqb arity 0
  else if smem f f_slice then Nat.eqb arity 3 && lev 0 8
  else if smem f f_slice_len then Nat.eqb arity 3 && lev 0 8 && lev 1 5 && lev 2 6
  else fn f && py_name f && negb (String.eqb f "len").

(** No pair of parentheses is missing in the text of [e]: every operand binds at least as
    tightly as its operator asks for.  A tuple does not have one component. *)
Fixpoint clear (fn : string -> bool) (e : expr) : bool :=
  match e with
  | Atom _ => false
  | Node k t args =>
      let all n := forallb (fun a => clear fn a && Nat.leb n (level a)) args in
      let some := match args with [] => false | _ => true end in
      match k with
      | KVar | KNonTerm => match args with [Atom (PStr x)] => py_name x && negb (fn x) | _ => false end
      | KLit => match t, args with TInt, [Atom (PInt _)] | TBool, [Atom (PBool _)] => true | _, _ => false end
      | KAdd => some && all 5
      | KMul => some && all 6
      | KAnd => some && all 2
      | KOr => some && all 1
      | KSub => match args with [a; b] => clear fn a && clear fn b && Nat.leb 5 (level a) && Nat.leb 6 (level b) | _ => false end
      | KDiv | KMod => match args with [a; b] => clear fn a && clear fn b && Nat.leb 6 (level a) && Nat.leb 7 (level b) | _ => false end
      | KEq | KLt | KLe | KGt | KGe =>
          match args with [a; b] => clear fn a && clear fn b && Nat.leb 5 (level a) && Nat.leb 5 (level b) | _ => false end
      | KNot => match args with [a] => clear fn a && Nat.leb 3 (level a) | _ => false end
      | KIte => match args with [_; _; _] => all 0 | _ => false end
      | KCall | KTargetCall =>
          match args with
          | Atom (PStr f) :: rest => forallb (clear fn) rest && call_clear fn f rest
          | _ => false
          end
      | KCallValue => match args with f :: rest => clear fn f && Nat.leb 8 (level f) && forallb (clear fn) rest | [] => false end
      | KTupleExpr => all 0 && negb (Nat.eqb (List.length args) 1)
      | _ => false
      end
  end.

(** What the functions with their own notation compute. *)
Definition lib_result (f : string) (vs : list val) (v : val) : Prop :=
  if smem f f_len then exists l, vs = [VList l] /\ v = VInt (Z.of_nat (List.length l))
  else if smem f f_get then exists l i, vs = [VList l; VInt i] /\ (0 <= i)%Z /\ nth_error l (Z.to_nat i) = Some v
  else if smem f f_prepend then exists a l, vs = [a; VList l] /\ v = VList (a :: l)
  else if smem f f_append then exists l a, vs = [VList l; a] /\ v = VList (l ++ [a])
  else if smem f f_empty then vs = [] /\ v = VList []
  else if smem f f_tail then exists l n, vs = [VList l; VInt n] /\ (0 <= n)%Z /\ v = VList (skipn (Z.to_nat n) l)
  else if smem f f_take then exists l n, vs = [VList l; VInt n] /\ (0 <= n)%Z /\ v = VList (firstn (Z.to_nat n) l)
  else if smem f f_slice then
    exists l i j, vs = [VList l; VInt i; VInt j] /\ (0 <= i)%Z /\ (0 <= j)%Z /\ v = VList (firstn (Z.to_nat j - Z.to_nat i) (skipn (Z.to_nat i) l))
  else
    exists l i n, vs = [VList l; VInt i; VInt n] /\ (0 <= i)%Z /\ (0 <= n)%Z /\ v = VList (firstn (Z.to_nat n) (skipn (Z.to_nat i) l)).

(** The interpretation [I] of expressions computes with integers and lists as Python does
    wherever it gives a value, and its other functions are those of the program, [C]. *)
Record python_like (I : interp) (C : string -> list val -> option val) : Prop := {
  pl_div : forall a b q, i_div I a b = Some q -> b <> 0%Z /\ q = (a / b)%Z;
  pl_mod : forall a b q, i_mod I a b = Some q -> b <> 0%Z /\ q = (a mod b)%Z;
  pl_lib : forall f vs v, smem f notations = true -> i_call I f vs = Some v -> lib_result f vs v;
  pl_fun : forall f vs v, i_call I f vs = Some v -> C f vs = Some v }.

(** Python does not tell [True] from [1]; the two are never compared. *)
Fixpoint same_kind (a b : val) : bool :=
  match a, b with
  | VInt _, VBool _ | VBool _, VInt _ => false
  | VList xs, VList ys | VTuple xs, VTuple ys =>
      (fix go (xs ys : list val) : bool := match xs, ys with x :: xs, y :: ys => same_kind x y && go xs ys | _, _ => true end) xs ys
  | _, _ => true
  end.
Fixpoint eqs_ok (I : interp) (r : env) (e : expr) : Prop :=
  match e with
  | Atom _ => True
  | Node k _ args =>
      (fix all (l : list expr) : Prop := match l with [] => True | a :: l => eqs_ok I r a /\ all l end) args /\
      (k = KEq -> forall a b, mapO (eval I r) args = Some [a; b] -> same_kind a b = true)
  end.
