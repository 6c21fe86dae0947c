(** What the analysed Python functions compute.  This is a reference semantics of
    the Python subset, written independently of the frontend; it is not a model of
    code in /repo.

    Lists are treated as values.  That is what a Python program sees as long as no
    two variables hold the same list, so copying a list variable ([y = x]) has no
    meaning here and nothing is claimed about programs that do it. *)

From Coq Require Import String List ZArith Bool.
From Verif Require Import Ast Semantics Dict PyModel.
Import ListNotations.
Local Open Scope Z_scope.
Local Open Scope string_scope.

Section Sem.
(** the uninterpreted functions *)
Variable U : string -> list val -> option val.
(** [strict = true]: leave out the cases on which Python and the IR are known to
    differ, namely indexing from the end with a negative index and [//] by a
    negative number. *)
Variable strict : bool.

Definition py_cmp (op : string) (a b : val) : option bool :=
  match a, b with
  | VInt x, VInt y =>
      if op =? "<" then Some (x <? y)%Z
      else if op =? "<=" then Some (x <=? y)%Z
      else if op =? ">" then Some (y <? x)%Z
      else if op =? ">=" then Some (y <=? x)%Z
      else if op =? "==" then Some (x =? y)%Z
      else if op =? "!=" then Some (negb (x =? y)%Z)
      else None
  | _, _ => None
  end.

Definition py_arith (op : string) (a b : val) : option val :=
  match a, b with
  | VInt x, VInt y =>
      if op =? "+" then Some (VInt (x + y)%Z)
      else if op =? "-" then Some (VInt (x - y)%Z)
      else if op =? "*" then Some (VInt (x * y)%Z)
      else if op =? "//" then
        (* [Z.div] rounds down, as Python does *)
        if (y =? 0)%Z || (strict && (y <? 0)%Z) then None else Some (VInt (x / y)%Z)
      else None
  | _, _ => None
  end.

(** [l[i]] *)
Definition py_index (l : list val) (i : Z) : option val :=
  if (i <? 0)%Z then
    if strict || (i + Z.of_nat (length l) <? 0)%Z then None
    else nth_error l (Z.to_nat (i + Z.of_nat (length l)))
  else nth_error l (Z.to_nat i).

Definition store : Type := string -> option val.

Fixpoint pyeval (st : store) (e : pexpr) {struct e} : option val :=
  match e with
  | EInt z => Some (VInt z)
  | EName x => st x
  | ECmp ops es =>
      (* [a < b < c]: from left to right, stopping at the first comparison that
         fails *)
      match es with
      | [] => None
      | e0 :: es0 =>
          match pyeval st e0 with
          | None => None
          | Some v0 =>
              (fix chain (v : val) (ops : list string) (es : list pexpr) {struct es} : option val :=
                 match ops, es with
                 | [], [] => Some (VBool true)
                 | op :: ops', e :: es' =>
                     match pyeval st e with
                     | Some w =>
                         match py_cmp op v w with
                         | Some true => chain w ops' es'
                         | Some false => Some (VBool false)
                         | None => None
                         end
                     | None => None
                     end
                 | _, _ => None
                 end) v0 ops es0
          end
      end
  | EOp op l r =>
      if op =? "and" then
        match pyeval st l with
        | Some (VBool false) => Some (VBool false)
        | Some (VBool true) => match pyeval st r with Some (VBool b) => Some (VBool b) | _ => None end
        | _ => None
        end
      else if op =? "or" then
        match pyeval st l with
        | Some (VBool true) => Some (VBool true)
        | Some (VBool false) => match pyeval st r with Some (VBool b) => Some (VBool b) | _ => None end
        | _ => None
        end
      else
        match pyeval st l, pyeval st r with
        | Some a, Some b => py_arith op a b
        | _, _ => None
        end
  | ETuple es => match mapO (pyeval st) es with Some vs => Some (VTuple vs) | None => None end
  | EIndex b i =>
      match pyeval st b, pyeval st i with
      | Some (VList l), Some (VInt z) => py_index l z
      | Some (VTuple l), Some (VInt z) => py_index l z
      | _, _ => None
      end
  | EList es => match mapO (pyeval st) es with Some vs => Some (VList vs) | None => None end
  | EUnary op e =>
      if op =? "-" then match pyeval st e with Some (VInt z) => Some (VInt (- z)%Z) | _ => None end else None
  | ECallFn f es _ =>
      match mapO (pyeval st) es with
      | Some vs =>
          if f =? "len" then match vs with [VList l] => Some (VInt (Z.of_nat (length l))) | _ => None end
          else U f vs
      | None => None
      end
  | ECallMethod _ _ _ => None   (* only as a statement, below *)
  end.

(** a list may not be given a second name *)
Definition copies_list (e : pexpr) (v : val) : bool :=
  match e, v with EName _, VList _ => true | _, _ => false end.

Definition put (st : store) (x : string) (v : val) : store :=
  fun y => if x =? y then Some v else st y.

Inductive outcome : Type := Goes (st : store) | Returns (v : val).

(** [n] bounds the number of steps; [None]: not finished, an exception, or a program
    this semantics does not speak about *)
Fixpoint run (n : nat) (ss : list stmt) (st : store) {struct n} : option outcome :=
  match n with
  | O => None
  | S n =>
      match ss with
      | [] => Some (Goes st)
      | s :: r =>
          match s with
          | SAssign [x] e =>
              match pyeval st e with
              | Some v => if copies_list e v then None else run n r (put st x v)
              | None => None
              end
          | SExpr (ECallMethod (EName x) m [e]) =>
              if m =? "append" then
                match st x, pyeval st e with
                | Some (VList l), Some v => run n r (put st x (VList (l ++ [v])))
                | _, _ => None
                end
              else None
          | SExpr e => match pyeval st e with Some _ => run n r st | None => None end
          | SReturn e => match pyeval st e with Some v => Some (Returns v) | None => None end
          | SIf c b els =>
              match pyeval st c with
              | Some (VBool t) =>
                  match run n (if t then b else els) st with
                  | Some (Goes st') => run n r st'
                  | o => o
                  end
              | _ => None
              end
          | SWhile id c b =>
              match pyeval st c with
              | Some (VBool true) =>
                  match run n b st with
                  | Some (Goes st') => run n (SWhile id c b :: r) st'
                  | o => o
                  end
              | Some (VBool false) => run n r st
              | _ => None
              end
          | SAssign _ _ | SOther => None
          end
      end
  end.

(** the store in which the body starts *)
Fixpoint bind_args (formals : list string) (vs : list val) : store :=
  match formals, vs with
  | x :: fr, v :: vr => fun y => if x =? y then Some v else bind_args fr vr y
  | _, _ => fun _ => None
  end.

(** calling [f] with the values [vs] finishes and returns [v] *)
Definition returns (f : funcdef) (vs : list val) (v : val) : Prop :=
  length vs = length (f_formals f) /\
  exists n, run n (f_body f) (bind_args (map fst (f_formals f)) vs) = Some (Returns v).
End Sem.

(** values of a type *)
Fixpoint of_type (t : ty) (v : val) {struct t} : bool :=
  match t, v with
  | TInt, VInt _ | TBool, VBool _ => true
  | TList u, VList l => forallb (of_type u) l
  | TTuple ts, VTuple l =>
      (fix go (ts : list ty) (l : list val) : bool :=
         match ts, l with
         | [], [] => true
         | t :: ts', v :: l' => of_type t v && go ts' l'
         | _, _ => false
         end) ts l
  | _, _ => false
  end.

(** An assignment of values to IR variables gives each variable a value of its
    type. *)
Definition fits (types : dict ty) (r : env) : Prop :=
  forall x t, dget types x = Some t -> exists v, r x = Some v /\ of_type t v = true.

(** A verification condition holds: it is true for all values of its variables. *)
Definition holds (I : interp) (types : dict ty) (e : expr) : Prop :=
  forall r, fits types r -> eval I r e = Some (VBool true).

(** The library functions of the IR mean what they should (C16, C22 are about the
    two backends' versions). Out of range, [list_get] has some value. *)
Record library (I : interp) : Prop := {
  lib_empty : i_call I "list_empty" [] = Some (VList []);
  lib_length : forall l, i_call I "list_length" [VList l] = Some (VInt (Z.of_nat (length l)));
  lib_append : forall l v, i_call I "list_append" [VList l; v] = Some (VList (l ++ [v]));
  lib_get : forall l i v, 0 <= i -> nth_error l (Z.to_nat i) = Some v ->
            i_call I "list_get" [VList l; VInt i] = Some v;
  lib_get_total : forall l i, of_type (TList TInt) (VList l) = true ->
            exists z, i_call I "list_get" [VList l; VInt i] = Some (VInt z);
  lib_tuple : forall l i v, 0 <= i -> nth_error l (Z.to_nat i) = Some v ->
            i_call I "tupleGet" [VTuple l; VInt i] = Some v;
  lib_div : forall x y, 0 < y -> i_div I x y = Some (x / y);
  lib_div_total : forall x y, exists z, i_div I x y = Some z }.

(** ** The programs the soundness theorems speak about *)

Section Class.
(** the IR type of each variable, the names of uninterpreted functions *)
Variables (G : dict ty) (uninterp : list string).

Definition prim (t : ty) : bool := match t with TInt | TBool => true | _ => false end.

(** the type of an expression; [None] for expressions that are ill-typed or left
    out: chained comparisons, [!=], non-literal or negative tuple indices, method
    calls *)
Fixpoint ety (e : pexpr) : option ty :=
  match e with
  | EInt _ => Some TInt
  | EName x => dget G x
  | ECmp [op] [a; b] =>
      match ety a, ety b with
      | Some TInt, Some TInt => if smem op ["<"; "<="; ">"; ">="; "=="] then Some TBool else None
      | _, _ => None
      end
  | EOp op a b =>
      match ety a, ety b with
      | Some TInt, Some TInt => if smem op ["+"; "-"; "*"; "//"] then Some TInt else None
      | Some TBool, Some TBool => if smem op ["and"; "or"] then Some TBool else None
      | _, _ => None
      end
  | ETuple es =>
      match mapO ety es with
      | Some ts => if forallb prim ts then Some (TTuple ts) else None
      | None => None
      end
  | EIndex b i =>
      match ety b, ety i, i with
      | Some (TList TInt), Some TInt, _ => Some TInt
      | Some (TTuple ts), _, EInt z =>
          if (z <? 0)%Z then None
          else match nth_error ts (Z.to_nat z) with
               | Some t => if prim t then Some t else None
               | None => None
               end
      | _, _, _ => None
      end
  | EList [] => Some (TList TInt)
  | EUnary op e =>
      match ety e with Some TInt => if op =? "-" then Some TInt else None | _ => None end
  | ECallFn f es t =>
      match mapO ety es, t with
      | Some ts, MtInt =>
          if f =? "len" then match ts with [TList TInt] => Some TInt | _ => None end
          else if smem f uninterp then Some TInt else None
      | _, _ => None
      end
  | _ => None
  end.

(** well-typed statements; inside an [if] no list is assigned or appended to
    (C29), no parameter is appended to, and no list variable is copied *)
Fixpoint ok_stmt (params : list string) (in_if : bool) (s : stmt) : bool :=
  match s with
  | SAssign [x] e =>
      match ety e, dget G x with
      | Some t, Some t' =>
          ty_eqb t t' &&
          match t, e with
          | TList _, EName _ => false
          | TList _, _ => negb in_if
          | _, _ => true
          end
      | _, _ => false
      end
  | SExpr (ECallMethod (EName x) m [e]) =>
      (m =? "append") && negb in_if && negb (smem x params) &&
      match dget G x, ety e with Some (TList TInt), Some TInt => true | _, _ => false end
  | SExpr e => match ety e with Some _ => true | None => false end
  | SReturn e => match ety e with Some _ => true | None => false end
  | SIf c b els =>
      match ety c with
      | Some TBool => forallb (ok_stmt params true) b && forallb (ok_stmt params true) els
      | _ => false
      end
  | SWhile _ c b =>
      match ety c with Some TBool => forallb (ok_stmt params in_if) b | _ => false end
  | SAssign _ _ | SOther => false
  end.

(** how many assertions the statements give rise to *)
Fixpoint count (s : stmt) : nat :=
  match s with
  | SReturn _ => 1
  | SWhile _ _ b => 2 + list_sum (map count b)
  | SIf _ b e => list_sum (map count b) + list_sum (map count e)
  | _ => 0
  end.
Definition counts (ss : list stmt) : nat := list_sum (map count ss).

(** No assertion gets lost: loops are at top level and contain neither loops nor
    returns; a [return] inside an [if] is the first assertion of the function
    ([seen]: there may be an earlier one). *)
Fixpoint keep (seen : bool) (ss : list stmt) : bool :=
  match ss with
  | [] => true
  | s :: r =>
      match s with
      | SIf _ _ _ =>
          (if seen then Nat.eqb (count s) 0 else Nat.leb (count s) 1) &&
          keep (seen || negb (Nat.eqb (count s) 0)) r
      | SWhile _ _ b => Nat.eqb (counts b) 0 && keep true r
      | SReturn _ => keep true r
      | _ => keep seen r
      end
  end.

(** No loop writes a parameter or a variable that an earlier loop wrote. *)
Fixpoint fresh_loops (used : list string) (ss : list stmt) : bool :=
  match ss with
  | [] => true
  | s :: r =>
      match s with
      | SWhile _ _ _ =>
          forallb (fun x => negb (smem x used)) (stmt_writes s) && fresh_loops (used ++ stmt_writes s) r
      | _ => fresh_loops used r
      end
  end.

Definition simple_type (t : ty) : bool :=
  match t with TInt | TBool | TList TInt => true | TTuple ts => forallb prim ts | _ => false end.

(** the types mypy recorded are the ones in [G] *)
Definition recorded (types : dict mtype) : bool :=
  forallb (fun p => match to_object_type (snd p) with
                    | Ok t => match dget G (fst p) with Some t' => ty_eqb t t' | None => false end
                    | Err _ => true
                    end) types.

Definition supported (types : dict mtype) (f : funcdef) : bool :=
  let params := map fst (f_formals f) in
  forallb (fun p => simple_type (snd p)) G &&
  recorded types && recorded (f_formals f) &&
  forallb (ok_stmt params false) (f_body f) &&
  keep false (f_body f) &&
  fresh_loops params (f_body f).
End Class.
