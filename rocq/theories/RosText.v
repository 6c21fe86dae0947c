(** Which expressions can be printed for Rosette and read back: a specification, not a
    model of code in /repo. *)

From Coq Require Import DecimalString.
From Coq Require Import String Ascii List ZArith Bool.
From Verif Require Import Ast Dict SexpModel SexpProofs.
Import ListNotations.
Local Open Scope string_scope.
Local Open Scope list_scope.

Definition digit (c : ascii) : bool := (Nat.leb 48 (nat_of_ascii c) && Nat.leb (nat_of_ascii c) 57)%bool.
(** a name that is not a number or a truth value *)
Definition ros_name (x : string) : bool :=
  word x && negb (match x with String c _ => digit c || Ascii.eqb c "-" | _ => false end) && negb (smem x ["true"; "false"]).

(** the words with a meaning of their own at the head of a list *)
Definition heads : list string :=
  ["define"; "choose"; "equal?"; "+"; "-"; "*"; "quotient-noerr"; "<"; "<="; ">"; ">="; "&&"; "or"; "=>"; "remainder"; "!"; "if"; "=";
   "length"; "matrix-length"; "tensor3d-length"; "list-empty"; "matrix-empty"; "tensor3d-empty"; "list-append"; "matrix-append";
   "tensor3d-append"; "list-prepend"; "matrix-prepend"; "tensor3d-prepend"; "list-ref-noerr"; "matrix-ref-noerr"; "tensor3d-ref-noerr";
   "list-tail-noerr"; "matrix-tail-noerr"; "tensor3d-tail-noerr"; "list-concat"; "list-take-noerr"; "matrix-take-noerr";
   "tensor3d-take-noerr"; "vec-slice-noerr"; "matrix-row-slice-noerr"; "vec-slice-with-length-noerr";
   "matrix-row-slice-with-length-noerr"; "matrix-col-slice-noerr"; "matrix-col-slice-with-length-noerr"; "matrix-transpose-noerr";
   "integer-sqrt-noerr"; "integer-exp-noerr"; "make-tuple"; "tupleGet"; "set-create"; "set-insert"; "set-singleton"; "set-eq";
   "set-union"; "set-minus"; "set-subset"; "set-member"; "map-union"; "map-values"; "map-singleton"; "map-create"; "map-get";
   "lambda"; "let"; "reduce_int"; "reduce_bool"].
(** the IR's names for functions of the list library *)
Definition library : list string :=
  ["list_get"; "matrix_get"; "tensor3d_get"; "list_append"; "matrix_append"; "tensor3d_append"; "list_empty"; "matrix_empty";
   "tensor3d_empty"; "list_tail"; "matrix_tail"; "tensor3d_tail"; "list_length"; "matrix_length"; "tensor3d_length"; "list_take";
   "matrix_take"; "tensor3d_take"; "vec_slice"; "matrix_row_slice"; "tensor3d_slice"; "vec_slice_with_length";
   "matrix_row_slice_with_length"; "tensor3d_slice_with_length"; "matrix_col_slice"; "matrix_col_slice_with_length";
   "matrix_transpose"; "list_prepend"; "matrix_prepend"; "tensor3d_prepend"; "list_eq"; "list_concat"].
(** the name of a function of the user *)
Definition user_name (f : string) : bool :=
  word f && negb (smem f heads) && negb (smem f library) && negb (String.prefix "integer" f) && negb (String.eqb f "ite").

(** the element type as it is taken from a type *)
Definition elem (t : ty) : option ty := match t with TList e | TMatrix e | TTensor3D e | TSet e => Some e | _ => None end.

(** the type of a call, from the types of the arguments *)
Definition call_type (F : dict ty) (f : string) (ts : list ty) : option ty :=
  if smem f ["list_length"; "matrix_length"; "tensor3d_length"; "integer_sqrt"; "integer_exp"] then
    match ts with [_] => Some TInt | _ => None end
  else if String.eqb f "list_empty" then match ts with [] => Some (TList TInt) | _ => None end
  else if String.eqb f "matrix_empty" then match ts with [] => Some (TList (TList TInt)) | _ => None end
  else if String.eqb f "tensor3d_empty" then match ts with [] => Some (TList (TList (TList TInt))) | _ => None end
  else if String.eqb f "list_prepend" then match ts with [t; _] => Some (TList t) | _ => None end
  else if smem f ["matrix_prepend"; "tensor3d_prepend"] then match ts with [_; t] => Some t | _ => None end
  else if smem f ["list_get"; "matrix_get"] then match ts with [t; _] => elem t | _ => None end
  else if String.eqb f "tensor3d_get" then match ts with [_; _] => Some (TMatrix TInt) | _ => None end
  else if smem f ["matrix_append"; "tensor3d_append"; "list_tail"; "matrix_tail"; "tensor3d_tail"; "list_take"; "matrix_take";
                  "tensor3d_take"; "set-union"; "set-minus"] then match ts with [t; _] => Some t | _ => None end
  else if String.eqb f "list_concat" then
    match ts with [t; _] => match elem t with Some (TInt | TBool) => Some t | _ => None end | _ => None end
  else if smem f ["vec_slice"; "matrix_row_slice"; "vec_slice_with_length"; "matrix_row_slice_with_length"; "matrix_col_slice";
                  "matrix_col_slice_with_length"] then match ts with [t; _; _] => Some t | _ => None end
  else if String.eqb f "matrix_transpose" then
    match ts with [(TMatrix _ | TList (TList _)) as t] => Some t | _ => None end
  else if String.eqb f "set-create" then match ts with [] => Some (TSet TInt) | _ => None end
  else if String.eqb f "set-insert" then match ts with [t; _] => Some (TSet t) | _ => None end
  else if String.eqb f "set-singleton" then match ts with [t] => Some (TSet t) | _ => None end
  else if smem f ["set-subset"; "set-member"] then match ts with [_; _] => Some TBool | _ => None end
  else if user_name f then match dget F f with Some (TFn (r :: _)) => Some r | _ => None end
  else None.

(** the type an expression has *)
Definition ty_of (e : expr) : ty := match e with Node _ t _ => t | Atom _ => TInt end.

(** [F]: the types of functions, [V]: of variables.  Variables, numbers, truth values,
    operators that their constructors accept, tuples, calls. *)
Fixpoint readable (F V : dict ty) (e : expr) : bool :=
  match e with
  | Atom _ => false
  | Node k t args =>
      match k with
      | KVar =>
          match args with
          | [Atom (PStr x)] =>
              ros_name x && match (match dget F x with Some t => Some t | None => dget V x end) with Some t' => ty_eqb t' t | None => false end
          | _ => false
          end
      | KLit =>
          match args with [Atom (PInt _)] => ty_eqb t TInt | [Atom (PBool _)] => ty_eqb t TBool | _ => false end
      | KAdd | KSub | KMul | KDiv | KMod | KEq | KLt | KLe | KGt | KGe | KAnd | KOr | KNot | KImplies | KIte =>
          forallb (readable F V) args && match rebuild k t args with Ok (Node _ t' _) => ty_eqb t' t | _ => false end
      | KTupleExpr => forallb (readable F V) args && ty_eqb (TTuple (map ty_of args)) t
      | KCall =>
          match args with
          | Atom (PStr f) :: l =>
              forallb (readable F V) l && match call_type F f (map ty_of l) with Some t' => ty_eqb t' t | None => false end
          | _ => false
          end
      | _ => false
      end
  end.
