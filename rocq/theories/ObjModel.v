(** The IR object layer of metalift/ir.py: [Int], [Bool], [List], [Matrix],
    [Tensor3D] objects wrap an expression and overload Python's syntax. *)

From Coq Require Import String List ZArith Bool.
From Verif Require Import Ast.
Import ListNotations.
Local Open Scope Z_scope.
Local Open Scope string_scope.

(** ir.py:783-787 [Object]: an object has a type (its class and [containedT]) and
    a source expression.  A [Matrix] object of type [Matrix[t]] has
    [containedT = List[t]] (ir.py:1346-1347), a [Tensor3D] one [Matrix[t]]
    (ir.py:1566). *)
Record obj : Type := { o_ty : ty; o_src : expr }.

(** ir.py:39-43 [is_list_type]: [Matrix] and [Tensor3D] are subclasses of [List] *)
Definition is_list_type (t : ty) : bool :=
  match t with TList _ | TMatrix _ | TTensor3D _ => true | _ => false end.
(** ir.py:46-50 [is_matrix_type] *)
Definition is_matrix_type (t : ty) : bool := match t with TMatrix _ => true | _ => false end.
(** ir.py:53-57 [is_tensor3d_type] *)
Definition is_tensor3d_type (t : ty) : bool := match t with TTensor3D _ => true | _ => false end.
(** ir.py:60-66 [is_nested_list_type] *)
Definition is_nested_list_type (t : ty) : bool :=
  match t with
  | TList c | TMatrix c | TTensor3D c => is_list_type c
  | _ => false
  end.
(** ir.py:86-87 [is_primitive_type] *)
Definition is_primitive_type (t : ty) : bool := match t with TInt | TBool => true | _ => false end.

(** ir.py:1077, 1346-1347, 1565-1566: the attribute [containedT] *)
Definition contained (t : ty) : res ty :=
  match t with
  | TList c => Ok c
  | TMatrix c => Ok (TList c)
  | TTensor3D c => Ok (TMatrix c)
  | _ => Err ExAttr
  end.

(** ir.py:653-668 [create_object]: [Int] and [Bool] check the expression's type
    (ir.py:917-919, 847-849), the container classes do not; [Fn] accepts only
    declarations (ir.py:1781-1786). *)
Definition create_object (t : ty) (e : expr) : res obj :=
  match t with
  | TInt | TBool =>
      te <- type_of e ;; if ty_eqb te t then Ok {| o_ty := t; o_src := e |} else Err ExTypes
  | TFn _ =>
      match e with
      | Node (KFnDecl | KFnDeclRec) _ _ => Ok {| o_ty := t; o_src := e |}
      | _ => Err ExTypes
      end
  | _ => Ok {| o_ty := t; o_src := e |}
  end.

(** ir.py:911-925 [Int(value)] and 841-855, 1058-1076 with a string: a variable *)
Definition int_var (x : string) : obj := {| o_ty := TInt; o_src := mkVar x TInt |}.
Definition list_var (t : ty) (x : string) : obj := {| o_ty := t; o_src := mkVar x t |}.
Definition int_lit (z : Z) : obj := {| o_ty := TInt; o_src := IntLit z |}.

(** ir.py:713-719 [call] *)
Definition call (f : string) (t : ty) (args : list obj) : res obj :=
  e <- mkCall (Atom (PStr f)) t (map o_src args) ;; create_object t e.
(** ir.py:722-725 [call_value] *)
Definition call_value (f : obj) (args : list obj) : res obj :=
  e <- mkCallValue (o_src f :: map o_src args) ;;
  match o_ty f with
  | TFn (r :: _) => create_object r e
  | _ => Err ExAttr
  end.
(** ir.py:695-706 [ite] *)
Definition ite (c a b : obj) : res obj :=
  e <- mkIte [o_src c; o_src a; o_src b] ;; create_object (o_ty a) e.
(** ir.py:709-710 [implies] *)
Definition implies (a b : obj) : res obj :=
  e <- mkImplies [o_src a; o_src b] ;; create_object TBool e.

(** ir.py:942-958 [Int.binary_op] on two [Int]s *)
Definition int_op (k : kind) (a b : obj) : res obj :=
  e <- (match k with KAdd | KMul => mkArithN k [o_src a; o_src b] | _ => mkArith2 k [o_src a; o_src b] end) ;;
  create_object TInt e.
(** ir.py:1003-1031: [<], [<=], [>], [>=] *)
Definition int_cmp (k : kind) (a b : obj) : res obj :=
  e <- mkCmp k [o_src a; o_src b] ;; create_object TBool e.
(** ir.py:993-996 [Int.__eq__] *)
Definition int_eq (a b : obj) : res obj :=
  e <- mkEq [o_src a; o_src b] ;; create_object TBool e.
(** ir.py:998-1001 [Int.__ne__] *)
Definition int_ne (a b : obj) : res obj :=
  e <- mkEq [o_src a; o_src b] ;; e' <- mkNot [e] ;; create_object TBool e'.

(** ir.py:1089-1095 [List.empty], 1353-1355 [Matrix.empty], 1574-1576
    [Tensor3D.empty] *)
Definition list_empty (c : ty) : res obj :=
  e <- mkCall (Atom (PStr (if is_primitive_type c then "list_empty" else "matrix_empty"))) (TList c) [] ;;
  create_object (TList c) e.
Definition matrix_empty (c : ty) : res obj := call "matrix_empty" (TMatrix c) [].
Definition tensor3d_empty (c : ty) : res obj := call "tensor3d_empty" (TTensor3D c) [].

(** ir.py:1104-1105 [List.len], 1361-1362 [Matrix.len], 1582-1583 [Tensor3D.len] *)
Definition o_len (o : obj) : res obj :=
  match o_ty o with
  | TList _ => call "list_length" TInt [o]
  | TMatrix _ => call "matrix_length" TInt [o]
  | TTensor3D _ => call "tensor3d_length" TInt [o]
  | _ => Err ExAttr
  end.

(** ir.py:1081-1087: [is_matrix], [is_tensor3d]; the function name for the three
    shapes *)
Definition shape_name (t : ty) (n_matrix n_tensor n_list : string) : string :=
  if is_matrix_type t || is_nested_list_type t then n_matrix
  else if is_tensor3d_type t then n_tensor
  else n_list.

(** what can stand between the brackets: an index, or a slice whose parts are
    missing, Python integers or [Int] objects *)
Inductive sarg : Type := SInt (z : Z) | SObj (o : obj).
Inductive idx : Type :=
| IxInt (z : Z) | IxObj (o : obj)
| IxSlice (start stop step : option sarg).

(** ir.py:1113-1114 etc.: [if isinstance(start, int): start = Int(start)] *)
Definition sarg_obj (s : sarg) : obj := match s with SInt z => int_lit z | SObj o => o end.

(** a missing bound: [get_object_expr(None)] is [None], ir.py:675-676 *)
Definition none_obj : obj := {| o_ty := TInt; o_src := Atom PNone |}.

(** ir.py:1107-1154 [List.__getitem__].  [x[:]] takes the first slice branch with
    [start = None]. *)
Definition getitem (o : obj) (i : idx) : res obj :=
  let t := o_ty o in
  c <- contained t ;;
  match i with
  | IxSlice start None None =>
      call (shape_name t "matrix_tail" "tensor3d_tail" "list_tail") t
           [o; match start with Some s => sarg_obj s | None => none_obj end]
  | IxSlice None (Some stop) None =>
      call (shape_name t "matrix_take" "tensor3d_take" "list_take") t [o; sarg_obj stop]
  | IxSlice (Some start) (Some stop) None =>
      call (shape_name t "matrix_row_slice" "tensor3d_slice" "vec_slice") t [o; sarg_obj start; sarg_obj stop]
  | IxSlice _ _ (Some _) => Err ExNYI
  | IxInt z => call (shape_name t "matrix_get" "tensor3d_get" "list_get") c [o; int_lit z]
  | IxObj i => call (shape_name t "matrix_get" "tensor3d_get" "list_get") c [o; i]
  end.

(** ir.py:1156-1163 [List.__setitem__]; returns the new source.  [list_set] is
    defined neither in utils.rkt nor in list-axioms.smt. *)
Definition setitem (o : obj) (i v : obj) : res obj :=
  c <- contained (o_ty o) ;;
  if ty_eqb (o_ty v) c then
    e <- mkCall (Atom (PStr "list_set")) (o_ty o) [o_src o; o_src i; o_src v] ;;
    Ok {| o_ty := o_ty o; o_src := e |}
  else Err ExTypes.

(** ir.py:1166-1172 [List.append], 1458-1465 [Matrix.append], 1596-1602
    [Tensor3D.append]: in place; the result is the updated object *)
Definition append (o v : obj) : res obj :=
  c <- contained (o_ty o) ;;
  if ty_eqb (o_ty v) c then
    call (match o_ty o with TMatrix _ => "matrix_append" | TTensor3D _ => "tensor3d_append" | _ => "list_append" end)
         (o_ty o) [o; v]
  else Err ExTypes.
(** ir.py:1175-1181 [List.prepend], 1468-1475, 1586-1593 *)
Definition prepend (o v : obj) : res obj :=
  c <- contained (o_ty o) ;;
  if ty_eqb (o_ty v) c then
    call (match o_ty o with TMatrix _ => "matrix_prepend" | TTensor3D _ => "tensor3d_prepend" | _ => "list_prepend" end)
         (o_ty o) [v; o]
  else Err ExTypes.
(** ir.py:1183-1196 [List.slice_with_length], 1502-1509 [Matrix.slice_with_length] *)
Definition slice_with_length (o : obj) (start n : sarg) : res obj :=
  call (shape_name (o_ty o) "matrix_row_slice_with_length" "tensor3d_slice_with_length" "vec_slice_with_length")
       (o_ty o) [o; sarg_obj start; sarg_obj n].
(** ir.py:1199-1206 [List.__add__], 1516-1521 [Matrix.__add__]; [Tensor3D] inherits
    the first one, which makes a [List] object whose [containedT] is a matrix *)
Definition concat (o p : obj) : res obj :=
  c <- contained (o_ty o) ;;
  if ty_eqb (o_ty o) (o_ty p) then
    e <- mkCall (Atom (PStr "list_concat")) (o_ty o) [o_src o; o_src p] ;;
    Ok {| o_ty := match o_ty o with TTensor3D _ => TList c | t => t end; o_src := e |}
  else Err ExTypes.
(** ir.py:1208-1212 [List.__eq__] *)
Definition list_eq (o p : obj) : res obj :=
  if ty_eqb (o_ty o) (o_ty p) then call "list_eq" TBool [o; p]
  else Ok {| o_ty := TBool; o_src := BoolLit false |}.
(** ir.py:1478-1483 [Matrix.col_slice], 1485-1492 [col_slice_with_length],
    1511-1513 [transpose] *)
Definition col_slice (o : obj) (st en : sarg) : res obj :=
  call "matrix_col_slice" (o_ty o) [o; sarg_obj st; sarg_obj en].
Definition col_slice_with_length (o : obj) (st n : sarg) : res obj :=
  call "matrix_col_slice_with_length" (o_ty o) [o; sarg_obj st; sarg_obj n].
Definition transpose (o : obj) : res obj := call "matrix_transpose" (o_ty o) [o].
(** ir.py:1494-1500 [Matrix.col_vec] *)
Definition col_vec (o : obj) (i : sarg) : res obj :=
  c <- col_slice_with_length o i (SInt 1) ;; t <- transpose c ;; getitem t (IxInt 0).

(** ir.py:744-753 [fn_decl_recursive], 728-737 [fn_decl] *)
Definition fn_decl_recursive (n : string) (t : ty) (body : obj) (args : list obj) : res expr :=
  mkFn KFnDeclRec (Atom (PStr n)) t (o_src body) (map o_src args).
Definition fn_decl (n : string) (t : ty) (body : obj) (args : list obj) : res expr :=
  mkFn KFnDecl (Atom (PStr n)) t (o_src body) (map o_src args).
