(** The Python text of expressions and functions ([to_python] methods of
    metalift/ir.py). *)

From Coq Require Import String Ascii List ZArith Bool.
From Verif Require Import Ast Dict SmtPrint.
Import ListNotations.
Local Open Scope list_scope.
Local Open Scope string_scope.

(** ir.py:2562-2583 [Call.to_python], after the arguments were printed.  Missing
    arguments raise IndexError, further ones are ignored. *)
Definition py_call (f : string) (args : list string) : res string :=
  let a i := match nth_error args i with Some s => Ok s | None => Err ExIndex end in
  if smem f ["list_length"; "matrix_length"] then x <- a 0 ;; Ok ("len(" ++ x ++ ")")
  else if smem f ["list_get"; "matrix_get"] then x <- a 0 ;; i <- a 1 ;; Ok (x ++ "[" ++ i ++ "]")
  else if smem f ["list_prepend"; "matrix_prepend"] then x <- a 0 ;; y <- a 1 ;; Ok ("[" ++ x ++ ", *" ++ y ++ "]")
  else if smem f ["list_append"; "matrix_append"] then x <- a 0 ;; y <- a 1 ;; Ok ("[*" ++ x ++ ", " ++ y ++ "]")
  else if smem f ["list_empty"; "matrix_empty"] then Ok "[]"
  else if smem f ["list_tail"; "matrix_tail"] then x <- a 0 ;; i <- a 1 ;; Ok (x ++ "[" ++ i ++ ":]")
  else if smem f ["list_take"; "matrix_take"] then x <- a 0 ;; i <- a 1 ;; Ok (x ++ "[:" ++ i ++ "]")
  else if smem f ["vec_slice"; "matrix_row_slice"] then x <- a 0 ;; i <- a 1 ;; j <- a 2 ;; Ok (x ++ "[" ++ i ++ ":" ++ j ++ "]")
  else if smem f ["vec_slice_with_length"; "matrix_row_slice_with_length"] then
    x <- a 0 ;; i <- a 1 ;; j <- a 2 ;; Ok (x ++ "[" ++ i ++ ":" ++ i ++ "+" ++ j ++ "]")
  else Ok (f ++ "(" ++ join ", " args ++ ")").

(** the [to_python] method of a comparison: ir.py:2100-2102, 2132-2133, 2163-2164,
    2194-2195, 2225-2226 *)
Definition py_cmp (k : kind) : option string :=
  match k with KEq => Some " == " | KLt => Some " < " | KLe => Some " <= " | KGt => Some " > " | KGe => Some " >= " | _ => None end.
(** infix methods with a pair of parentheses: ir.py:1978-1979, 2032-2033, 2064-2065 *)
Definition py_paren (k : kind) : option string :=
  match k with KSub => Some " - " | KDiv => Some " // " | KMod => Some " % " | _ => None end.
(** [join] methods: ir.py:1950-1951, 2006-2007, 2252-2253, 2280-2281 *)
Definition py_join (k : kind) : option string :=
  match k with KAdd => Some " + " | KMul => Some " * " | KAnd => Some " and " | KOr => Some " or " | _ => None end.

(** The other branches are, in order: ir.py:1873-1874 [Var], 1916-1917 [Lit],
    2304-2305 [Not], 2365-2366 [Ite], 2562-2583 [Call], 2698-2699 [CallValue],
    2722-2723 [Assert], 2772-2773 [TupleExpr].  Every other class inherits
    [Expr.to_python] (337-338), which raises NotImplementedError, or is a function
    declaration ([fn_to_python] below).  A plain object has no method [to_python]. *)
Fixpoint to_python (e : expr) : res string :=
  match e with
  | Atom _ => Err ExAttr
  | Node k t args =>
      match py_join k, py_paren k, py_cmp k with
      | Some sep, _, _ => ss <- mapR to_python args ;; Ok (join sep ss)
      | _, Some op, _ | _, _, Some op =>
          match args with
          | a :: b :: _ => x <- to_python a ;; y <- to_python b ;;
                           Ok (if py_paren k then "(" ++ x ++ op ++ y ++ ")" else x ++ op ++ y)
          | [a] => x <- to_python a ;; Err ExIndex
          | [] => Err ExIndex
          end
      | None, None, None =>
          match k, args with
          | (KVar | KNonTerm), Atom (PStr x) :: _ => Ok x
          | KLit, Atom a :: _ => Ok (str_atom a)
          | KNot, a :: _ => x <- to_python a ;; Ok ("not " ++ x)
          | KIte, [c; a; b] => x <- to_python a ;; z <- to_python c ;; y <- to_python b ;;
                               Ok ("(" ++ x ++ " if " ++ z ++ " else " ++ y ++ ")")
          | (KCall | KTargetCall), Atom (PStr f) :: rest => ss <- mapR to_python rest ;; py_call f ss
          | KCallValue, f :: rest => x <- to_python f ;; ss <- mapR to_python rest ;; Ok (x ++ "(" ++ join ", " ss ++ ")")
          | KAssert, a :: _ => x <- to_python a ;; Ok ("assert " ++ x)
          | KTupleExpr, _ => ss <- mapR to_python args ;; Ok ("(" ++ join ", " ss ++ ")")
          | (KVar | KNonTerm | KLit | KNot | KIte | KCall | KTargetCall | KCallValue | KAssert), [] => Err ExIndex
          | _, _ => Err ExNYI
          end
      end
  end.

(** [to_python_type_str]: ir.py:899-900 [Bool], 1044-1045 [Int], 1304-1309 [List],
    1520-1526 [Matrix] (the text of a list of lists), 1822-1832 [Fn].  [Tensor3D]
    inherits the method of [List].  [Set] and [Tuple] inherit [Object]'s method
    (829-830), which raises NotImplementedError. *)
Fixpoint py_type (t : ty) : res string :=
  match t with
  | TInt => Ok "int"
  | TBool => Ok "bool"
  | TList e | TTensor3D e => s <- py_type e ;; Ok ("List[" ++ s ++ "]")
  | TMatrix e => s <- py_type e ;; Ok ("List[List[" ++ s ++ "]]")
  | TFn [] => Err ExIndex
  | TFn (ret :: args) => r <- py_type ret ;; ss <- mapR py_type args ;; Ok ("Callable[[" ++ join ", " ss ++ "], " ++ r ++ "]")
  | TSet _ | TTuple _ => Err ExNYI
  end.

(** the line break between the header and the body *)
Definition newline : string := String (ascii_of_nat 10) "".

(** ir.py:3100-3112 [FnDeclRecursive.to_python], 3245-3257 [FnDecl.to_python];
    [TAB] (21) is four spaces.  A body that is a plain object has no [to_python]. *)
Definition fn_to_python (e : expr) : res string :=
  match e with
  | Node (KFnDeclRec | KFnDecl | KTarget) t (Atom (PStr f) :: body :: args) =>
      ps <- mapR (fun a => x <- to_python a ;; ta <- type_of a ;; s <- py_type ta ;; Ok (x ++ ": " ++ s)) args ;;
      ret <- fn_return_type t ;; r <- py_type ret ;;
      b <- to_python body ;;
      Ok ("def " ++ f ++ "(" ++ join ", " ps ++ ") -> " ++ r ++ ":" ++ newline ++ "    return " ++ b)
  | _ => Err ExAttr
  end.
