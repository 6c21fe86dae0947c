(** The Rosette text of expressions ([to_rosette] methods of metalift/ir.py) and
    reading a solution of Rosette back (synthesize_rosette.py:94-525 [to_expr]). *)

From Coq Require Import DecimalString.
From Coq Require Import String Ascii List ZArith Bool.
From Verif Require Import Ast Dict SexpModel SmtPrint RktModel.
Import ListNotations.
Local Open Scope list_scope.
Local Open Scope string_scope.

(** ** printing *)

(** [RosetteName] of the operators: ir.py:1932, 1958, 1986, 2014, 2043, 2072, 2109,
    2140, 2171, 2202, 2233, 2260, 2288, 2312, 2334, 2706 *)
Definition ros_op (k : kind) : option string :=
  match k with
  | KAdd => Some "+" | KSub => Some "-" | KMul => Some "*" | KDiv => Some "quotient-noerr" | KMod => Some "remainder"
  | KEq => Some "equal?" | KLt => Some "<" | KLe => Some "<=" | KGt => Some ">" | KGe => Some ">="
  | KAnd => Some "&&" | KOr => Some "or" | KNot => Some "!" | KImplies => Some "=>" | KIte => Some "if"
  | KAssert => Some "assert"
  | _ => None
  end.

(** [s + " "] for every [s], in a row *)
Definition spaced (l : list string) : string := String.concat "" (map (fun s => s ++ " ") l).

(** ir.py:72-76 [is_set_type], 78-82 etc. *)
Definition is_set (t : ty) : bool := match t with TSet _ => true | _ => false end.
(** ir.py:86-87 *)
Definition is_primitive (t : ty) : bool := match t with TInt | TBool => true | _ => false end.
(** ir.py:68-69 [get_list_element_type]: [get_args(ty)[0]].  For [Tuple] and [Fn] the
    result is no IR type; not modelled. *)
Definition elem_type (t : ty) : res ty :=
  match t with
  | TList e | TMatrix e | TTensor3D e | TSet e => Ok e
  | TInt | TBool => Err ExIndex
  | TTuple _ | TFn _ => Err ExNYI
  end.
(** ir.py:57-65 [is_nested_list_type] or [is_matrix_type]: a list (or one of its
    subclasses) whose element type is one, or a matrix *)
Definition matrix_like (t : ty) : res bool :=
  match t with
  | TMatrix _ => Ok true
  | TList (TList _ | TMatrix _ | TTensor3D _) | TTensor3D (TList _ | TMatrix _ | TTensor3D _) => Ok true
  | TInt | TBool => Err ExIndex
  | _ => Ok false
  end.

(** ir.py:376-454 [get_list_fn]: the table, and the two tests of argument types *)
Definition list_fn (f : string) (args : list expr) : res string :=
  let first_type := match args with a :: _ => type_of a | [] => Err ExIndex end in
  if String.eqb f "matrix_transpose" then
    t <- first_type ;; b <- matrix_like t ;; if b then Ok "matrix-transpose-noerr" else Err ExNYI
  else if String.eqb f "list_concat" then
    t <- first_type ;; e <- elem_type t ;; if is_primitive e then Ok "list-concat" else Err ExNYI
  else match get_list_fn f with Some g => Ok g | None => Ok f end.   (* get_list_fn(self) or self.args[0] *)
(** ir.py:364-373 [get_integer_fn] *)
Definition integer_fn (f : string) : res string :=
  if String.eqb f "integer_sqrt" then Ok "integer-sqrt-noerr"
  else if String.eqb f "integer_exp" then Ok "integer-exp-noerr" else Err ExNYI.

(** ir.py:462-471 [toRosetteSimple] *)
Definition ros_simple (name : string) (ss : list string) : string := "(" ++ name ++ " " ++ spaced ss ++ ")".

(** The call branch of [ite] builds an [Ite] expression and prints it. *)
Fixpoint to_rosette (e : expr) : res string :=
  match e with
  | Atom a => Ok (str_atom a)              (* 468: str(a) *)
  | Node k t args =>
      match ros_op k with
      | Some op =>
          match k, args with
          | KEq, a :: _ => ta <- type_of a ;; ss <- mapR to_rosette args ;;
                           Ok (ros_simple (if is_set ta then "set-eq" else op) ss)      (* 2088-2095 *)
          | KEq, [] => Err ExIndex
          | _, _ => ss <- mapR to_rosette args ;; Ok (ros_simple op ss)
          end
      | None =>
          match k with
          | KVar | KNonTerm => match args with a :: _ => Ok (arg_str a) | [] => Err ExIndex end       (* 1865-1868 *)
          | KLit => match args with Atom a :: _ => Ok (lit_text t a) | _ => Err ExIndex end           (* 1902-1908 *)
          | KLet =>
              match args with
              | [v; e1; e2] => a <- to_rosette v ;; b <- to_rosette e1 ;; c <- to_rosette e2 ;;
                               Ok ("(let ([" ++ a ++ " " ++ b ++ "]) " ++ c ++ ")")                   (* 2382-2395 *)
              | _ => Err ExIndex
              end
          | KCall | KTargetCall =>                                                                    (* 2428-2493 *)
              match args with
              | Atom (PStr f) :: l =>
                  if starts "inv" f || starts "ps" f then ss <- mapR to_rosette l ;; Ok ("( " ++ f ++ " " ++ spaced ss ++ ")")
                  else if starts "list" f || starts "vec" f || starts "matrix" f || starts "tensor3d" f then
                    g <- list_fn f l ;; ss <- mapR to_rosette l ;; Ok (ros_simple g ss)
                  else if starts "integer" f then g <- integer_fn f ;; ss <- mapR to_rosette l ;; Ok (ros_simple g ss)
                  else if String.eqb f "ite" then
                    match l with
                    | c :: a :: b :: _ =>
                        _ <- mkIte [c; a; b] ;;
                        sc <- to_rosette c ;; sa <- to_rosette a ;; sb <- to_rosette b ;; Ok (ros_simple "if" [sc; sa; sb])
                    | _ => Err ExIndex
                    end
                  else ss <- mapR to_rosette l ;; Ok ("(" ++ join " " (f :: ss) ++ ")")
              | _ => Err ExNYI                                                                        (* not reached with a string *)
              end
          | KCallValue => ss <- mapR to_rosette args ;; Ok ("(" ++ join " " ss ++ ")")                 (* 2624-2637 *)
          | KTupleExpr => ss <- mapR to_rosette args ;; Ok ("(" ++ join " " ("make-tuple" :: ss) ++ ")") (* 2756-2761 *)
          | _ => Err ExNYI
          end
      end
  end.

(** ** reading *)

(** [ast.isnumeric()], [int(ast)]: digits only *)
Definition number (w : string) : option Z :=
  match w with EmptyString => None | _ => option_map Z.of_uint (NilEmpty.uint_of_string w) end.

(** synthesize_rosette.py:513-525: a word *)
Definition read_atom (F V : dict ty) (w : string) : res expr :=
  match number w with
  | Some z => Ok (IntLit z)
  | None =>
      match match w with String c r => if Ascii.eqb c "-" then number r else None | _ => None end with
      | Some z => Ok (IntLit (- z))
      | None =>
          if String.eqb w "true" then Ok (BoolLit true)
          else if String.eqb w "false" then Ok (BoolLit false)
          else match dget F w with
               | Some t => Ok (mkVar w t)
               | None => match dget V w with Some t => Ok (mkVar w t) | None => Err ExKey end
               end
      end
  end.

(** synthesize_rosette.py:101-115 [expr_bi]: the operators, by their constructors *)
Definition read_op (w : string) : option (list expr -> res expr) :=
  match find (fun p => String.eqb w (fst p))
    [ ("equal?", mkEq); ("+", mkArithN KAdd); ("-", mkArith2 KSub); ("*", mkArithN KMul); ("quotient-noerr", mkArith2 KDiv);
      ("<", mkCmp KLt); ("<=", mkCmp KLe); (">", mkCmp KGt); (">=", mkCmp KGe); ("&&", mkBoolN KAnd); ("or", mkBoolN KOr);
      ("=>", mkImplies); ("remainder", mkArith2 KMod) ] with
  | Some p => Some (snd p)
  | None => None
  end.

(** A branch that reads [n] operands and makes a call: of which function, and of which
    type, from the types of the operands. *)
Record rule := { r_name : string; r_arity : nat; r_type : list ty -> res ty }.
Definition ty_at (i : nat) (ts : list ty) : res ty := match nth_error ts i with Some t => Ok t | None => Err ExIndex end.
Definition always (t : ty) (ts : list ty) : res ty := Ok t.
Definition list_of (i : nat) (ts : list ty) : res ty := t <- ty_at i ts ;; Ok (TList t).
Definition set_of (i : nat) (ts : list ty) : res ty := t <- ty_at i ts ;; Ok (TSet t).
Definition elem_of (i : nat) (ts : list ty) : res ty := t <- ty_at i ts ;; elem_type t.
(** synthesize_rosette.py:151-396, one row for each branch; 167-175, [list-append], is
    in [broken] below *)
Definition rules : list (string * rule) :=
  [ ("length", {| r_name := "list_length"; r_arity := 1; r_type := always TInt |}); (* 151 *)
    ("matrix-length", {| r_name := "matrix_length"; r_arity := 1; r_type := always TInt |}); (* 153 *)
    ("tensor3d-length", {| r_name := "tensor3d_length"; r_arity := 1; r_type := always TInt |}); (* 157 *)
    ("list-empty", {| r_name := "list_empty"; r_arity := 0; r_type := always (TList TInt) |}); (* 161 *)
    ("matrix-empty", {| r_name := "matrix_empty"; r_arity := 0; r_type := always (TList (TList TInt)) |}); (* 163 *)
    ("tensor3d-empty", {| r_name := "tensor3d_empty"; r_arity := 0; r_type := always (TList (TList (TList TInt))) |}); (* 165 *)
    ("matrix-append", {| r_name := "matrix_append"; r_arity := 2; r_type := ty_at 0 |}); (* 176 *)
    ("tensor3d-append", {| r_name := "tensor3d_append"; r_arity := 2; r_type := ty_at 0 |}); (* 185 *)
    ("list-prepend", {| r_name := "list_prepend"; r_arity := 2; r_type := list_of 0 |}); (* 194 *)
    ("matrix-prepend", {| r_name := "matrix_prepend"; r_arity := 2; r_type := ty_at 1 |}); (* 203 *)
    ("tensor3d-prepend", {| r_name := "tensor3d_prepend"; r_arity := 2; r_type := ty_at 1 |}); (* 212 *)
    ("list-ref-noerr", {| r_name := "list_get"; r_arity := 2; r_type := elem_of 0 |}); (* 221 *)
    ("matrix-ref-noerr", {| r_name := "matrix_get"; r_arity := 2; r_type := elem_of 0 |}); (* 229 *)
    ("tensor3d-ref-noerr", {| r_name := "tensor3d_get"; r_arity := 2; r_type := always (TMatrix TInt) |}); (* 237 *)
    ("list-tail-noerr", {| r_name := "list_tail"; r_arity := 2; r_type := ty_at 0 |}); (* 247 *)
    ("matrix-tail-noerr", {| r_name := "matrix_tail"; r_arity := 2; r_type := ty_at 0 |}); (* 255 *)
    ("tensor3d-tail-noerr", {| r_name := "tensor3d_tail"; r_arity := 2; r_type := ty_at 0 |}); (* 263 *)
    ("list-concat", {| r_name := "list_concat"; r_arity := 2; r_type := ty_at 0 |}); (* 271 *)
    ("list-take-noerr", {| r_name := "list_take"; r_arity := 2; r_type := ty_at 0 |}); (* 275 *)
    ("matrix-take-noerr", {| r_name := "matrix_take"; r_arity := 2; r_type := ty_at 0 |}); (* 283 *)
    ("tensor3d-take-noerr", {| r_name := "tensor3d_take"; r_arity := 2; r_type := ty_at 0 |}); (* 291 *)
    ("vec-slice-noerr", {| r_name := "vec_slice"; r_arity := 3; r_type := ty_at 0 |}); (* 299 *)
    ("matrix-row-slice-noerr", {| r_name := "matrix_row_slice"; r_arity := 3; r_type := ty_at 0 |}); (* 308 *)
    ("vec-slice-with-length-noerr", {| r_name := "vec_slice_with_length"; r_arity := 3; r_type := ty_at 0 |}); (* 317 *)
    ("matrix-row-slice-with-length-noerr", {| r_name := "matrix_row_slice_with_length"; r_arity := 3; r_type := ty_at 0 |}); (* 326 *)
    ("matrix-col-slice-noerr", {| r_name := "matrix_col_slice"; r_arity := 3; r_type := ty_at 0 |}); (* 335 *)
    ("matrix-col-slice-with-length-noerr", {| r_name := "matrix_col_slice_with_length"; r_arity := 3; r_type := ty_at 0 |}); (* 344 *)
    ("matrix-transpose-noerr", {| r_name := "matrix_transpose"; r_arity := 1; r_type := ty_at 0 |}); (* 353 *)
    ("integer-sqrt-noerr", {| r_name := "integer_sqrt"; r_arity := 1; r_type := always TInt |}); (* 356 *)
    ("integer-exp-noerr", {| r_name := "integer_exp"; r_arity := 1; r_type := always TInt |}); (* 359 *)
    ("set-create", {| r_name := "set-create"; r_arity := 0; r_type := always (TSet TInt) |}); (* 372 *)
    ("set-insert", {| r_name := "set-insert"; r_arity := 2; r_type := set_of 0 |}); (* 374 *)
    ("set-singleton", {| r_name := "set-singleton"; r_arity := 1; r_type := set_of 0 |}); (* 378 *)
    ("set-union", {| r_name := "set-union"; r_arity := 2; r_type := ty_at 0 |}); (* 385 *)
    ("set-minus", {| r_name := "set-minus"; r_arity := 2; r_type := ty_at 0 |}); (* 385 *)
    ("set-subset", {| r_name := "set-subset"; r_arity := 2; r_type := always TBool |}); (* 389 *)
    ("set-member", {| r_name := "set-member"; r_arity := 2; r_type := always TBool |}) ]. (* 393 *)
Definition find_rule (w : string) : option rule :=
  match find (fun p => String.eqb w (fst p)) rules with Some p => Some (snd p) | None => None end.

(** the element [i] of a list of results *)
Definition nth_res {A} (l : list (res A)) (i : nat) : res A := match nth_error l i with Some r => r | None => Err ExIndex end.
(** the first [n], which must all be there and be read *)
Fixpoint first_res {A} (n : nat) (l : list (res A)) : res (list A) :=
  match n with
  | O => Ok []
  | S n => match l with [] => Err ExIndex | r :: l => a <- r ;; rs <- first_res n l ;; Ok (a :: rs) end
  end.

Definition apply_rule (r : rule) (l : list (res expr)) : res expr :=
  es <- first_res (r_arity r) l ;; ts <- mapR type_of es ;; t <- r_type r ts ;; mkCall (Atom (PStr (r_name r))) t es.

(** the names whose branches end in an exception whatever the operands are: [toExpr]
    (173), [type.args] in [TupleGet] (368; ir.py:2782), [FnT] (411, 456, 467), [m.type.args]
    (417, 428), [MapT] (421, 423), [typeHint.args] (431) do not exist *)
Definition broken : list string :=
  ["list-append"; "tupleGet"; "map-union"; "map-values"; "map-singleton"; "map-create"; "map-get"; "lambda"; "reduce_int"; "reduce_bool"].

(** synthesize_rosette.py:94-525 [to_expr], without choices and without [Target]s.
    Exceptions of operands that a branch does not read are not raised. *)
Fixpoint to_expr (F V : dict ty) (s : sexp) {struct s} : res expr :=
  match s with
  | SA w => read_atom F V w
  | SL [] => Err ExIndex
  | SL (SL _ :: _) => Err ExTypes                      (* unhashable type: 'list' *)
  | SL (SA h :: l) =>
      let rs := map (to_expr F V) l in
      if String.eqb h "define" then nth_res rs 1                                        (* 118 *)
      else if String.eqb h "choose" then nth_res rs 0                                   (* 120 *)
      else match read_op h with
      | Some mk => es <- first_res (List.length rs) rs ;; mk es                         (* 123 *)
      | None =>
      if String.eqb h "!" then e <- nth_res rs 0 ;; mkNot [e]                           (* 130 *)
      else if String.eqb h "if" then                                                    (* 132 *)
        a <- nth_res rs 1 ;; b <- nth_res rs 2 ;; c <- nth_res rs 0 ;; mkIte [c; a; b]
      else if String.eqb h "=" || String.eqb h "set-eq" then                            (* 146, 381 *)
        a <- nth_res rs 0 ;; b <- nth_res rs 1 ;; mkEq [a; b]
      else match find_rule h with
      | Some r => apply_rule r rs
      | None =>
      if String.eqb h "make-tuple" then es <- first_res (List.length rs) rs ;; mkTupleExpr es    (* 362 *)
      else if smem h broken then Err ExAttr
      else if String.eqb h "let" then                                                   (* 440 *)
        match l with
        | SL (SL (SA x :: a :: _) :: _) :: rest =>
            va <- to_expr F V a ;; t <- type_of va ;;
            match rest with b :: _ => vb <- to_expr F (dset V x t) b ;; mkLet [mkVar x t; va; vb] | [] => Err ExIndex end
        | SL (SA w :: _) :: rest =>        (* ast[1][0] is a string: its first two characters *)
            match w with
            | String c1 (String c2 _) =>
                va <- read_atom F V (String c2 "") ;; t <- type_of va ;;
                match rest with b :: _ => vb <- to_expr F (dset V (String c1 "") t) b ;; mkLet [mkVar (String c1 "") t; va; vb] | [] => Err ExIndex end
            | _ => Err ExIndex
            end
        | _ => Err ExIndex
        end
      else match dget F h with                                                          (* 471 *)
      | Some tf => rt <- fn_return_type tf ;; es <- first_res (List.length rs) rs ;; mkCall (Atom (PStr h)) rt es
      | None => Err ExNYI                                                               (* 512 *)
      end end end
  end.

(** ** a definition in the output of Rosette *)

(** [r[r.find("("):]]; without a parenthesis [find] gives -1, the last character *)
Fixpoint from_paren (r : string) : option string :=
  match r with EmptyString => None | String c r' => if Ascii.eqb c "(" then Some r else from_paren r' end.
Fixpoint last_char (r : string) : string :=
  match r with EmptyString => "" | String c EmptyString => String c "" | String _ r => last_char r end.
(** synthesize_rosette.py:662-668 *)
Definition read_definition (F V : dict ty) (r : string) : res expr :=
  match generate_ast (match from_paren r with Some s => s | None => last_char r end) with
  | Some (d :: _) => to_expr F V d
  | Some [] => Err ExIndex
  | None => Err ExValue                   (* "Failed to parse Rosette output" *)
  end.
