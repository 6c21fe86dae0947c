(** The NumPy code generator (tests/llvm/tenspiler/codegen/numpy_codegen.py). *)

From Coq Require Import String Ascii List ZArith Bool.
From Verif Require Import Ast Dict SmtPrint PyText.
Import ListNotations.
Local Open Scope list_scope.
Local Open Scope string_scope.

(** codegen/utils.py:10-14 [DataType] *)
Inductive dtype : Type := FLOAT | UINT_8 | INT32.
Definition is_float (d : dtype) : bool := match d with FLOAT => true | _ => false end.

(** Python's [s.endswith(suffix)] *)
Fixpoint ends_with (suffix s : string) : bool :=
  String.eqb s suffix || match s with EmptyString => false | String _ r => ends_with suffix r end.

(** numpy_codegen.py:51-83: the infix notations.  The operator, and whether the operands
    change places.  (The names are those of tenspiler_common.py:31-60.) *)
Definition np_infix (floor : bool) (f : string) : option (string * bool) :=
  let div := if floor then " // " else " / " in
  if smem f ["vec_elemwise_add"; "matrix_elemwise_add"; "vec_scalar_add"; "matrix_scalar_add"] then Some (" + ", false)
  else if smem f ["vec_elemwise_sub"; "matrix_elemwise_sub"; "scalar_vec_sub"; "scalar_matrix_sub"] then Some (" - ", false)
  else if smem f ["vec_scalar_sub"; "matrix_scalar_sub"] then Some (" - ", true)
  else if smem f ["vec_elemwise_mul"; "matrix_elemwise_mul"; "vec_scalar_mul"; "matrix_scalar_mul"] then Some (" * ", false)
  else if smem f ["vec_elemwise_div"; "matrix_elemwise_div"; "scalar_vec_div"; "scalar_matrix_div"] then Some (div, false)
  else if smem f ["vec_scalar_div"; "matrix_scalar_div"] then Some (div, true)
  else None.

(** numpy_codegen.py:50-112: the entries of [translations] for names of functions, on the
    texts of the arguments.  [None]: no such entry.  A missing argument raises
    IndexError, further ones are ignored. *)
Definition np_call (floor : bool) (f : string) (args : list string) : option (res string) :=
  let a i := match nth_error args i with Some s => Ok s | None => Err ExIndex end in
  match np_infix floor f with
  | Some (op, swap) =>
      Some (x <- a (if swap then 1 else 0) ;; y <- a (if swap then 0 else 1) ;; Ok ("(" ++ x ++ ")" ++ op ++ "(" ++ y ++ ")"))
  | None =>
      if String.eqb f "matrix_vec_mul" then Some (x <- a 0 ;; y <- a 1 ;; Ok ("np.matmul(" ++ x ++ ", " ++ y ++ ")"))
      else if String.eqb f "list_eq" then Some (x <- a 0 ;; y <- a 1 ;; Ok ("np.equal(" ++ x ++ ", " ++ y ++ ")"))
      else if String.eqb f "list_empty" then Some (Ok "np.empty((0))")
      else if String.eqb f "matrix_empty" then Some (Ok "np.empty((0, 0))")
      else if smem f ["list_get"; "matrix_get"] then Some (x <- a 0 ;; i <- a 1 ;; Ok (x ++ "[" ++ i ++ "]"))
      else if smem f ["list_append"; "matrix_append"] then
        Some (x <- a 0 ;; y <- a 1 ;; Ok ("np.concatenate([" ++ x ++ ", np.expand_dims(" ++ y ++ ", axis=0)], axis=0)"))
      else if smem f ["list_prepend"; "matrix_prepand"] then       (* spelt like this *)
        Some (y <- a 1 ;; x <- a 0 ;; Ok ("np.concatenate([np.expand_dims(" ++ y ++ ", axis=0), " ++ x ++ "], axis=0)"))
      else if String.eqb f "list_concat" then
        Some (x <- a 0 ;; y <- a 1 ;; Ok ("np.concatenate([" ++ x ++ ", " ++ y ++ "], dim=0)"))
      else if String.eqb f "matrix_tail" then Some (x <- a 0 ;; i <- a 1 ;; Ok (x ++ "[" ++ i ++ ":]"))
      else if smem f ["list_tail"; "list_take"; "matrix_take"] then Some (x <- a 0 ;; i <- a 1 ;; Ok (x ++ "[:" ++ i ++ "]"))
      else if smem f ["vec_slice"; "matrix_row_slice"] then
        Some (x <- a 0 ;; i <- a 1 ;; j <- a 2 ;; Ok (x ++ "[" ++ i ++ ":" ++ j ++ "]"))
      else if smem f ["vec_slice_with_length"; "matrix_row_slice_with_length"] then
        Some (x <- a 0 ;; i <- a 1 ;; j <- a 2 ;; Ok (x ++ "[" ++ i ++ ":" ++ i ++ " + " ++ j ++ "]"))
      else if String.eqb f "matrix_col_slice" then
        Some (x <- a 0 ;; i <- a 1 ;; j <- a 2 ;; Ok (x ++ "[:, " ++ i ++ ":" ++ j ++ "]"))
      else if String.eqb f "matrix_col_slice_with_length" then
        Some (x <- a 0 ;; i <- a 1 ;; j <- a 2 ;; Ok (x ++ "[:, " ++ i ++ ":" ++ i ++ " + " ++ j ++ "]"))
      else if smem f ["list_length"; "matrix_length"] then Some (x <- a 0 ;; Ok (x ++ ".size"))
      else if String.eqb f "matrix_transpose" then Some (x <- a 0 ;; Ok ("np.transpose(" ++ x ++ ")"))
      else if String.eqb f "reduce_max" then Some (x <- a 0 ;; Ok ("np.max(" ++ x ++ ")"))
      else if String.eqb f "reduce_sum" then Some (x <- a 0 ;; Ok ("np.sum(" ++ x ++ ")"))
      else if String.eqb f "reduce_mul" then Some (x <- a 0 ;; Ok ("np.prod(" ++ x ++ ")"))
      else if String.eqb f "integer_sqrt" then Some (x <- a 0 ;; Ok ("np.sqrt(" ++ x ++ ")"))
      else if String.eqb f "integer_exp" then Some (x <- a 0 ;; Ok ("np.exp(" ++ x ++ ")"))
      else if String.eqb f "float_div" then Some (x <- a 0 ;; y <- a 1 ;; Ok ("(" ++ x ++ ") / (" ++ y ++ ")"))      (* 117 *)
      else None
  end.

(** numpy_codegen.py:113-118: the operators on integers; [float_div] instead of [Div] for
    FLOAT (242-243) *)
Definition np_arith (flt : bool) (k : kind) : option string :=
  match k with
  | KAdd => Some " + " | KSub => Some " - " | KMul => Some " * " | KMod => Some " % "
  | KDiv => Some (if flt then " / " else " // ")
  | _ => None
  end.
(** 119-133: the operator on integers, the function on arrays *)
Definition np_rel (k : kind) : option (string * string) :=
  match k with
  | KEq => Some (" == ", "np.equal") | KGt => Some (" > ", "np.greater") | KGe => Some (" >= ", "np.greater_equal")
  | KLt => Some (" < ", "np.less") | KLe => Some (" <= ", "np.less_equal")
  | _ => None
  end.

(** a type as [helper] returns it; Python's [None] for plain objects *)
Definition is_int (t : option ty) : bool := match t with Some TInt => true | _ => false end.
Definition is_prim (t : option ty) : bool := match t with Some TInt | Some TBool => true | _ => false end.
(** 232-241: the type of an arithmetic operation; IndexError if there are plain objects
    and otherwise only integers *)
Definition np_ret (ts : list (option ty)) : res ty :=
  if forallb is_int ts then Ok TInt
  else match filter (fun t => negb (is_int t) && match t with None => false | _ => true end) ts with
       | Some t :: _ => Ok t
       | _ => Err ExIndex
       end.

(** [fn.body()] and [fn.arguments()] of a function declaration (ir.py:3035-3041,
    3180-3186) *)
Definition decl_body (d : expr) : res expr :=
  match d with Node (KFnDeclRec | KFnDecl | KTarget) _ (_ :: b :: _) => Ok b | _ => Err ExAttr end.
Definition decl_params (d : expr) : list expr :=
  match d with Node (KFnDeclRec | KFnDecl | KTarget) _ (_ :: _ :: ps) => ps | _ => [] end.
(** [e.name()] of a variable or of a call *)
Definition name_of (e : expr) : res string :=
  match e with
  | Node (KVar | KNonTerm | KCall | KTargetCall) _ (Atom (PStr x) :: _) => Ok x
  | _ => Err ExAttr
  end.

Section Helper.
  (** [all_synthesized_fns], in the order of insertion, and [d_type] *)
  Variable fns : list (string * expr).
  Variable d : dtype.

  (** numpy_codegen.py:165-169: the last function whose name ends like this.  Python has
      UnboundLocalError if there is none. *)
  Definition select_fn : res expr :=
    match filter (fun x => ends_with "select_two_args" (fst x)) (rev fns) with
    | x :: _ => Ok (snd x)
    | [] => Err ExKey
    end.

  (** numpy_codegen.py:151-266 [helper(expr, vars_to_replace)]: the text and its type.
      [n] bounds the depth of the recursion (RecursionError in Python).  Simplified: for an
      expression of any other class Python returns [str(expr)] instead of a pair (266), of
      which the caller takes the first character; here it is an error. *)
  Fixpoint helper (n : nat) (e : expr) (vars : list (string * expr)) : res (string * option ty) :=
    match n with
    | O => Err ExFuel
    | S n =>
        match e with
        | Atom a => Ok (str_atom a, None)                                                  (* 152-153 *)
        | Node k t args =>
            match k with
            | KChoose => match args with [a] => helper n a vars | _ => Err ExValue end       (* 154-158 *)
            | KCall | KTargetCall =>
                match args with
                | Atom (PStr f) :: rest =>
                    ss <- mapR (fun a => x <- helper n a vars ;; Ok (fst x)) rest ;;         (* 160-162 *)
                    if ends_with "matrix_selection_two_args" f then                         (* 164-184 *)
                      sel <- select_fn ;; body <- decl_body sel ;;
                      match body with
                      | Node KIte _ [c; a; b] =>
                          match decl_params sel, rest with
                          | p :: q :: _, ma :: mb :: _ =>
                              x <- name_of p ;; y <- name_of q ;;
                              let vs := dset (dset [] x ma) y mb in
                              tc <- helper n c vs ;; ta <- helper n a vs ;; tb <- helper n b vs ;;
                              Ok ("np.where(" ++ fst tc ++ ", " ++ fst ta ++ ", " ++ fst tb ++ ")", Some t)
                          | _, _ => Err ExIndex
                          end
                      | _ => Err ExAttr
                      end
                    else if smem f ["map_int_to_int"; "vec_map"] then                        (* 185-193 *)
                      match dget fns "map_int_to_int" with
                      | None => Err ExKey
                      | Some m =>
                          body <- decl_body m ;; g <- name_of body ;;
                          if smem g ["integer_sqrt"; "integer_exp"] then
                            match np_call (negb (is_float d)) g ss with
                            | Some s => x <- s ;; Ok (x, Some t)
                            | None => Err ExKey
                            end
                          else Err ExValue
                      end
                    else match np_call (negb (is_float d)) f ss with                         (* 194-207 *)
                         | Some s => x <- s ;; Ok (x, Some t)
                         | None => match dget fns f with
                                   | Some g => body <- decl_body g ;; helper n body []       (* 208-209 *)
                                   | None => Err ExNYI                                       (* 211 *)
                                   end
                         end
                | _ => Err ExAttr
                end
            | KIte =>                                                                        (* 213-225 *)
                match args with
                | [c; a; b] =>
                    tc <- helper n c [] ;;
                    if String.eqb (fst tc) "True" then helper n a vars
                    else if String.eqb (fst tc) "False" then helper n b vars
                    else ta <- helper n a vars ;; tb <- helper n b vars ;; t' <- type_of a ;;
                         Ok (fst ta ++ " if " ++ fst tc ++ " else " ++ fst tb, Some t')
                | _ => Err ExIndex
                end
            | _ =>
                ps <- mapR (fun a => helper n a vars) args ;;                                (* 228-230 *)
                let ts := map snd ps in
                let arg i := match nth_error ps i with Some x => Ok (fst x) | None => Err ExIndex end in
                match np_arith (is_float d) k, np_rel k with
                | Some op, _ =>                                                              (* 231-244 *)
                    rt <- np_ret ts ;; x <- arg 0 ;; y <- arg 1 ;; Ok ("(" ++ x ++ ")" ++ op ++ "(" ++ y ++ ")", Some rt)
                | _, Some (op, f) =>                                                         (* 247-250 *)
                    x <- arg 0 ;; y <- arg 1 ;;
                    if forallb is_int ts then Ok (x ++ op ++ y, Some TBool)
                    else Ok (f ++ "(" ++ x ++ ", " ++ y ++ ")", Some (TList TBool))
                | None, None =>
                    let prim := forallb is_prim ts in                                        (* 251-256, 134-142 *)
                    let rt := if prim then Some TBool else Some (TList TBool) in
                    match k with
                    | KNot => x <- arg 0 ;; Ok (if prim then "not " ++ x else "np.logical_not(" ++ x ++ ")", rt)
                    | KAnd => x <- arg 0 ;; y <- arg 1 ;;
                              Ok (if prim then "(" ++ x ++ ") and (" ++ y ++ ")" else "np.logical_and(" ++ x ++ ", " ++ y ++ ")", rt)
                    | KOr => x <- arg 0 ;; y <- arg 1 ;;
                             Ok (if prim then "(" ++ x ++ ") or (" ++ y ++ ")" else "np.logical_or(" ++ x ++ ", " ++ y ++ ")", rt)
                    | KLit => match args with Atom a :: _ => Ok (str_atom a, Some t) | _ => Err ExIndex end      (* 259-260 *)
                    | KVar | KNonTerm =>                                                     (* 261-264 *)
                        match args with
                        | Atom (PStr x) :: _ =>
                            match dget vars x with
                            | Some a => helper n a vars
                            | None => Ok (x, Some t)
                            end
                        | _ => Err ExIndex
                        end
                    | _ => Err ExNYI                                                         (* 266 *)
                    end
                end
            end
        end
    end.

  (** the name without its last three characters ([ps_fn_decl.name()[:-3]], 277) *)
  Definition cut3 (s : string) : string := substring 0 (String.length s - 3) s.

  (** numpy_codegen.py:277-288: the function that computes, after [textwrap.dedent] *)
  Definition np_kernel (n : nat) (ps : expr) : res string :=
    match ps with
    | Node (KFnDeclRec | KFnDecl | KTarget) _ (Atom (PStr f) :: body :: params) =>
        xs <- mapR name_of params ;;
        s <- helper n body [] ;;
        Ok (newline ++ "def " ++ cut3 f ++ "_np (" ++ join ", " xs ++ "):" ++ newline ++ "    return " ++ fst s ++ newline)
    | _ => Err ExAttr
    end.

  (** 294-307: the line that turns an argument into an array, for the arguments of type
      [Matrix[Int]] and [List[Int]] *)
  Definition np_dtype : string := match d with FLOAT => "np.float32" | INT32 => "np.int32" | UINT_8 => "np.uint8" end.
  Definition np_conversion (x : string) (t : ty) : list string :=
    match t with
    | TMatrix TInt | TList TInt => [x ++ " = np.array(" ++ x ++ ").astype(" ++ np_dtype ++ ")"]
    | _ => []
    end.
  (** 290-315: the function that is called with lists.  Without conversions there is an
      empty line in their place. *)
  Definition np_glued (ps : expr) : res string :=
    match ps with
    | Node (KFnDeclRec | KFnDecl | KTarget) _ (Atom (PStr f) :: _ :: params) =>
        xs <- mapR name_of params ;;
        convs <- mapR (fun p => x <- name_of p ;; t <- type_of p ;; Ok (np_conversion x t)) params ;;
        let lines := concat convs in
        Ok (newline ++ "def " ++ cut3 f ++ "_np_glued (" ++ join ", " xs ++ "):" ++ newline ++
            (match lines with [] => "" | _ => "    " ++ join (newline ++ "    ") lines end) ++ newline ++
            "    return " ++ cut3 f ++ "_np(" ++ join ", " xs ++ ")" ++ newline)
    | _ => Err ExAttr
    end.
End Helper.
