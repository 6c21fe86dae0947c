(** The code generators for MLX, TensorFlow and PyTorch
    (tests/llvm/tenspiler/codegen/mlx_codegen.py, tensorflow_codegen.py,
    pytorch_codegen.py).  The three files have the same structure as numpy_codegen.py
    (NpModel.v); they are modelled by one function with the library as a parameter.  Line
    numbers: MLX / TensorFlow / PyTorch. *)

From Coq Require Import String Ascii List ZArith Bool.
From Verif Require Import Ast Dict SmtPrint PyText NpModel.
Import ListNotations.
Local Open Scope list_scope.
Local Open Scope string_scope.

(** the three files *)
Inductive lib : Type := MLX | TF | TORCH.
(** the name of the module in the texts: mlx_codegen.py:270 [import mlx.core as mx],
    tensorflow_codegen.py:275 [import tensorflow as tf], pytorch_codegen.py:304 [import torch] *)
Definition module (L : lib) : string := match L with MLX => "mx" | TF => "tf" | TORCH => "torch" end.

(** 50-119 / 50-123 / 51-140: the entries of [translations] for names of functions, on the
    texts of the arguments.  The infix notations (50-81 / 50-81 / 55-102) are those of
    numpy_codegen.py.  [is_list]: the second argument of the entries for [integer_sqrt] and
    [integer_exp].  [None]: no such entry.  A missing argument raises IndexError, further
    ones are ignored. *)
Definition l_call (L : lib) (floor is_list : bool) (f : string) (args : list string) : option (res string) :=
  let a i := match nth_error args i with Some s => Ok s | None => Err ExIndex end in
  match np_infix floor f with
  | Some (op, swap) =>
      Some (x <- a (if swap then 1 else 0) ;; y <- a (if swap then 0 else 1) ;; Ok ("(" ++ x ++ ")" ++ op ++ "(" ++ y ++ ")"))
  | None =>
      if String.eqb f "matrix_vec_mul" then                                                    (* 82 / 82 / 103 *)
        Some (x <- a 0 ;; y <- a 1 ;;
              Ok (match L with MLX => "mx.matmul(" | TF => "tf.linalg.matvec(" | TORCH => "torch.matmul(" end ++ x ++ ", " ++ y ++ ")"))
      else if String.eqb f "list_eq" then                                                      (* 83 / 83 / 104 *)
        Some (x <- a 0 ;; y <- a 1 ;;
              Ok (match L with
                  | MLX => "mx.equal(" ++ x ++ ", " ++ y ++ ")"
                  | TF => "tf.equal(" ++ x ++ ", " ++ y ++ ")"
                  | TORCH => "torch.all(torch.eq(" ++ x ++ ", " ++ y ++ "))"
                  end))
      else if String.eqb f "list_empty" then                                                   (* 84 / 84 / 105 *)
        Some (Ok (match L with MLX => "mx.zeros((0))" | TF => "tf.zeros([0], dtype=tf.float32)" | TORCH => "torch.empty(0)" end))
      else if String.eqb f "matrix_empty" then                                                 (* 85 / 85 / 106 *)
        Some (Ok (match L with MLX => "mx.zeros([0, 0])" | TF => "tf.zeros([0, 0], dtype=tf.float32)" | TORCH => "torch.empty(0, 0)" end))
      else if smem f ["list_get"; "matrix_get"] then Some (x <- a 0 ;; i <- a 1 ;; Ok (x ++ "[" ++ i ++ "]"))
      else if smem f ["list_append"; "matrix_append"] then                                     (* 88-89 / 88-89 / 109-110 *)
        Some (x <- a 0 ;; y <- a 1 ;;
              Ok (match L with
                  | MLX => "mx.concatenate([" ++ x ++ ", mx.expand_dims(" ++ y ++ ", axis=0)], axis=0)"
                  | TF => "tf.concat([" ++ x ++ ", tf.expand_dims(" ++ y ++ ", 0)], axis=0)"
                  | TORCH => "torch.cat([" ++ x ++ ", " ++ y ++ ".unsqueeze(0)], dim=0)"
                  end))
      else if smem f ["list_prepend"; match L with TF => "matrix_prepend" | _ => "matrix_prepand" end] then (* 90-91 / 90-91 / 111-112 *)
        Some (y <- a 1 ;;
              match L with
              | MLX => x <- a 0 ;; Ok ("mx.concatenate([mx.expand_dims(" ++ y ++ ", axis=0), " ++ x ++ "], axis=0)")
              | TF => x <- a 0 ;; Ok ("tf.concat([tf.expand_dims(" ++ y ++ ", 0), " ++ x ++ "], axis=0)")
              | TORCH => Err ExAttr                          (* [processed_args[1].unsqueeze(0)] of a Python string *)
              end)
      else if String.eqb f "list_concat" then                                                  (* 92 / 92 / 113 *)
        Some (x <- a 0 ;; y <- a 1 ;;
              Ok (match L with MLX => "mx.concatenate([" | TF => "tf.concat([" | TORCH => "torch.cat([" end ++ x ++ ", " ++ y ++ "], dim=0)"))
      else if String.eqb f "matrix_tail" then Some (x <- a 0 ;; i <- a 1 ;; Ok (x ++ "[" ++ i ++ ":]"))
      else if smem f ["list_tail"; "list_take"; "matrix_take"] then Some (x <- a 0 ;; i <- a 1 ;; Ok (x ++ "[:" ++ i ++ "]"))
      else if smem f ["vec_slice"; "matrix_row_slice"] then
        Some (x <- a 0 ;; i <- a 1 ;; j <- a 2 ;; Ok (x ++ "[" ++ i ++ ":" ++ j ++ "]"))
      else if smem f ["vec_slice_with_length"; "matrix_row_slice_with_length"] then
        Some (x <- a 0 ;; i <- a 1 ;; j <- a 2 ;; Ok (x ++ "[" ++ i ++ ":" ++ i ++ " + " ++ j ++ "]"))
      else if String.eqb f "matrix_col_slice" then
        Some (x <- a 0 ;; i <- a 1 ;; j <- a 2 ;; Ok (x ++ "[:, " ++ i ++ ":" ++ j ++ "]"))
      else if String.eqb f "matrix_col_slice_with_length" then
        Some (x <- a 0 ;; i <- a 1 ;; j <- a 2 ;; Ok (x ++ "[:, " ++ i ++ ":" ++ i ++ " + " ++ j ++ "]"))
      else if smem f ["list_length"; "matrix_length"] then                                     (* 103-104 / 103-108 / 124-125 *)
        Some (x <- a 0 ;;
              Ok (match L with
                  | MLX => x ++ ".size"
                  | TF => "tf.size(" ++ x ++ (if floor then ")" else ", tf.float32)")
                  | TORCH => x ++ ".size(dim=0)"
                  end))
      else if String.eqb f "matrix_transpose" then                                             (* 105 / 109 / 126 *)
        Some (x <- a 0 ;; Ok (module L ++ ".transpose(" ++ x ++ match L with TORCH => ", 0, 1)" | _ => ")" end))
      else if String.eqb f "reduce_max" then Some (x <- a 0 ;; Ok (module L ++ match L with TF => ".reduce_max(" | _ => ".max(" end ++ x ++ ")"))
      else if String.eqb f "reduce_sum" then Some (x <- a 0 ;; Ok (module L ++ match L with TF => ".reduce_sum(" | _ => ".sum(" end ++ x ++ ")"))
      else if String.eqb f "reduce_mul" then Some (x <- a 0 ;; Ok (module L ++ match L with TF => ".reduce_prod(" | _ => ".prod(" end ++ x ++ ")"))
      else if smem f ["integer_sqrt"; "integer_exp"] then                                      (* 109-114 / 113-118 / 130-131 *)
        let g := if String.eqb f "integer_sqrt" then ".sqrt(" else ".exp(" in
        Some (x <- a 0 ;;
              Ok (module L ++ g ++
                  match L, is_list with
                  | MLX, false => "mx.array(" ++ x ++ "))"
                  | TF, false => "tf.cast(" ++ x ++ ", tf.float32))"
                  | TORCH, _ => "torch.as_tensor(" ++ x ++ "))"
                  | _, true => x ++ ")"
                  end))
      else if String.eqb f "float_div" then Some (x <- a 0 ;; y <- a 1 ;; Ok ("(" ++ x ++ ") / (" ++ y ++ ")"))      (* 119 / 123 / 140 *)
      else None
  end.

(** 121-135 / 125-139 / 142-156: the operator on integers, the function on arrays *)
Definition l_rel (L : lib) (k : kind) : option (string * string) :=
  match k with
  | KEq => Some (" == ", module L ++ match L with TORCH => ".eq" | _ => ".equal" end)
  | KGt => Some (" > ", module L ++ ".greater") | KGe => Some (" >= ", module L ++ ".greater_equal")
  | KLt => Some (" < ", module L ++ ".less") | KLe => Some (" <= ", module L ++ ".less_equal")
  | _ => None
  end.

Section Helper.
  (** the library, [all_synthesized_fns] in the order of insertion, and [d_type] *)
  Variable L : lib.
  Variable fns : list (string * expr).
  Variable d : dtype.

  (** 155-265 / 157-268 / 176-297 [helper(expr, vars_to_replace)]: the text and its type;
      and whether a call of [matrix_vec_mul] was met (the variable [has_matmul] of
      mlx_codegen.py and pytorch_codegen.py, which is set and never reset).  [n] bounds the
      depth of the recursion (RecursionError in Python).  Simplified: for an expression of
      any other class (also [Choose], unlike numpy_codegen.py) Python returns [str(expr)]
      instead of a pair, of which the caller takes the first character; here it is an error. *)
  Fixpoint lhelper (n : nat) (e : expr) (vars : list (string * expr)) : res (string * option ty * bool) :=
    match n with
    | O => Err ExFuel
    | S n =>
        match e with
        | Atom a => Ok (str_atom a, None, false)
        | Node k t args =>
            match k with
            | KCall | KTargetCall =>
                match args with
                | Atom (PStr f) :: rest =>
                    ps <- mapR (fun a => lhelper n a vars) rest ;;                           (* 160-162 / 161-163 / 181-183 *)
                    let ss := map (fun x => fst (fst x)) ps in
                    let m0 := existsb snd ps || String.eqb f "matrix_vec_mul" in              (* 164-165 / - / 186-187 *)
                    if ends_with "matrix_selection_two_args" f then                          (* 166-186 / 165-185 / 189-216 *)
                      sel <- select_fn fns ;; body <- decl_body sel ;;
                      match body with
                      | Node KIte _ [c; a; b] =>
                          match decl_params sel, rest with
                          | p :: q :: _, ma :: mb :: _ =>
                              x <- name_of p ;; y <- name_of q ;;
                              let vs := dset (dset [] x ma) y mb in
                              tc <- lhelper n c vs ;; ta <- lhelper n a vs ;; tb <- lhelper n b vs ;;
                              let cond := match L, snd (fst tc) with
                                          | TORCH, Some TBool => "torch.tensor(" ++ fst (fst tc) ++ ")"          (* - / - / 211-212 *)
                                          | _, _ => fst (fst tc)
                                          end in
                              Ok (module L ++ ".where(" ++ cond ++ ", " ++ fst (fst ta) ++ ", " ++ fst (fst tb) ++ ")", Some t,
                                  m0 || snd tc || snd ta || snd tb)
                          | _, _ => Err ExIndex
                          end
                      | _ => Err ExAttr
                      end
                    else if smem f ["map_int_to_int"; "vec_map"] then                        (* 187-195 / 186-194 / 217-225 *)
                      match dget fns "map_int_to_int" with
                      | None => Err ExKey
                      | Some m =>
                          body <- decl_body m ;; g <- name_of body ;;
                          if smem g ["integer_sqrt"; "integer_exp"] then
                            match l_call L (negb (is_float d)) (String.eqb f "vec_map") g ss with
                            | Some s => x <- s ;; Ok (x, Some t, m0)
                            | None => Err ExKey
                            end
                          else Err ExValue
                      end
                    else match l_call L (negb (is_float d)) false f ss with                  (* 196-212 / 195-214 / 226-243 *)
                         | Some s => x <- s ;; Ok (x, Some t, m0)
                         | None => match dget fns f with
                                   | Some g => body <- decl_body g ;; r <- lhelper n body [] ;; Ok (fst r, m0 || snd r)
                                   | None => Err ExNYI
                                   end
                         end
                | _ => Err ExAttr
                end
            | KIte =>                                                                        (* 215-225 / 217-228 / 246-257 *)
                match args with
                | [c; a; b] =>
                    tc <- lhelper n c [] ;;
                    if String.eqb (fst (fst tc)) "True" then r <- lhelper n a vars ;; Ok (fst r, snd tc || snd r)
                    else if String.eqb (fst (fst tc)) "False" then r <- lhelper n b vars ;; Ok (fst r, snd tc || snd r)
                    else ta <- lhelper n a vars ;; tb <- lhelper n b vars ;; t' <- type_of a ;;
                         Ok (fst (fst ta) ++ " if " ++ fst (fst tc) ++ " else " ++ fst (fst tb), Some t', snd tc || snd ta || snd tb)
                | _ => Err ExIndex
                end
            | _ =>
                ps <- mapR (fun a => lhelper n a vars) args ;;                               (* 228-230 / 231-233 / 260-262 *)
                let ts := map (fun x => snd (fst x)) ps in
                let m0 := existsb snd ps in
                let arg i := match nth_error ps i with Some x => Ok (fst (fst x)) | None => Err ExIndex end in
                match np_arith (is_float d) k, l_rel L k with
                | Some op, _ =>                                                              (* 231-244 / 234-247 / 263-276 *)
                    rt <- np_ret ts ;; x <- arg 0 ;; y <- arg 1 ;; Ok ("(" ++ x ++ ")" ++ op ++ "(" ++ y ++ ")", Some rt, m0)
                | _, Some (op, f) =>                                                         (* 247-250 / 250-253 / 279-282 *)
                    x <- arg 0 ;; y <- arg 1 ;;
                    if forallb is_int ts then Ok (x ++ op ++ y, Some TBool, m0)
                    else Ok (f ++ "(" ++ x ++ ", " ++ y ++ ")", Some (TList TBool), m0)
                | None, None =>
                    let prim := forallb is_prim ts in                                        (* 251-256 / 254-259 / 283-288 *)
                    let rt := if prim then Some TBool else Some (TList TBool) in
                    match k with
                    | KNot => x <- arg 0 ;; Ok (if prim then "not " ++ x else module L ++ ".logical_not(" ++ x ++ ")", rt, m0)
                    | KAnd => x <- arg 0 ;; y <- arg 1 ;;
                              Ok (if prim then "(" ++ x ++ ") and (" ++ y ++ ")" else module L ++ ".logical_and(" ++ x ++ ", " ++ y ++ ")", rt, m0)
                    | KOr => x <- arg 0 ;; y <- arg 1 ;;
                             Ok (if prim then "(" ++ x ++ ") or (" ++ y ++ ")" else module L ++ ".logical_or(" ++ x ++ ", " ++ y ++ ")", rt, m0)
                    | KLit => match args with Atom a :: _ => Ok (str_atom a, Some t, m0) | _ => Err ExIndex end  (* 259-260 / 262-263 / 291-292 *)
                    | KVar | KNonTerm =>                                                     (* 261-264 / 264-267 / 293-296 *)
                        match args with
                        | Atom (PStr x) :: _ =>
                            match dget vars x with
                            | Some a => lhelper n a vars
                            | None => Ok (x, Some t, m0)
                            end
                        | _ => Err ExIndex
                        end
                    | _ => Err ExNYI                                                         (* 265 / 268 / 297 *)
                    end
                end
            end
        end
    end.

  (** 273-282 / 279-288 / 308-317: the function that computes, after [textwrap.dedent]; and
      [has_matmul] *)
  Definition space : string := match L with TF => "" | _ => " " end.
  Definition l_kernel (n : nat) (ps : expr) : res (string * bool) :=
    match ps with
    | Node (KFnDeclRec | KFnDecl | KTarget) _ (Atom (PStr f) :: body :: params) =>
        xs <- mapR name_of params ;;
        s <- lhelper n body [] ;;
        Ok (newline ++ "def " ++ (cut3 f ++ "_" ++ module L) ++ space ++ "(" ++ join ", " xs ++ "):" ++ newline ++
            "    return " ++ fst (fst s) ++ newline, snd s)
    | _ => Err ExAttr
    end.

  (** 288-300 / 296-307 / 325-340: the line that turns an argument into an array, for the
      arguments of type [Matrix[Int]] and [List[Int]] *)
  Definition l_dtype (matmul : bool) : string :=
    let f := match d with FLOAT => "float32" | INT32 => "int32" | UINT_8 => "uint8" end in
    module L ++ "." ++ match L with TF => f | _ => if matmul then "float32" else f end.
  Definition l_conversion (matmul : bool) (x : string) (t : ty) : list string :=
    match t with
    | TMatrix TInt | TList TInt =>
        [x ++ match L with
              | MLX => " = mx.array(" ++ x ++ ", " ++ l_dtype matmul ++ ")"
              | TF => " = tf.convert_to_tensor(" ++ x ++ ", dtype=" ++ l_dtype matmul ++ ")"
              | TORCH => " = torch.tensor(" ++ x ++ ", dtype=" ++ l_dtype matmul ++ ")"
              end]
    | _ => []
    end.
  (** 284-307 / 291-315 / 320-348: the function that is called with lists.  Without
      conversions there is an empty line in their place. *)
  Definition l_glued (matmul : bool) (ps : expr) : res string :=
    match ps with
    | Node (KFnDeclRec | KFnDecl | KTarget) _ (Atom (PStr f) :: _ :: params) =>
        xs <- mapR name_of params ;;
        convs <- mapR (fun p => x <- name_of p ;; t <- type_of p ;; Ok (l_conversion matmul x t)) params ;;
        let lines := concat convs in
        Ok (newline ++ "def " ++ (cut3 f ++ "_" ++ module L ++ "_glued") ++ space ++ "(" ++ join ", " xs ++ "):" ++ newline ++
            (match lines with [] => "" | _ => "    " ++ join (newline ++ "    ") lines end) ++ newline ++
            "    return " ++ (cut3 f ++ "_" ++ module L) ++ "(" ++ join ", " xs ++ ")" ++ newline)
    | _ => Err ExAttr
    end.

  (** 273-309 / 279-318 / 308-351: the two functions, without the import statement *)
  Definition l_program (n : nat) (ps : expr) : res (string * string) :=
    k <- l_kernel n ps ;; g <- l_glued (snd k) ps ;; Ok (fst k, g).
End Helper.
