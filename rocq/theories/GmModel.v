(** The code generator for the Gemmini accelerator
    (tests/llvm/tenspiler/codegen/gemmini_codegen.py): from the body of a summary to the C
    statements of the kernel, and the parameters of the kernel. *)

From Coq Require Import String Ascii List ZArith Bool.
From Verif Require Import Ast Dict SmtPrint NpModel.
Import ListNotations.
Local Open Scope list_scope.
Local Open Scope string_scope.

(** The statements that the templates of [translations] (gemmini_codegen.py:49-84) make.
    Simplified: the code has their text; here their parts, which are the texts that the
    templates are filled with.  Line breaks and indentation are left out. *)
Inductive stm : Type :=
| SDecl (x : string)                       (* 193: static elem_t x[LEN][LEN]; *)
| SResadd (r c sa sb a b out : string)     (* 50: tiled_resadd_auto(r, c, sa, sb, 1, a[0], b[0], out[0], false, WS); *)
| SFor1 (hi out rhs : string)              (* 52: for (int i = 0; i < hi; i++) { out[i][0] = rhs; } *)
| SFor2 (lo hi lo2 hi2 out rhs : string)   (* 53: the same with j from lo2 to hi2: out[i][j] = rhs; *)
| SScale (x s : string)                    (* 62: GEMMINI_ACC_SCALE(x, s); *)
| SCopy (dst src : string)                 (* 280: memcpy(dst, src, sizeof(elem_t) * LEN * LEN); *)
| SMatmul (a b out : string)               (* 70: tiled_matmul_auto(LEN, LEN, 1, a, b, NULL, out, 1, LEN, LEN, LEN, ...); *)
| SAverage (a out n : string)              (* 71: tiled_global_average(a[0], out, 1, 1, n, 1); *)
| STimes (out : string)                    (* 309, 311: out = out * LEN * LEN; or with *out *)
| SIf (c : string) (a b : list stm)        (* 371-377: if (c) { a } else { b } *)
| SExp (s : string).                       (* a text that is no statement where a statement is expected *)

(** 148: what [helper] returns as text: an expression or statements *)
Inductive piece : Type := PcExp (s : string) | PcStms (l : list stm).
(** 207: the text where it is used as an operand.  Simplified: of statements, which make no sense
    there, it is [?]; like their text this is never a key of [var_dimensions] *)
Definition text_of (p : piece) : string := match p with PcExp s => s | PcStms _ => "?" end.
(** 203: where it is used as a part of the statements *)
Definition stms_of (p : piece) : list stm := match p with PcExp s => [SExp s] | PcStms l => l end.

(** [temp_var_count] (141) and [var_dimensions] (449): the dimensions of variables *)
Definition dims : Type := list (string * (string * string)).
Definition gstate : Type := (nat * dims)%type.
(** [var_dimensions[x]] (212), and the assignment (211) *)
Definition dim (s : gstate) (x : string) : res (string * string) :=
  match dget (snd s) x with Some d => Ok d | None => Err ExKey end.
Definition set_dim (s : gstate) (x : string) (d : string * string) : gstate := (fst s, dset (snd s) x d).
(** 185 *)
Definition temp (n : nat) : string := "temp" ++ string_of_nat n.
(** [processed_args[i]] (50-83) *)
Definition nth_arg (l : list string) (i : nat) : res string := match nth_error l i with Some a => Ok a | None => Err ExIndex end.

(** [Matrix[Int]] or [mlList[Int]] (90, 192) *)
Definition is_array (t : ty) : bool := match t with TMatrix TInt | TList TInt => true | _ => false end.

(** 89-100 [gemmini_type_helper]: the dimensions of a variable of the type *)
Definition type_dims (t : ty) : res (string * string) :=
  if is_array t then Ok ("LEN", "LEN") else match t with TInt | TBool => Ok ("1", "1") | _ => Err ExNYI end.

(** [isinstance(e, Call)], [isinstance(e, Ite)] (184) *)
Definition is_call (e : expr) : bool := match e with Node (KCall | KTargetCall) _ _ => true | _ => false end.
Definition is_ite (e : expr) : bool := match e with Node KIte _ _ => true | _ => false end.
(** [e.name() == VEC_SCALAR_MUL] of a call (163-164): the arguments of the call *)
Definition scaled_args (e : expr) : option (list expr) :=
  match e with
  | Node (KCall | KTargetCall) _ (Atom (PStr f) :: rest) => if String.eqb f "vec_scalar_mul" then Some rest else None
  | _ => None
  end.

(** 79-83, the operators that [translations] has *)
Definition gm_op (k : kind) : option string :=
  match k with KAdd => Some " + " | KSub => Some " - " | KMul => Some " * " | KDiv => Some " / " | KMod => Some " % " | _ => None end.

(** 210-350: the statements of a call whose arguments have been processed; the dimensions of
    the variable for the result are recorded first.  [None]: no such function. *)
Definition call_stms (f cur : string) (ps : list string) (s : gstate) : option (res (gstate * piece)) :=
  let one i (k : string * string -> string -> string -> res (list stm)) :=
    (* dimensions of argument [i]; the first two arguments *)
    p <- nth_arg ps i ;; d <- dim s p ;; a <- nth_arg ps 0 ;; b <- nth_arg ps 1 ;; l <- k d a b ;; Ok (set_dim s cur d, PcStms l) in
  let vec rhs := fun d a b => Ok [SFor1 (fst d) cur (rhs a b)] in
  let mat rhs := fun d a b => Ok [SFor2 "0" (fst d) "0" (snd d) cur (rhs a b)] in
  let scale div (d : string * string) (a b : string) :=
    Ok (SScale b (if div : bool then "1 / (float)" ++ a else a) :: if String.eqb b cur then [] else [SCopy b cur]) in
  if smem f ["vec_elemwise_add"; "matrix_elemwise_add"] then                                 (* 210-219 *)
    Some (one 0 (fun d a b => Ok [SResadd (fst d) (snd d) "1" "1" a b cur]))
  else if smem f ["vec_elemwise_sub"; "matrix_elemwise_sub"] then                            (* 220-229 *)
    Some (one 0 (fun d a b => Ok [SResadd (fst d) (snd d) "1" "-1" a b cur]))
  else if String.eqb f "vec_elemwise_mul" then Some (one 0 (vec (fun a b => a ++ "[i][0] * " ++ b ++ "[i][0]")))          (* 230-239 *)
  else if String.eqb f "matrix_elemwise_mul" then Some (one 0 (mat (fun a b => a ++ "[i][j] * " ++ b ++ "[i][j]")))
  else if String.eqb f "vec_elemwise_div" then Some (one 0 (vec (fun a b => a ++ "[i][0] / (float)" ++ b ++ "[i][0]")))   (* 240-249 *)
  else if String.eqb f "matrix_elemwise_div" then Some (one 0 (mat (fun a b => a ++ "[i][j] / (float)" ++ b ++ "[i][j]")))
  else if String.eqb f "vec_scalar_add" then Some (one 1 (vec (fun a b => a ++ "[i][0] + " ++ b)))                        (* 250-264 *)
  else if String.eqb f "matrix_scalar_add" then Some (one 1 (mat (fun a b => a ++ "[i][j] + " ++ b)))
  else if String.eqb f "vec_scalar_sub" then Some (one 1 (vec (fun a b => b ++ "[i][0] - " ++ a)))
  else if String.eqb f "matrix_scalar_sub" then Some (one 1 (mat (fun a b => b ++ "[i][j] - " ++ a)))
  else if smem f ["vec_scalar_mul"; "matrix_scalar_mul"] then Some (one 1 (scale false))                                  (* 265-282 *)
  else if smem f ["vec_scalar_div"; "matrix_scalar_div"] then Some (one 1 (scale true))
  else if String.eqb f "scalar_vec_sub" then Some (one 1 (vec (fun a b => a ++ " - " ++ b ++ "[i][0]")))                  (* 283-297 *)
  else if String.eqb f "scalar_matrix_sub" then Some (one 1 (mat (fun a b => a ++ " - " ++ b ++ "[i][j]")))
  else if String.eqb f "scalar_vec_div" then Some (one 1 (vec (fun a b => a ++ " / (float) " ++ b ++ "[i][0]")))
  else if String.eqb f "scalar_matrix_div" then Some (one 1 (mat (fun a b => a ++ " / (float)" ++ b ++ "[i][j]")))
  else if String.eqb f "matrix_vec_mul" then                                                                              (* 299-305 *)
    Some (a <- nth_arg ps 0 ;; da <- dim s a ;; b <- nth_arg ps 1 ;; db <- dim s b ;;
          Ok (set_dim s cur (fst da, snd db), PcStms [SMatmul a b cur]))
  else if String.eqb f "reduce_sum" then                                                                                  (* 306-312 *)
    Some (a <- nth_arg ps 0 ;; d <- dim s cur ;; Ok (s, PcStms [SAverage a cur (fst d); STimes cur]))
  else if String.eqb f "list_take" then                                                                                   (* 314-316 *)
    Some (b <- nth_arg ps 1 ;; a <- nth_arg ps 0 ;; Ok (set_dim s cur (b, b), PcStms [SFor1 b cur (a ++ "[i][0]")]))
  else if String.eqb f "matrix_take" then                                                                                 (* 317-323 *)
    Some (one 0 (fun d a b => Ok [SFor2 "0" b "0" (snd d) cur (a ++ "[i][j]")]))
  else if String.eqb f "matrix_col_slice" then                                                                            (* 324-330 *)
    Some (one 0 (fun d a b => c <- nth_arg ps 2 ;; Ok [SFor2 "0" (fst d) b c cur (a ++ "[i][j]")]))
  else if String.eqb f "matrix_row_slice" then                                                                            (* 331-337 *)
    Some (one 0 (fun d a b => c <- nth_arg ps 2 ;; Ok [SFor2 b c "0" (snd d) cur (a ++ "[i][j]")]))
  else if String.eqb f "list_length" then Some (a <- nth_arg ps 0 ;; d <- dim s a ;; Ok (s, PcExp (fst d)))               (* 338-343 *)
  else if String.eqb f "matrix_length" then Some (a <- nth_arg ps 0 ;; d <- dim s a ;; Err ExTypes)    (* the product of two strings *)
  else if String.eqb f "matrix_transpose" then                                                                            (* 344-350 *)
    Some (a <- nth_arg ps 0 ;; d <- dim s a ;; Ok (set_dim s cur d, PcStms [SFor2 "0" (fst d) "0" (fst d) cur (a ++ "[j][i]")]))
  else None.

Section Helper.
  (** [all_synthesized_fns] and [d_type] (136-140) *)
  Variable fns : list (string * expr).
  Variable d : dtype.

  Section Step.
    (** the recursive call of [helper]: expression, [curr_var], state *)
    Variable rec : expr -> string -> gstate -> res (gstate * piece * option ty).

    (** texts and types of operands, from left to right (166-173, 382-386) *)
    Fixpoint operands (l : list expr) (s : gstate) : res (gstate * list (string * option ty)) :=
      match l with
      | [] => Ok (s, [])
      | a :: l => r <- rec a "" s ;; q <- operands l (fst (fst r)) ;; Ok (fst q, (text_of (snd (fst r)), snd r) :: snd q)
      end.

    (** 183-208: the arguments of a call: statements that compute them in temporary
        variables, and their texts.  Results of type [Int] or [Bool] are dropped. *)
    Fixpoint process_args (l : list expr) (s : gstate) : res (gstate * (list stm * list string)) :=
      match l with
      | [] => Ok (s, ([], []))
      | a :: l =>
          if is_call a || is_ite a then
            let x := temp (fst s) in
            r <- rec a x (S (fst s), snd s) ;;
            match snd r with
            | Some t =>
                if is_array t
                then q <- process_args l (fst (fst r)) ;;
                     Ok (fst q, ((SDecl x :: stms_of (snd (fst r)) ++ fst (snd q)), x :: snd (snd q)))
                else match t with TInt | TBool => process_args l (fst (fst r)) | _ => Err ExNYI end
            | None => Err ExNYI
            end
          else r <- rec a "" s ;; q <- process_args l (fst (fst r)) ;; Ok (fst q, (fst (snd q), text_of (snd (fst r)) :: snd (snd q)))
      end.

    (** 153-359: a call *)
    Definition call_step (f : string) (t : ty) (rest : list expr) (cur : string) (s : gstate) : res (gstate * piece * option ty) :=
      let general :=
        p <- process_args rest s ;;
        match call_stms f cur (snd (snd p)) (fst p) with
        | Some r =>
            q <- r ;;
            Ok (fst q, match snd q, fst (snd p) with PcExp x, [] => PcExp x | x, l => PcStms (l ++ stms_of x) end, Some t)
        | None => match dget fns f with Some g => b <- decl_body g ;; rec b cur (fst p) | None => Err ExNYI end
        end in
      if smem f ["vec_elemwise_add"; "matrix_elemwise_add"] then
        match rest with
        | a :: b :: _ =>
            match scaled_args a, scaled_args b with
            | Some u, Some v =>                                                              (* 158-181 *)
                p <- operands u s ;; q <- operands v (fst p) ;;
                let us := map fst (snd p) in
                let vs := map fst (snd q) in
                x <- nth_arg us 1 ;; d <- dim (fst q) x ;;
                sa <- nth_arg us 0 ;; sb <- nth_arg vs 0 ;; y <- nth_arg vs 1 ;;
                Ok (set_dim (fst q) cur d, PcStms [SResadd (fst d) (snd d) sa sb x y cur], Some t)
            | _, _ => general
            end
        | [a] => if is_call a then Err ExIndex else general
        | [] => Err ExIndex
        end
      else general.

    (** 143-428 [helper].  Simplified: [vars_to_replace] is always empty; the condition of a
        selection is translated with the dictionary of dimensions that is the default of the
        parameter, here always empty; for an expression of any other class Python returns
        [str(expr)] (428), of which the caller takes characters, here it is an error. *)
    Definition helper_step (e : expr) (cur : string) (s : gstate) : res (gstate * piece * option ty) :=
      match e with
      | Atom a => Ok (s, PcExp (str_atom a), None)                                           (* 151-152 *)
      | Node k t args =>
          match k with
          | KCall | KTargetCall => match args with Atom (PStr f) :: rest => call_step f t rest cur s | _ => Err ExAttr end
          | KIte =>                                                                          (* 362-379 *)
              match args with
              | [c; a; b] =>
                  r <- rec c "" (fst s, []) ;;
                  let s := (fst (fst (fst r)), snd s) in
                  let ct := text_of (snd (fst r)) in
                  if String.eqb ct "True" then rec a cur s
                  else if String.eqb ct "False" then rec b cur s
                  else x <- rec a cur s ;; y <- rec b cur (fst (fst x)) ;;
                       ta <- type_of a ;;
                       Ok (fst (fst y), PcStms [SIf ct (stms_of (snd (fst x))) (stms_of (snd (fst y)))], Some ta)
              | _ => Err ExIndex
              end
          | _ =>
              q <- operands args s ;;
              let ts := map snd (snd q) in
              let ps := map fst (snd q) in
              match gm_op k with
              | Some op =>                                                                   (* 387-402 *)
                  rt <- np_ret ts ;;
                  if negb (ty_eqb rt TInt) then Err ExNYI
                  else if match k with KDiv => negb (is_float d) | _ => false end then Err ExKey
                  else a <- nth_arg ps 0 ;; b <- nth_arg ps 1 ;;
                       Ok (fst q, PcExp ("(" ++ a ++ ")" ++ op ++ "(" ++ b ++ ")"), Some rt)
              | None =>
                  match k with
                  | KGt | KGe | KEq | KLt | KLe => if forallb is_int ts then Err ExKey else Err ExNYI        (* 404-409 *)
                  | KAnd | KOr | KNot => if forallb is_prim ts then Err ExKey else Err ExNYI                 (* 410-417 *)
                  | KLit => match args with Atom a :: _ => Ok (fst q, PcExp (str_atom a), Some t) | _ => Err ExIndex end   (* 420-421 *)
                  | KVar | KNonTerm => match args with Atom (PStr x) :: _ => Ok (fst q, PcExp x, Some t) | _ => Err ExAttr end  (* 422-427 *)
                  | _ => Err ExNYI
                  end
              end
          end
      end.
  End Step.

  (** [n] bounds the depth of the recursion (RecursionError in Python) *)
  Fixpoint helper (n : nat) (e : expr) (cur : string) (s : gstate) : res (gstate * piece * option ty) :=
    match n with
    | O => Err ExFuel
    | S n => helper_step (helper n) e cur s
    end.

  (** 442-476: the kernel.  Simplified: name, parameters and statements; the text around
      them, and the function with the glue code (479-561), are left out. *)
  Record gkernel : Type := {
    g_name : string;
    g_params : list (string * ty);      (* elem_t x[LEN][LEN] for arrays, elem_t x for integers, bool x for truth values *)
    g_array : bool;                     (* last parameter: elem_t out[LEN][LEN], or elem_t* out *)
    g_body : list stm }.

  (** 444: [name[:-3]] *)
  Definition drop3 (s : string) : string := substring 0 (String.length s - 3) s.

  (** 442-476 *)
  Definition gemmini_kernel (n : nat) (ps : expr) : res gkernel :=
    match ps with
    | Node (KFnDeclRec | KFnDecl | KTarget) t (Atom (PStr f) :: body :: params) =>
        ret <- fn_return_type t ;;
        xs <- mapR (fun p => x <- name_of p ;; u <- type_of p ;; _ <- type_dims u ;; Ok (x, u)) params ;;
        ds <- mapR (fun xu => dm <- type_dims (snd xu) ;; Ok (fst xu, dm)) xs ;;
        dr <- type_dims ret ;;
        let vd := fold_left (fun (m : dims) xd => dset m (fst xd) (snd xd)) (ds ++ [("out", dr)]) [] in
        r <- helper n body "out" (0, vd) ;;
        Ok {| g_name := drop3 f ++ "_gemmini"; g_params := xs; g_array := is_array ret; g_body := stms_of (snd (fst r)) |}
    | _ => Err ExAttr
    end.
End Helper.
