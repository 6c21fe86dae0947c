(** The code generator for Gaudi's tensor cores (tests/llvm/tenspiler/codegen/gaudi_codegen.py):
    from the body of a summary to a list of C instructions, the kernel around them and the
    description of its parameters. *)

From Coq Require Import String Ascii List ZArith Bool.
From Verif Require Import Ast Dict SmtPrint NpModel.
Import ListNotations.
Local Open Scope list_scope.
Local Open Scope string_scope.

(** gaudi_codegen.py:53-70 [GaudiBodyType] *)
Inductive bt : Type := UCHAR256 | FLOAT64 | INT64 | UINT256 | INT128 | FLOAT256 | UINT8 | FLOATC | INT32C.
Definition bt_text (t : bt) : string :=
  match t with
  | UCHAR256 => "uchar256" | FLOAT64 => "float64" | INT64 => "int64" | UINT256 => "uint256" | INT128 => "int128"
  | FLOAT256 => "float256" | UINT8 => "uint8_t" | FLOATC => "float" | INT32C => "int32_t"
  end.
Definition bt_eqb (a b : bt) : bool :=
  match a, b with
  | UCHAR256, UCHAR256 | FLOAT64, FLOAT64 | INT64, INT64 | UINT256, UINT256 | INT128, INT128 | FLOAT256, FLOAT256
  | UINT8, UINT8 | FLOATC, FLOATC | INT32C, INT32C => true
  | _, _ => false
  end.
(** gaudi_codegen.py:72-74 [is_primitive] (there is no [INT32] in the set) *)
Definition is_primitive (t : bt) : bool := match t with UINT8 | FLOATC => true | _ => false end.

(** ir.py:38-49 [is_list_type], [is_matrix_type]: [Matrix] and [Tensor3D] are subclasses of
    [List] (ir.py:1328, 1546) *)
Definition is_list_type (t : ty) : bool := match t with TList _ | TMatrix _ | TTensor3D _ => true | _ => false end.
Definition is_matrix_type (t : ty) : bool := match t with TMatrix _ => true | _ => false end.

(** gaudi_codegen.py:76-97 [GaudiBodyType.from_ir_and_data_type] *)
Definition body_type (d : dtype) (t : ty) : res bt :=
  match t with
  | TInt => Ok match d with UINT_8 => UINT8 | INT32 => INT64 | FLOAT => FLOATC end
  | _ => if is_list_type t || is_matrix_type t
         then Ok match d with UINT_8 => UCHAR256 | INT32 => INT64 | FLOAT => FLOAT64 end
         else Err ExNYI
  end.

(** gaudi_codegen.py:100-128 [GaudiHeaderType] *)
Inductive ht : Type := TENSOR | HUINT8 | HFLOAT | HINT32.
Definition ht_text (t : ht) : string :=
  match t with TENSOR => "tensor" | HUINT8 => "uint8_t" | HFLOAT => "float" | HINT32 => "int32_t" end.
(** 109-111, again without [INT32] *)
Definition h_primitive (t : ht) : bool := match t with HUINT8 | HFLOAT => true | _ => false end.
(** 113-128 *)
Definition header_type (d : dtype) (t : ty) : res ht :=
  if is_list_type t || is_matrix_type t then Ok TENSOR
  else match t with
       | TInt => Ok match d with UINT_8 => HUINT8 | INT32 => HINT32 | FLOAT => HFLOAT end
       | _ => Err ExNYI
       end.

(** The C expressions in the instructions.  Simplified: the code has their text, [ctext]
    below. *)
Inductive cexp : Type :=
| CId (x : string)
| CLit (a : patom)
| CField (e : cexp) (i : nat)
| CBin (op : string) (e f : cexp)
| CApp (f : string) (args : list cexp)
| CSet (x : string) (i : nat) (e : cexp).        (* the statement [x.vi = e;] *)
Fixpoint ctext (e : cexp) : string :=
  match e with
  | CId x => x
  | CLit a => str_atom a
  | CField e i => ctext e ++ ".v" ++ string_of_nat i
  | CBin op e f => ctext e ++ " " ++ op ++ " " ++ ctext f
  | CApp f args => f ++ "(" ++ join ", " (map ctext args) ++ ")"
  | CSet x i e => x ++ ".v" ++ string_of_nat i ++ " = " ++ ctext e ++ ";"
  end.

(** gaudi_codegen.py:131-155 [GaudiInstr] *)
Record instr : Type := mkI { i_dest : option string; i_type : option bt; i_exp : option cexp }.
(** 137-141 [__post_init__] *)
Definition new_instr (x : option string) (t : option bt) (e : option cexp) : res instr :=
  match x, t, e with
  | None, Some _, _ => Err ExValue
  | None, _, None => Err ExValue
  | _, _, _ => Ok (mkI x t e)
  end.
(** 143-155 [instr_str] *)
Definition instr_str (i : instr) : res string :=
  match i_dest i, i_type i, i_exp i with
  | Some x, None, Some e => Ok (x ++ " = " ++ ctext e ++ ";")
  | Some x, Some t, Some e => Ok (bt_text t ++ " " ++ x ++ " = " ++ ctext e ++ ";")
  | Some x, Some t, None => Ok (bt_text t ++ " " ++ x ++ ";")
  | _, None, None => Err ExAttr
  | None, Some t, None => Ok (bt_text t ++ " None;")
  | None, _, Some e => Ok (ctext e)
  end.
(** equality of the frozen dataclass (used by the set in 898-901); texts are compared *)
Definition instr_eqb (i j : instr) : bool :=
  let oeq {A} (eqb : A -> A -> bool) x y := match x, y with Some a, Some b => eqb a b | None, None => true | _, _ => false end in
  oeq String.eqb (i_dest i) (i_dest j) && oeq bt_eqb (i_type i) (i_type j) && oeq String.eqb (option_map ctext (i_exp i)) (option_map ctext (i_exp j)).

(** 319-322: the variables shared by all calls of [expr_codegen]: [var_count] and
    [var_and_lit_cache] *)
Definition cache : Type := list ((expr * bt) * (list instr * instr)).
Definition gst : Type := (nat * cache)%type.
Definition out : Type := (list instr * instr)%type.
(** [(expr, t) in cache] and the entry, with [Expr.__eq__] *)
Fixpoint cached (c : cache) (e : expr) (t : bt) : option out :=
  match c with
  | [] => None
  | ((e', t'), o) :: r => if expr_eqb e e' && bt_eqb t t' then Some o else cached r e t
  end.

(** where the result of an instruction goes (346-351) *)
Inductive dest : Type := Fresh | Named (x : string) | NoDest.
Definition fresh (n : nat) : string := "v" ++ string_of_nat n.

(** 339-354: [format_gaudi_instr] without [final_gaudi_body_type]: [loc] are the
    instructions so far ([local_instructions]) *)
Definition emit (s : gst) (loc : list instr) (e : option cexp) (t : option bt) (w : dest) : res (gst * list instr * instr) :=
  let x := match w with NoDest => None | Named x => Some x | Fresh => Some (fresh (fst s)) end in
  i <- new_instr x t e ;; Ok ((S (fst s), snd s), (loc ++ [i])%list, i).

(** 364-401: [convert_arg]; [None] if there is nothing to do *)
Definition switch_of (a b : bt) : string :=
  match a, b with UINT256, FLOAT256 => "SW_LINEAR" | FLOAT256, UCHAR256 => "SW_RD" | _, _ => "0" end.
Definition convert_arg (s : gst) (loc : list instr) (x : string) (a b : bt) : res (option (gst * list instr * instr)) :=
  if negb (is_primitive a) && is_primitive b then Err ExNYI
  else if bt_eqb a b then Ok None
  else let rhs :=
         if bt_eqb a INT128 && bt_eqb b INT64 then CField (CId x) 1
         else if is_primitive a then CId x
         else CApp ("convert_" ++ bt_text a ++ "_to_" ++ bt_text b) [CId x; CId (switch_of a b)] in
       r <- emit s loc (Some rhs) (Some b) Fresh ;; Ok (Some r).

(** 339-362: [format_gaudi_instr] with a type [t], then the conversion to [final], if any *)
Definition emit_as (s : gst) (loc : list instr) (e : cexp) (t : bt) (final : option bt) : res (gst * list instr * instr) :=
  r <- emit s loc (Some e) (Some t) Fresh ;;
  match final, i_dest (snd r) with
  | Some u, Some x =>
      c <- convert_arg (fst (fst r)) (snd (fst r)) x t u ;;
      match c with Some r' => Ok r' | None => Ok r end
  | _, _ => Ok r
  end.

(** 406-413 *)
Definition fn_dtype (d : dtype) : string := match d with FLOAT => "f32" | UINT_8 => "u8" | INT32 => "i32" end.

(** 638-669: the groups of functions *)
Definition variants (op : string) : list string :=
  map (fun p => p ++ op) ["matrix_elemwise_"; "vec_elemwise_"; "matrix_scalar_"; "vec_scalar_"; "scalar_matrix_"; "scalar_vec_"].
(** 625-633 *)
Definition slices : list string :=
  ["list_take"; "matrix_take"; "list_tail"; "matrix_tail"; "vec_slice"; "matrix_row_slice"; "matrix_col_slice"].
(** ["scalar" in fn_name] *)
Fixpoint contains (p s : string) : bool :=
  starts p s || match s with EmptyString => false | String _ r => contains p r end.
(** 698, 782: the operands change places *)
Definition swapped (f : string) : bool := contains "scalar" f && negb (starts "scalar" f).

(** 494-502 *)
Definition c_op (k : kind) : option string :=
  match k with KAdd => Some "+" | KSub => Some "-" | KMul => Some "*" | KDiv => Some "/" | KMod => Some "%" | _ => None end.
(** 521-528 ([Mod] has no case of its own) *)
Definition fn_suffix (k : kind) : string :=
  match k with KAdd => "_add" | KSub => "_sub" | KMul => "_mul" | _ => "_div" end.
(** 559-570 *)
Definition sel_name (k : kind) : option string :=
  match k with KGt => Some "grt" | KEq => Some "eq" | KLt => Some "less" | KLe => Some "leq" | KGe => Some "geq" | _ => None end.

Definition arg (l : list expr) (i : nat) : res expr := match nth_error l i with Some a => Ok a | None => Err ExIndex end.
Definition dest_of (i : instr) : res string := match i_dest i with Some x => Ok x | None => Err ExAttr end.
Definition type_of_instr (i : instr) : res bt := match i_type i with Some t => Ok t | None => Err ExAttr end.

(** 700-762: division: the instructions after those of the operands [o1] and [o2] *)
Definition div_tail (ov : option bt) (o1 o2 : out) (s : gst) : res (gst * out) :=
  let loc := (fst o1 ++ fst o2)%list in
  x1 <- dest_of (snd o1) ;; x2 <- dest_of (snd o2) ;;
  let firsts := match i_type (snd o1) with Some FLOAT64 => [CId x1] | _ => map (CField (CId x1)) [1; 2; 3; 4] end in
  r3 <- match i_type (snd o2) with
        | Some FLOAT64 =>
            r <- emit s loc (Some (CApp "v_reciprocal_fast_f32" [CId x2])) (Some FLOAT64) Fresh ;;
            x <- dest_of (snd r) ;; Ok (fst (fst r), snd (fst r), [CId x])
        | _ => Ok (s, loc, map (fun i => CApp "v_reciprocal_fast_f32" [CField (CId x2) i]) [1; 2; 3; 4])
        end ;;
  let '(s, loc, seconds) := r3 in
  match firsts, seconds with
  | [a], [b] =>
      r <- emit_as s loc (CApp "v_f32_mul_b" [a; b]) FLOAT64 ov ;; Ok (fst (fst r), (snd (fst r), snd r))
  | _, _ =>
      r <- emit s loc None (Some FLOAT256) Fresh ;;
      x <- dest_of (snd r) ;;
      let pick l i := match l with [a] => a | _ => nth i l (CId "") end in
      let set i (r : gst * list instr * instr) :=
        emit (fst (fst r)) (snd (fst r)) (Some (CSet x (S i) (CApp "v_f32_mul_b" [pick firsts i; pick seconds i]))) None NoDest in
      r <- set 0 r ;; r <- set 1 r ;; r <- set 2 r ;; r <- set 3 r ;;
      c <- convert_arg (fst (fst r)) (snd (fst r)) x FLOAT256 UCHAR256 ;;
      match c with Some r => Ok (fst (fst r), (snd (fst r), snd r)) | None => Err ExAttr end
  end.

(** 764-776: the instruction for a sum, difference or product, and its type *)
Definition arith_instr (d : dtype) (f : string) (def : bt) : string * bt :=
  let name op := "v_" ++ fn_dtype d ++ "_" ++ op ++ "_b" in
  if smem f (variants "add") then (name "add", def)
  else if smem f (variants "sub") then (name "sub", def)
  else (name "mul", match d with UINT_8 => UINT256 | INT32 => INT128 | FLOAT => def end).

Section Codegen.
  Variable fns : list (string * expr).
  Variable d : dtype.

  (** 451-470: the condition of an [Ite].  [Expr.__eq__(cond, Bool(True))] compares an [Expr]
      with an [Object], which gives [NotImplemented] (ir.py:303-323), and that counts as
      true: whatever the body of the called function is, the first branch is taken. *)
  Definition condition (c : expr) : res bool :=
    match c with
    | Node (KCall | KTargetCall) _ (Atom (PStr f) :: _) =>
        match dget fns f with
        | Some g => body <- decl_body g ;; Ok true
        | None => Err ExKey
        end
    | Node (KCall | KTargetCall) _ _ => Err ExIndex
    | _ => Err ExValue
    end.

  Section Step.
    (** the recursive call: expression, [override_type], [vars_to_replace] *)
    Variable rec : expr -> option bt -> list (string * expr) -> gst -> res (gst * out).

    (** 671-706: division: the operands *)
    Definition div_step (f : string) (ov : option bt) (vars : list (string * expr)) (args : list expr) (s : gst) : res (gst * out) :=
      let expected := match d with UINT_8 => FLOAT256 | _ => FLOAT64 end in
      a0 <- arg args 0 ;;
      r1 <- rec a0 (Some (if contains "scalar" f then FLOAT64 else expected)) vars s ;;
      a1 <- arg args 1 ;;
      r2 <- rec a1 (Some expected) vars (fst r1) ;;
      if swapped f then div_tail ov (snd r2) (snd r1) (fst r2) else div_tail ov (snd r1) (snd r2) (fst r2).

    (** 764-807: sums, differences and products; [def] is the type without override, [final]
        with it *)
    Definition arith_step (f : string) (def final : bt) (vars : list (string * expr)) (args : list expr) (s : gst) : res (gst * out) :=
      let '(g, ret) := arith_instr d f def in
      a0 <- arg args 0 ;; r1 <- rec a0 (Some def) vars s ;;
      a1 <- arg args 1 ;; r2 <- rec a1 (Some def) vars (fst r1) ;;
      let o1 := if swapped f then snd r2 else snd r1 in
      let o2 := if swapped f then snd r1 else snd r2 in
      x1 <- dest_of (snd o1) ;; x2 <- dest_of (snd o2) ;;
      r <- emit_as (fst r2) (fst o1 ++ fst o2)%list (CApp g [CId x1; CId x2]) ret (Some final) ;;
      Ok (fst (fst r), (snd (fst r), snd r)).

    (** 543-604: selections *)
    Definition select_step (def final : bt) (args : list expr) (s : gst) : res (gst * out) :=
      sel <- select_fn fns ;; body <- decl_body sel ;;
      match body with
      | Node KIte _ [c; a; b] =>
          match decl_params sel, args with
          | p :: q :: _, ma :: mb :: _ =>
              x <- name_of p ;; y <- name_of q ;;
              let vs := dset (dset [] x ma) y mb in
              match c with
              | Node k _ cs =>
                  match sel_name k with
                  | Some op =>
                      c0 <- arg cs 0 ;; r0 <- rec c0 (Some def) vs s ;;
                      c1 <- arg cs 1 ;; r1 <- rec c1 (Some def) vs (fst r0) ;;
                      r2 <- rec a (Some def) vs (fst r1) ;;
                      r3 <- rec b (Some def) vs (fst r2) ;;
                      x0 <- dest_of (snd (snd r0)) ;; x1 <- dest_of (snd (snd r1)) ;;
                      x2 <- dest_of (snd (snd r2)) ;; x3 <- dest_of (snd (snd r3)) ;;
                      let g := "v_" ++ fn_dtype d ++ "_sel_" ++ op ++ "_" ++ fn_dtype d ++ "_b" in
                      r <- emit_as (fst r3) (fst (snd r0) ++ fst (snd r1) ++ fst (snd r2) ++ fst (snd r3))%list
                             (CApp g [CId x0; CId x1; CId x2; CId x3]) def (Some final) ;;
                      Ok (fst (fst r), (snd (fst r), snd r))
                  | None => Err ExNYI
                  end
              | Atom _ => Err ExNYI
              end
          | _, _ => Err ExIndex
          end
      | _ => Err ExAttr
      end.

    (** 425-449, 471-479: a new instruction, or what the cache has for the same expression and
        type; then the cache *)
    Definition remember (e : expr) (r : gst * list instr * instr) : res (gst * out) :=
      let '(s, loc, i) := r in
      t <- type_of_instr i ;;
      match cached (snd s) e t with
      | Some o => Ok (s, o)
      | None => Ok ((fst s, (snd s ++ [((e, t), (loc, i))])%list), (loc, i))
      end.

    (** 324-807 [expr_codegen].  An expression of any other kind gives [None], which the caller
        cannot unpack (TypeError). *)
    Definition codegen_step (e : expr) (ov : option bt) (vars : list (string * expr)) (s : gst) : res (gst * out) :=
      match e with
      | Atom _ => Err ExAttr
      | Node k t args =>
          def <- body_type d t ;;
          let final := match ov with Some u => u | None => def end in
          match k with
          | KVar | KNonTerm =>                                                               (* 422-449 *)
              x <- name_of e ;;
              match dget vars x with
              | Some a => rec a ov vars s
              | None =>
                  if is_list_type t || is_matrix_type t
                  then r <- emit_as s [] (CApp ("v_" ++ fn_dtype d ++ "_ld_tnsr_b") [CId "inputCoord"; CId x]) def (Some final) ;;
                       remember e r
                  else r <- emit s [] (Some (CId x)) (Some final) Fresh ;; remember e r
              end
          | KIte =>                                                                          (* 450-470 *)
              match args with
              | [c; a; b] => v <- condition c ;; if v then rec a ov vars s else rec b ov vars s
              | _ => Err ExIndex
              end
          | KLit =>                                                                          (* 471-479 *)
              match args with
              | Atom a :: _ => r <- emit s [] (Some (CLit a)) (Some final) Fresh ;; remember e r
              | _ => Err ExIndex
              end
          | KAdd | KSub | KMul | KDiv | KMod =>                                              (* 480-537 *)
              a <- arg args 0 ;; r1 <- rec a None vars s ;;
              b <- arg args 1 ;; r2 <- rec b None vars (fst r1) ;;
              t1 <- type_of_instr (snd (snd r1)) ;; t2 <- type_of_instr (snd (snd r2)) ;;
              if is_primitive t1 && is_primitive t2
              then match c_op k with
                   | Some op =>
                       x1 <- dest_of (snd (snd r1)) ;; x2 <- dest_of (snd (snd r2)) ;;
                       r <- emit_as (fst r2) (fst (snd r1) ++ fst (snd r2))%list (CBin op (CId x1) (CId x2)) def (Some final) ;;
                       Ok (fst (fst r), (snd (fst r), snd r))
                   | None => Err ExNYI
                   end
              else
                let '(pre, a, b) :=
                  if is_primitive t1 then ("scalar_matrix", a, b)
                  else if is_primitive t2 then ("matrix_scalar", b, a)
                  else ("matrix_elemwise", a, b) in
                rec (Node KCall (TMatrix TInt) [Atom (PStr (pre ++ fn_suffix k)); a; b]) None vars (fst r2)
          | KCall | KTargetCall =>                                                           (* 539-807 *)
              match args with
              | Atom (PStr f) :: rest =>
                  if ends_with "matrix_selection_two_args" f then select_step def final rest s
                  else if String.eqb f "reduce_sum" then                                     (* 606-623 *)
                    a <- arg rest 0 ;; r <- rec a None vars s ;;
                    match i_type (snd (snd r)), i_dest (snd (snd r)) with
                    | Some INT64, Some x =>
                        r' <- emit (fst r) (fst (snd r))
                                (Some (CApp "v_i32_add_b" [CApp "v_i32_reduce_add" [CId x]; CId "sum"])) None (Named "sum") ;;
                        Ok (fst (fst r'), (snd (fst r'), snd r'))
                    | _, _ => Err ExValue
                    end
                  else if smem f slices then a <- arg rest 0 ;; rec a ov vars s              (* 624-639 *)
                  else if smem f (variants "div") then div_step f ov vars rest s
                  else if smem f (variants "add" ++ variants "sub" ++ variants "mul")%list then arith_step f def final vars rest s
                  else Err ExTypes
              | _ => Err ExIndex
              end
          | _ => Err ExTypes
          end
      end.
  End Step.

  (** [n] bounds the depth of the recursion (RecursionError in Python) *)
  Fixpoint codegen (n : nat) (e : expr) (ov : option bt) (vars : list (string * expr)) (s : gst) : res (gst * out) :=
    match n with
    | O => Err ExFuel
    | S n => codegen_step (codegen n) e ov vars s
    end.

  (** 897-901: without repetitions *)
  Fixpoint dedup (seen : list instr) (l : list instr) : list instr :=
    match l with
    | [] => []
    | i :: r => if existsb (instr_eqb i) seen then dedup seen r else i :: dedup (i :: seen) r
    end.

  (** how the instructions are wrapped: a loop over one coordinate that stores in every
      round (926-945), a loop over two (957-984), or one that stores at the end (904-925) *)
  Inductive shape : Type := OneDim | TwoDim | Reduction.

  (** 827-984: the kernel.  Simplified: the parts of its text, see [kernel_text]. *)
  Record kernel : Type := {
    k_params : list (string * ht);       (* the header, the tensor for the result is last *)
    k_vec_len : nat;
    k_shape : shape;
    k_body : list instr;
    k_store : string;                    (* the instruction that stores *)
    k_rv : string;                       (* where *)
    k_result : string }.                 (* what *)

  Definition is_reduce_sum (e : expr) : bool :=
    match e with Node (KCall | KTargetCall) _ (Atom (PStr f) :: _) => String.eqb f "reduce_sum" | _ => false end.

  Definition vec_len : nat := match d with UINT_8 => 256 | _ => 64 end.

  (** 809-984 *)
  Definition gaudi_kernel (n : nat) (ps : expr) : res kernel :=
    match ps with
    | Node (KFnDeclRec | KFnDecl | KTarget) t (Atom (PStr f) :: body :: params) =>
        ret <- fn_return_type t ;;
        let is_vec := is_list_type ret in
        let is_mat := is_matrix_type ret in
        let is_sum := is_reduce_sum body in
        if negb is_vec && negb is_mat && negb is_sum then Err ExNYI
        else
          let rv := f ++ "_rv" in
          hs <- mapR (fun p => x <- name_of p ;; u <- type_of p ;; h <- header_type d u ;; Ok (x, h)) params ;;
          hr <- header_type d ret ;;
          let ov := if is_vec || is_mat then Some match d with UINT_8 => UCHAR256 | INT32 => INT64 | FLOAT => FLOAT64 end else None in
          r <- codegen n body ov [] (0, []) ;;
          x <- dest_of (snd (snd r)) ;;
          Ok {| k_params := (hs ++ [(rv, hr)])%list; k_vec_len := vec_len;
                k_shape := if is_sum then Reduction else if is_mat then TwoDim else OneDim;
                k_body := dedup [] (fst (snd r));
                k_store := "v_" ++ fn_dtype d ++ "_st_tnsr"; k_rv := rv; k_result := x |}
    | _ => Err ExAttr
    end.

  (** 163-239 [get_glue_code_cpp], 242-309 [get_glue_code_hpp]: what the glue code says about
      the parameters: the number of input tensors and of dimensions, the type of the elements,
      and the fields of the structure for the scalars.  Simplified: not the text around it. *)
  Record glue : Type := {
    g_inputs : nat; g_dims : nat; g_dtype : string; g_scalars : list (string * ht); g_has_struct : bool }.
  Definition gaudi_glue (ps : expr) : res glue :=
    match ps with
    | Node (KFnDeclRec | KFnDecl | KTarget) t (Atom (PStr f) :: body :: params) =>
        ret <- fn_return_type t ;;
        ps <- mapR (fun p => x <- name_of p ;; u <- type_of p ;; h <- header_type d u ;; Ok (x, u, h)) params ;;
        hr <- header_type d ret ;;
        let all := (ps ++ [((f ++ "_rv")%string, ret, hr)])%list in
        let tensors := filter (fun x => negb (h_primitive (snd x))) all in
        let scalars := filter (fun x => h_primitive (snd x)) all in
        match tensors with
        | [] => Err ExIndex
        | (_, u, _) :: _ =>
            Ok {| g_inputs := List.length tensors - 1; g_dims := if is_matrix_type u then 2 else 1;
                  g_dtype := match d with UINT_8 => "gcapi::DATA_U8" | INT32 => "gcapi::DATA_I32" | FLOAT => "gcapi::DATA_F32" end;
                  g_scalars := map (fun x => (fst (fst x), snd x)) scalars;
                  g_has_struct := match scalars with [] => false | _ => true end |}
        end
    | _ => Err ExAttr
    end.
End Codegen.

(** 872-877, 904-993: the text of a kernel, without the white space at the beginnings of
    lines and without empty lines *)
Definition kernel_text (k : kernel) : res (list string) :=
  ls <- mapR instr_str (k_body k) ;;
  let store := k_store k ++ "(outputCoord, " ++ k_rv k ++ ", " ++ k_result k ++ ");" in
  let start := ["int5 index_space_start = get_index_space_offset();";
                "int5 index_space_end = index_space_start + get_index_space_size();";
                "int5 inputCoord = { 0 };"; "int5 outputCoord = { 0 };"] in
  let len := ["unsigned vec_len = " ++ string_of_nat (k_vec_len k) ++ ";"] in
  let head := "void main(" ++ join ", " (map (fun p => ht_text (snd p) ++ " " ++ fst p) (k_params k)) ++ ") {" in
  let loop_i := "for(int i = index_space_start[0]; i < index_space_end[0]; i++) {" in
  let at_i := "inputCoord[0] = outputCoord[0] = (i * vec_len);" in
  match ls with
  | [] => Err ExIndex
  | _ =>
    Ok (match k_shape k with
        | OneDim => ([head] ++ start ++ len ++ ["#pragma loop_unroll(8)"; loop_i; at_i] ++ ls ++ [store; "}"; "}"])%list
        | Reduction =>
            ([head] ++ start ++ [("int64 " ++ k_result k ++ ";")%string] ++ len ++ ["#pragma loop_unroll(8)"; loop_i; at_i] ++ ls ++
            ["}"; "outputCoord[0] = index_space_start[0] * vec_len;"; store; "}"])%list
        | TwoDim =>
            ([head] ++ start ++ len ++
            [loop_i; "#pragma loop_unroll(4)"; "for (int j = index_space_start[1]; j < index_space_end[1]; j++) {"; at_i;
             "inputCoord[1] = outputCoord[1] = j;"] ++ ls ++ [store; "}"; "}"; "}"])%list
        end)
  end.
