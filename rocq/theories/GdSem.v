(** What the instructions for Gaudi's tensor cores do, and when the value of a summary is
    within reach of the element types.  This file is a specification, not a model of code in
    /repo.

    Simplified: floating point numbers are exact rationals (so is [v_reciprocal_fast_f32]),
    and the 256 lanes of four vectors are numbered one vector after the other by all
    instructions.  Integers wrap around at the size of their type. *)

From Coq Require Import String Ascii List ZArith Bool QArith Qround.
From Verif Require Import Ast Dict Semantics SmtPrint NpModel LibSem RktModel NpSem GdModel.
Import ListNotations.
Local Open Scope list_scope.
Local Open Scope string_scope.

(** ** numbers *)
(** C's conversion of a number to an integer: towards zero *)
Definition ztrunc (q : Q) : Z := Z.quot (Qnum q) (QDen q).
(** conversion to the nearest integer, halves to the even one; downwards *)
Definition znear (q : Q) : Z :=
  let f := Qfloor q in
  let r := (q - inject_Z f)%Q in
  if Qle_bool r (1 # 2) then (if Qeq_bool r (1 # 2) && Z.odd f then f + 1 else f)%Z else (f + 1)%Z.
Definition rounding (sw : string) (q : Q) : Z := if String.eqb sw "SW_RD" then Qfloor q else znear q.
Definition u8 (z : Z) : Q := inject_Z (z mod 256).
Definition i32 (z : Z) : Q := inject_Z ((z + 2147483648) mod 4294967296 - 2147483648).

(** ** values: a number, a vector of lanes, four vectors (not all need to be set), the two
    halves of products *)
Definition lanes : Type := nat -> Q.
Inductive cval : Type :=
| Sc (q : Q)
| Ve (v : lanes)
| V4 (v1 v2 v3 v4 : option lanes)
| V2 (lo hi : lanes).
(** the variables: scalar parameters and what the kernel declares *)
Definition cst : Type := string -> option (bt * cval).
Definition cset (st : cst) (x : string) (v : bt * cval) : cst := fun y => if String.eqb x y then Some v else st y.
(** the variable is in scope but has no value yet *)
Definition chide (st : cst) (x : string) : cst := fun y => if String.eqb x y then None else st y.

Definition quad (v : lanes) : cval :=
  V4 (Some (fun l => v l)) (Some (fun l => v (64 + l)%nat)) (Some (fun l => v (128 + l)%nat)) (Some (fun l => v (192 + l)%nat)).
Definition unquad (a b c d : lanes) : lanes :=
  fun k => if (k <? 64)%nat then a k else if (k <? 128)%nat then b (k - 64)%nat else if (k <? 192)%nat then c (k - 128)%nat else d (k - 192)%nat.
(** all lanes of a vector or of four *)
Definition all_lanes (v : cval) : option lanes :=
  match v with
  | Ve v => Some v
  | V4 (Some a) (Some b) (Some c) (Some d) => Some (unquad a b c d)
  | _ => None
  end.
Definition complete (v : cval) : bool :=
  match v with V4 (Some _) (Some _) (Some _) (Some _) => true | V4 _ _ _ _ => false | _ => true end.
Definition field (v : cval) (i : nat) : option lanes :=
  match v, i with
  | V4 a _ _ _, 1%nat | V4 _ a _ _, 2%nat | V4 _ _ a _, 3%nat | V4 _ _ _ a, 4%nat => a
  | V2 a _, 1%nat | V2 _ a, 2%nat => Some a
  | _, _ => None
  end.
Definition set_field (v : cval) (i : nat) (w : lanes) : option cval :=
  match v, i with
  | V4 _ b c d, 1%nat => Some (V4 (Some w) b c d)
  | V4 a _ c d, 2%nat => Some (V4 a (Some w) c d)
  | V4 a b _ d, 3%nat => Some (V4 a b (Some w) d)
  | V4 a b c _, 4%nat => Some (V4 a b c (Some w))
  | _, _ => None
  end.
(** the value of a type with these lanes, and the type of its fields *)
Definition of_lanes (t : bt) (v : lanes) : option cval :=
  match t with
  | UCHAR256 | INT64 | FLOAT64 => Some (Ve v)
  | UINT256 | FLOAT256 => Some (quad v)
  | INT128 => Some (V2 (fun k => i32 (Qfloor (v k))) (fun k => inject_Z (Qfloor (v k) / 4294967296)))
  | _ => None
  end.
Definition field_type (t : bt) : option bt := match t with FLOAT256 => Some FLOAT64 | INT128 => Some INT64 | _ => None end.

(** ** intrinsics *)
(** on two vectors of a type, the type of the result, and what happens in a lane *)
Definition vec2 : list (string * (bt * bt * (Q -> Q -> Q))) :=
  [("v_u8_add_b", (UCHAR256, UCHAR256, fun a b => u8 (ztrunc (a + b))));
   ("v_u8_sub_b", (UCHAR256, UCHAR256, fun a b => u8 (ztrunc (a - b))));
   ("v_u8_mul_b", (UCHAR256, UINT256, fun a b => a * b)%Q);
   ("v_i32_add_b", (INT64, INT64, fun a b => i32 (ztrunc (a + b))));
   ("v_i32_sub_b", (INT64, INT64, fun a b => i32 (ztrunc (a - b))));
   ("v_i32_mul_b", (INT64, INT128, fun a b => a * b)%Q);
   ("v_f32_add_b", (FLOAT64, FLOAT64, fun a b => a + b)%Q);
   ("v_f32_sub_b", (FLOAT64, FLOAT64, fun a b => a - b)%Q);
   ("v_f32_mul_b", (FLOAT64, FLOAT64, fun a b => a * b)%Q)].
(** selections: the comparison of the first two operands *)
Definition Qlt_bool (a b : Q) : bool := negb (Qle_bool b a).
Definition vec_sel : list (string * (bt * (Q -> Q -> bool))) :=
  concat (map (fun x : string * bt =>
    let (s, t) := x in
    [("v_" ++ s ++ "_sel_grt_" ++ s ++ "_b", (t, fun a b => Qlt_bool b a)); ("v_" ++ s ++ "_sel_eq_" ++ s ++ "_b", (t, Qeq_bool));
     ("v_" ++ s ++ "_sel_less_" ++ s ++ "_b", (t, Qlt_bool)); ("v_" ++ s ++ "_sel_leq_" ++ s ++ "_b", (t, Qle_bool));
     ("v_" ++ s ++ "_sel_geq_" ++ s ++ "_b", (t, fun a b => Qle_bool b a))])
    [("u8", UCHAR256); ("i32", INT64); ("f32", FLOAT64)]).
(** conversions; what happens in a lane depends on the switch *)
Definition vec_conv : list (string * (bt * bt * (string -> Q -> Q))) :=
  [("convert_uchar256_to_float256", (UCHAR256, FLOAT256, fun _ q => q));
   ("convert_uint256_to_uchar256", (UINT256, UCHAR256, fun _ q => u8 (ztrunc q)));
   ("convert_uint256_to_float256", (UINT256, FLOAT256, fun _ q => q));
   ("convert_float256_to_uchar256", (FLOAT256, UCHAR256, fun sw q => u8 (rounding sw q)));
   ("convert_int64_to_float64", (INT64, FLOAT64, fun _ q => q));
   ("convert_float64_to_int64", (FLOAT64, INT64, fun sw q => i32 (rounding sw q)))].
Definition loads : list (string * bt) := [("v_u8_ld_tnsr_b", UCHAR256); ("v_i32_ld_tnsr_b", INT64); ("v_f32_ld_tnsr_b", FLOAT64)].
Definition stores : list (string * bt) := [("v_u8_st_tnsr", UCHAR256); ("v_i32_st_tnsr", INT64); ("v_f32_st_tnsr", FLOAT64)].

(** C's operators on two scalars: [uint8_t] is promoted to [int] *)
Definition c_int (op : string) (a b : Z) : option Z :=
  if String.eqb op "+" then Some (a + b)%Z else if String.eqb op "-" then Some (a - b)%Z
  else if String.eqb op "*" then Some (a * b)%Z
  else if Z.eqb b 0 then None
  else if String.eqb op "/" then Some (Z.quot a b) else if String.eqb op "%" then Some (Z.rem a b) else None.
Definition c_float (op : string) (a b : Q) : option Q :=
  if String.eqb op "+" then Some (a + b)%Q else if String.eqb op "-" then Some (a - b)%Q
  else if String.eqb op "*" then Some (a * b)%Q
  else if String.eqb op "/" then (if Qeq_bool b 0 then None else Some (a / b)%Q) else None.
Definition c_bin (op : string) (v w : bt * cval) : option (bt * cval) :=
  match v, w with
  | ((UINT8 | INT32C), Sc a), ((UINT8 | INT32C), Sc b) => option_map (fun z => (INT32C, Sc (i32 z))) (c_int op (ztrunc a) (ztrunc b))
  | (FLOATC, Sc a), (FLOATC, Sc b) => option_map (fun q => (FLOATC, Sc q)) (c_float op a b)
  | _, _ => None
  end.

(** a number as the initial value of a variable: converted, and put in all lanes of a vector *)
Definition scalar_as (t : bt) (q : Q) : option cval :=
  match t with
  | UINT8 => Some (Sc (u8 (ztrunc q))) | INT32C => Some (Sc (i32 (ztrunc q))) | FLOATC => Some (Sc q)
  | UCHAR256 => Some (Ve (fun _ => u8 (ztrunc q))) | INT64 => Some (Ve (fun _ => i32 (ztrunc q))) | FLOAT64 => Some (Ve (fun _ => q))
  | _ => None
  end.
Definition initial (t : bt) (v : bt * cval) : option cval :=
  match v with
  | (_, Sc q) => scalar_as t q
  | (u, w) => if bt_eqb t u then Some w else None
  end.

Section Run.
  (** the lanes of each tensor at the current coordinates *)
  Variable tile : string -> option lanes.

  (** The value of an expression; [None] if it is not well typed or uses what has no value. *)
  Fixpoint ceval (st : cst) (e : cexp) : option (bt * cval) :=
    match e with
    | CId x => match st x with Some (t, v) => if complete v then Some (t, v) else None | None => None end
    | CLit (PInt z) => Some (INT32C, Sc (inject_Z z))
    | CLit _ => None
    | CField (CId x) i =>
        match st x with
        | Some (t, v) => match field_type t, field v i with Some u, Some w => Some (u, Ve w) | _, _ => None end
        | None => None
        end
    | CField _ _ => None
    | CBin op a b => match ceval st a, ceval st b with Some v, Some w => c_bin op v w | _, _ => None end
    | CApp f args =>
        match args with
        | [a] =>
            if String.eqb f "v_reciprocal_fast_f32"
            then match ceval st a with Some (FLOAT64, Ve v) => Some (FLOAT64, Ve (fun k => / v k)%Q) | _ => None end
            else if String.eqb f "v_i32_reduce_add"
            then match ceval st a with
                 | Some (INT64, Ve v) => Some (INT64, Ve (fun _ => i32 (fold_right Z.add 0%Z (map (fun k => Qfloor (v k)) (seq 0 64)))))
                 | _ => None
                 end
            else None
        | [a; b] =>
            match dget loads f, dget vec2 f, dget vec_conv f with
            | Some t, _, _ =>
                match a, b with
                | CId c, CId x => if String.eqb c "inputCoord" then option_map (fun v => (t, Ve v)) (tile x) else None
                | _, _ => None
                end
            | _, Some (t, u, g), _ =>
                match ceval st a, ceval st b with
                | Some (ta, Ve v), Some (tb, Ve w) =>
                    if bt_eqb ta t && bt_eqb tb t then option_map (fun x => (u, x)) (of_lanes u (fun k => g (v k) (w k))) else None
                | _, _ => None
                end
            | _, _, Some (t, u, g) =>
                match ceval st a, b with
                | Some (ta, v), CId sw =>
                    if bt_eqb ta t
                    then match all_lanes v with
                         | Some v => option_map (fun x => (u, x)) (of_lanes u (fun k => g sw (v k)))
                         | None => None
                         end
                    else None
                | _, _ => None
                end
            | None, None, None => None
            end
        | [a; b; c; e] =>
            match dget vec_sel f, ceval st a, ceval st b, ceval st c, ceval st e with
            | Some (t, g), Some (ta, Ve va), Some (tb, Ve vb), Some (tc, Ve vc), Some (te, Ve ve) =>
                if bt_eqb ta t && bt_eqb tb t && bt_eqb tc t && bt_eqb te t
                then Some (t, Ve (fun k => if g (va k) (vb k) then vc k else ve k)) else None
            | _, _, _, _, _ => None
            end
        | _ => None
        end
    | CSet _ _ _ => None
    end.

  (** One instruction.  [seen]: the variables that are declared so far, none may be declared
      twice. *)
  Definition cexec (seen : list string) (st : cst) (i : instr) : option (list string * cst) :=
    match i_dest i, i_type i, i_exp i with
    | Some x, Some t, Some e =>
        if smem x seen then None
        else match ceval (chide st x) e with
             | Some v => match initial t v with Some w => Some (x :: seen, cset st x (t, w)) | None => None end
             | None => None
             end
    | Some x, Some t, None =>
        if smem x seen then None
        else Some (x :: seen, match t with FLOAT256 | UINT256 => cset st x (t, V4 None None None None) | _ => chide st x end)
    | Some x, None, Some e =>
        match st x, ceval st e with
        | Some (t, _), Some (u, v) => if bt_eqb t u then Some (seen, cset st x (t, v)) else None
        | _, _ => None
        end
    | None, None, Some (CSet x n e) =>
        match st x, ceval st e with
        | Some (t, v), Some (u, Ve w) =>
            if match field_type t with Some t' => bt_eqb t' u | None => false end
            then option_map (fun v => (seen, cset st x (t, v))) (set_field v n w) else None
        | _, _ => None
        end
    | _, _, _ => None
    end.
  Fixpoint cexecs (seen : list string) (st : cst) (l : list instr) : option cst :=
    match l with
    | [] => Some st
    | i :: r => match cexec seen st i with Some (seen', st') => cexecs seen' st' r | None => None end
    end.
End Run.

(** ** kernels *)
(** A tensor: its element at a column and a row (0 for vectors). *)
Definition tensor : Type := nat -> nat -> Q.
(** [n] rounds, beginning with [i] *)
Fixpoint rounds {A} (n i : nat) (step : nat -> A -> option A) (a : A) : option A :=
  match n with O => Some a | S n => match step i a with Some a => rounds n (S i) step a | None => None end end.

Section Kernel.
  Variables (k : kernel) (scalars : cst) (tensors : string -> option tensor).
  (** the lanes that an instruction loads at [i * vec_len], [j] *)
  Definition tile_at (i j : nat) : string -> option lanes :=
    fun x => option_map (fun t l => t (i * k_vec_len k + l)%nat j) (tensors x).
  (** [vec_len] lanes are stored, if the types are right *)
  Definition stored (i j : nat) (v : option (bt * cval)) (out : tensor) : option tensor :=
    match v, dget stores (k_store k), dget (k_params k) (k_rv k) with
    | Some (t, Ve v), Some t', Some TENSOR =>
        if bt_eqb t t'
        then Some (fun c r => if Nat.eqb r j && (i * k_vec_len k <=? c)%nat && (c <? (i + 1) * k_vec_len k)%nat
                              then v (c - i * k_vec_len k)%nat else out c r)
        else None
    | _, _, _ => None
    end.
  (** one round: the instructions, then the result is stored *)
  Definition round (i j : nat) (out : tensor) : option tensor :=
    match cexecs (tile_at i j) [] scalars (k_body k) with
    | Some st => stored i j (st (k_result k)) out
    | None => None
    end.
  (** one round of a reduction; the variable for the result is declared outside, without a
      value *)
  Definition reduction_round (i : nat) (acc : option (bt * cval)) : option (option (bt * cval)) :=
    let x := k_result k in
    let st := match acc with Some v => cset scalars x v | None => chide scalars x end in
    match cexecs (tile_at i 0) [] st (k_body k) with Some st => Some (st x) | None => None end.
  (** The whole kernel for the part of the index space that begins at [i0], [j0] and has [ni]
      by [nj] points. *)
  Definition run (i0 ni j0 nj : nat) (out : tensor) : option tensor :=
    match k_shape k with
    | OneDim => rounds ni i0 (fun i => round i 0) out
    | TwoDim => rounds ni i0 (fun i => rounds nj j0 (fun j => round i j)) out
    | Reduction => match rounds ni i0 reduction_round None with Some v => stored i0 0 v out | None => None end
    end.
End Kernel.

(** ** arguments *)
Definition tensor_of (v : dval) : option tensor :=
  match v with
  | DL l => Some (fun c _ => inject_Z (nth c l 0%Z))
  | DM m => Some (fun c r => inject_Z (nth c (nth r m []) 0%Z))
  | _ => None
  end.
(** the parameters of the header and the arguments, in order *)
Definition scalar_args (hs : list (string * ht)) (vs : list dval) : cst :=
  fold_right (fun (x : (string * ht) * dval) st =>
    match x with
    | ((y, HUINT8), DZ z) => cset st y (UINT8, Sc (inject_Z z))
    | ((y, HINT32), DZ z) => cset st y (INT32C, Sc (inject_Z z))
    | ((y, HFLOAT), DZ z) => cset st y (FLOATC, Sc (inject_Z z))
    | _ => st
    end) (fun _ => None) (combine hs vs).
Definition tensor_args (hs : list (string * ht)) (vs : list dval) : string -> option tensor :=
  fold_right (fun (x : (string * ht) * dval) f =>
    match x with
    | ((y, TENSOR), v) => fun z => if String.eqb y z then tensor_of v else f z
    | _ => f
    end) (fun _ => None) (combine hs vs).

(** the function is called with these values: its parameters have them *)
Definition called_with (r : env) (params : list expr) (vs : list dval) : Prop :=
  Forall2 (fun p v => exists x, name_of p = Ok x /\ r x = Some (emb v) /\ proper v) params vs.

(** the element at a column and a row; a number is the same everywhere *)
Definition elem (v : dval) (c r : nat) : option Z :=
  match v with
  | DZ z => Some z
  | DL l => nth_error l c
  | DM m => match nth_error m r with Some row => nth_error row c | None => None end
  | _ => None
  end.

(** ** what the theorem asks of a summary and its arguments *)
Definition least (d : dtype) : Z := match d with UINT_8 => 0 | INT32 => -2147483648 | FLOAT => -16777216 end.
Definition most (d : dtype) : Z := match d with UINT_8 => 255 | INT32 => 2147483647 | FLOAT => 16777216 end.
(** division: bytes are rounded down, of the other types the result must be exact *)
Definition div_ok (d : dtype) (a b : Z) : Prop := match d with UINT_8 => True | _ => (b | a)%Z end.

(** the functions that work element by element *)
Definition elementwise_fn (f : string) : bool :=
  dmem vec_elemwise f || dmem mat_elemwise f || dmem vec_scalar f || dmem mat_scalar f.
(** dividend and divisor *)
Definition divisions (d : dtype) (f : string) (u v : dval) : Prop :=
  forall c r x y, elem u c r = Some x -> elem v c r = Some y ->
    if smem f ["vec_elemwise_div"; "matrix_elemwise_div"; "scalar_vec_div"; "scalar_matrix_div"] then div_ok d x y
    else if smem f ["vec_scalar_div"; "matrix_scalar_div"] then div_ok d y x
    else True.
(** the variables in an expression *)
Fixpoint mentions (x : string) (e : expr) : bool :=
  match e with
  | Atom _ => false
  | Node (KVar | KNonTerm) _ (Atom (PStr y) :: _) => String.eqb x y
  | Node _ _ args => (fix any (l : list expr) : bool := match l with [] => false | a :: l => mentions x a || any l end) args
  end.

(** products; their results have more bits than the elements *)
Definition product (e : expr) : bool :=
  match e with
  | Node KCall _ (Atom (PStr f) :: _) => smem f ["vec_elemwise_mul"; "matrix_elemwise_mul"; "vec_scalar_mul"; "matrix_scalar_mul"]
  | _ => false
  end.
(** which operands of a function may be such products: those of divisions of bytes, apart
    from scalars *)
Definition wide_operands (d : dtype) (f : string) : bool * bool :=
  match d with
  | UINT_8 =>
      if smem f ["vec_elemwise_div"; "matrix_elemwise_div"] then (true, true)
      else if smem f ["vec_scalar_div"; "matrix_scalar_div"; "scalar_vec_div"; "scalar_matrix_div"] then (false, true)
      else (false, false)
  | _ => (false, false)
  end.

Section Suits.
  Variables (d : dtype) (I : interp) (calls : bool) (Sel : env -> list expr -> Prop).
  (** Every part that is evaluated has a value with elements of the type (products to be
      divided may be larger); conditions are true; sums and products have two operands; what
      is sliced is already as long as the slice. *)
  Fixpoint suits (wide : bool) (r : env) (e : expr) : Prop :=
    (exists v, proper v /\ (if wide && product e then True else within (least d) (most d) v) /\ eval I r e = Some (emb v)) /\
    match e with
    | Atom _ => False
    | Node k t args =>
        let both (w : bool * bool) := match args with [a; b] => suits (fst w) r a /\ suits (snd w) r b | _ => False end in
        match k with
        | KVar | KLit => True
        | KIte => match args with [c; a; b] => eval I r c = Some (VBool true) /\ suits wide r a | _ => False end
        | KAdd | KSub | KMul => both (false, false)
        | KDiv => both (false, false) /\ forall a b, mapO (eval I r) args = Some [VInt a; VInt b] -> (0 < b)%Z /\ div_ok d a b
        | KCall =>
            calls = true /\
            match args with
            | Atom (PStr f) :: rest =>
                if String.eqb f "matrix_selection_two_args"
                then match rest with m :: n :: _ => suits false r m /\ suits false r n /\ Sel r rest | _ => False end
                else if smem f slices
                then match rest with m :: _ => suits wide r m /\ eval I r e = eval I r m | _ => False end
                else elementwise_fn f = true /\
                     match rest with
                     | [a; b] =>
                         suits (fst (wide_operands d f)) r a /\ suits (snd (wide_operands d f)) r b /\
                         exists x y v, proper x /\ proper y /\ eval I r a = Some (emb x) /\ eval I r b = Some (emb y) /\
                                       tmean f [x; y] = Some v /\ divisions d f x y
                     | _ => False
                     end
            | _ => False
            end
        | _ => False
        end
    end.
End Suits.
(** The function for selections compares two integers and gives integers; the parts of its
    body suit for all pairs of elements for which they matter.  Its parameters do not occur
    in the arguments. *)
Definition select_suits (fns : list (string * expr)) (d : dtype) (I : interp) (r : env) (args : list expr) : Prop :=
  let inner := suits d I false (fun _ _ => False) false in
  match args, chosen fns with
  | [m; n; s], Some (h, (p, q), (Node k tc [c0; c1], a, b)) =>
      is_cmp k = true /\ Forall (fun e => mentions p e = false /\ mentions q e = false) [m; n] /\
      (forall x y v, eval I (bind2 p q x y) (Node KIte TInt [Node k tc [c0; c1]; a; b]) = Some v -> exists z, v = VInt z) /\
      exists M N, eval I r m = Some (vm M) /\ eval I r n = Some (vm N) /\ eval I r s = Some (VFn h) /\ same_dim M N = true /\
        forall x y, In (x, y) (combine (concat M) (concat N)) ->
          let e := bind2 p q x y in
          inner e c0 /\ inner e c1 /\ Forall (fun c => exists z, eval I e c = Some (VInt z)) [c0; c1] /\
          (eval I e (Node k tc [c0; c1]) = Some (VBool true) -> inner e a) /\
          (eval I e (Node k tc [c0; c1]) = Some (VBool false) -> inner e b)
  | _, _ => False
  end.
Definition summary_suits (fns : list (string * expr)) (d : dtype) (I : interp) : env -> expr -> Prop :=
  suits d I true (select_suits fns d I) false.

(** ** kernels that do not divide two scalars: [/] and [%] are the only operations that depend
    on the values of their operands *)
Fixpoint no_divides (e : cexp) : bool :=
  match e with
  | CBin op a b => negb (String.eqb op "/" || String.eqb op "%") && no_divides a && no_divides b
  | CApp _ args => forallb no_divides args
  | CField e _ | CSet _ _ e => no_divides e
  | _ => true
  end.
Definition safe (i : instr) : bool := match i_exp i with Some e => no_divides e | None => true end.
(** both are numbers, both vectors, ... *)
Definition same_kind (v w : dval) : Prop :=
  match v, w with DZ _, DZ _ | DB _, DB _ | DL _, DL _ | DM _, DM _ | DT _, DT _ => True | _, _ => False end.

(** ** names *)
(** the identifiers in an expression *)
Fixpoint creads (e : cexp) : list string :=
  match e with
  | CId x => [x] | CLit _ => [] | CField e _ => creads e | CBin _ a b => (creads a ++ creads b)%list
  | CApp _ args => flat_map creads args | CSet x _ e => x :: creads e
  end.
Definition ireads (i : instr) : list string := match i_exp i with Some e => creads e | None => [] end.
(** the names that are there from the start: those of the summary and of the function for
    selections, and those of the text around the instructions *)
Definition src_of (fns : list (string * expr)) (body : expr) (x : string) : Prop :=
  In x ["inputCoord"; "0"; "SW_LINEAR"; "SW_RD"; "sum"] \/ mentions x body = true \/
  exists sel b, select_fn fns = Ok sel /\ decl_body sel = Ok b /\ mentions x b = true.
Definition declares (i : instr) (x : string) : Prop := i_dest i = Some x /\ exists t, i_type i = Some t.
