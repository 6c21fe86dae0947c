(** Specification of C56: the meaning of the expressions that the generators for MLX,
    TensorFlow and PyTorch write, and for which expressions it is the right one.  Arrays and
    the tensor functions are those of NpSem.v.  No model of code in /repo. *)

From Coq Require Import String Ascii List ZArith Bool.
From Verif Require Import Ast Semantics Dict PyGram RktModel LibSem NpModel NpSem AlModel.
Import ListNotations.
Local Open Scope string_scope.
Local Open Scope list_scope.

(** functions that do what the NumPy function of the second name does *)
Definition elementwise : list (string * string) :=
  [("greater", "greater"); ("greater_equal", "greater_equal"); ("less", "less"); ("less_equal", "less_equal");
   ("logical_and", "logical_and"); ("logical_or", "logical_or"); ("logical_not", "logical_not"); ("where", "where")].
Definition like_numpy (L : lib) : list (string * string) :=
  elementwise ++
  match L with
  | MLX => [("equal", "equal"); ("matmul", "matmul"); ("sum", "sum"); ("prod", "prod"); ("max", "max"); ("concatenate", "concatenate"); ("expand_dims", "expand_dims")]
  | TF => [("equal", "equal"); ("reduce_sum", "sum"); ("reduce_prod", "prod"); ("reduce_max", "max"); ("concat", "concatenate")]
  | TORCH => [("eq", "equal"); ("matmul", "matmul"); ("sum", "sum"); ("prod", "prod"); ("max", "max")]
  end.
Definition no_axis (v : option string * nval) : bool := match snd v with NA (AS _) => true | _ => false end.
(** Numbers of Python where an array is needed (TypeError): PyTorch compares tensors with
    tensors or numbers, in this order; its logical functions take tensors; [expand_dims] of
    MLX takes arrays, and its [matmul] only arrays of numbers of type float32 ([fl]).  (Arrays without axes are not distinguished from numbers: the rule is
    stricter than necessary for them.) *)
Definition refused (L : lib) (fl : bool) (g : string) (vs : list (option string * nval)) : bool :=
  match L with
  | MLX => (String.eqb g "expand_dims" && existsb no_axis (firstn 1 vs)) || (String.eqb g "matmul" && negb fl)
  | TF => false
  | TORCH => (smem g ["eq"; "greater"; "greater_equal"; "less"; "less_equal"] && existsb no_axis (firstn 1 vs)) ||
             (smem g ["logical_and"; "logical_or"; "logical_not"] && existsb no_axis vs)
  end.
Definition zero (v : nval) : bool := match v with NA (AS (EI 0%Z)) => true | _ => false end.

Section Value.
  Variable L : lib.
  (** [W], as in NpSem.v: what becomes of a number as an element of an array.  With elements
      of type float32, integers up to 2^24 are left alone. *)
  Variable W : Z -> Z.
  (** whether the elements of arrays are of type float32 *)
  Variable fl : bool.
  (** an array from lists, with elements of a given type *)
  Definition stored (l : list nval) : option nval :=
    match narray l with
    | Some x => option_map NA (emap (fun e => match e with EI z => ei W z | EB _ => None end) x)
    | None => None
    end.
  Definition count (v : arr elt) : nval := NA (AS (EI (Z.of_nat (List.length (flat v))))).
  (** the functions of the library *)
  Definition lcall (g : string) (vs : list (option string * nval)) : option nval :=
    if refused L fl g vs then None else
    match dget (like_numpy L) g with
    | Some g' => npcall W g' vs
    | None =>
        match L, vs with
        | MLX, [(None, NSeq l); (None, NType _)] => if String.eqb g "array" then stored l else None
        | TF, [(None, NSeq l); (Some k, NType _)] => if String.eqb g "convert_to_tensor" && String.eqb k "dtype" then stored l else None
        | TORCH, [(None, NSeq l); (Some k, NType _)] => if String.eqb g "tensor" && String.eqb k "dtype" then stored l else None
        | TF, [(None, NA x); (None, i)] => if String.eqb g "expand_dims" && zero i then npcall W "expand_dims" [(None, NA x); axis0] else None
        | TF, [(None, NA x)] => if String.eqb g "size" then Some (count x) else None
        | TORCH, [(None, NSeq l); (Some k, i)] =>
            if String.eqb g "cat" && String.eqb k "dim" && zero i then npcall W "concatenate" [(None, NSeq l); axis0] else None
        | TORCH, [(None, NA (AS e))] => if String.eqb g "tensor" then Some (NA (AS e)) else None
        | _, _ => None
        end
    end.
  (** methods of arrays: in PyTorch, the length of the first axis, and a new first axis *)
  Definition method (g : string) (x : arr elt) (vs : list (option string * nval)) : option nval :=
    match L, vs with
    | TORCH, [(Some k, i)] =>
        if String.eqb g "size" && String.eqb k "dim" && zero i
        then match x with
             | AS _ => None
             | AV l => Some (NA (AS (EI (Z.of_nat (List.length l)))))
             | AM m => Some (NA (AS (EI (Z.of_nat (List.length m)))))
             end
        else None
    | TORCH, [(None, i)] => if String.eqb g "unsqueeze" && zero i then match x with AV l => Some (NA (AM [l])) | _ => None end else None
    | _, _ => None
    end.
  Definition is_module (p : pexp) : bool := match p with PName m => String.eqb m (module L) | _ => false end.
  Definition is_linalg (p : pexp) : bool :=
    match L, p with TF, PAttr m x => is_module m && String.eqb x "linalg" | _, _ => false end.

  (** the variables *)
  Variable E : string -> option nval.
  (** operators, positions and slices as in NpSem.v *)
  Fixpoint lvalue (p : pexp) : option nval :=
    match p with
    | PName x => E x
    | PNum z => Some (NA (AS (EI z)))
    | PBoolE b => Some (NA (AS (EB b)))
    | PBin o a b => match lvalue a, lvalue b with Some (NA x), Some (NA y) => nbin W o x y | _, _ => None end
    | PNeg a => match lvalue a with Some (NA (AS (EI z))) => Some (NA (AS (EI (- z)))) | _ => None end
    | PCmp a [(o, b)] =>
        match lvalue a, lvalue b with Some (NA x), Some (NA y) => option_map NA (broadcast (ecmp o) x y) | _, _ => None end
    | PCmp _ _ => None                                          (* chains are not written *)
    | PNot a => match lvalue a with Some v => option_map (fun b => NA (AS (EB (negb b)))) (ntrue v) | None => None end
    | PAnd a b => match lvalue a with Some v => match ntrue v with Some true => lvalue b | Some false => Some v | None => None end | None => None end
    | POr a b => match lvalue a with Some v => match ntrue v with Some true => Some v | Some false => lvalue b | None => None end | None => None end
    | PCond c a b => match lvalue c with
                     | Some v => match ntrue v with Some true => lvalue a | Some false => lvalue b | None => None end
                     | None => None
                     end
    | PCall f args =>
        match mapO (fun a => match a with PKw k b => option_map (pair (Some k)) (lvalue b) | _ => option_map (pair None) (lvalue a) end) args with
        | Some vs =>
            match f with
            | PAttr a g =>
                if is_module a then lcall g vs
                else if is_linalg a then (if String.eqb g "matvec" then npcall W "matmul" vs else None)
                else match lvalue a with Some (NA x) => method g x vs | _ => None end
            | _ => None
            end
        | None => None
        end
    | PIndex a i =>
        match lvalue a, lvalue i with
        | Some (NA (AV l)), Some (NA (AS (EI z))) => option_map (fun e => NA (AS e)) (nindex l z)
        | Some (NA (AM m)), Some (NA (AS (EI z))) => option_map (fun r => NA (AV r)) (nindex m z)
        | _, _ => None
        end
    | PSlice a lo hi =>
        let bound o := match o with
                       | None => Some None
                       | Some b => match lvalue b with Some (NA (AS (EI z))) => Some (Some z) | _ => None end
                       end in
        match lvalue a, bound lo, bound hi with
        | Some (NA (AV l)), Some lo, Some hi => Some (NA (AV (nslice lo hi l)))
        | Some (NA (AM m)), Some lo, Some hi => Some (NA (AM (nslice lo hi m)))
        | _, _, _ => None
        end
    | PCols a lo hi =>
        match lvalue a, lvalue lo, lvalue hi with
        | Some (NA (AM m)), Some (NA (AS (EI i))), Some (NA (AS (EI j))) => Some (NA (AM (map (nslice (Some i) (Some j)) m)))
        | _, _, _ => None
        end
    | PAttr a x =>
        if is_module a then (if smem x ["uint8"; "int32"; "float32"] then Some (NType x) else None)
        else match L, lvalue a with
             | MLX, Some (NA v) => if String.eqb x "size" then Some (count v) else None
             | _, _ => None
             end
    | PTuple l => option_map NSeq (mapO lvalue l)
    | PList l => option_map NSeq (mapO (fun x : bool * pexp => if fst x then None else lvalue (snd x)) l)
    | PKw _ _ => None
    end.
End Value.

(** ** the expressions whose text is right: those of [shown] (NpSem.v) with these conditions *)

(** numbers that are not read from an array (positions are not elements of arrays, which may
    be of type float32 or uint8) *)
Fixpoint position (e : expr) : bool :=
  match e with
  | Node KVar TInt _ | Node KLit _ _ => true
  | Node (KAdd | KSub | KMul | KDiv | KMod) _ [a; b] => position a && position b
  | Node KCall _ (Atom (PStr f) :: _) => String.eqb f "list_length"
  | _ => false
  end.
(** texts to which a method call can be added *)
Definition tight (e : expr) : bool :=
  match e with
  | Node KVar _ _ => true
  | Node KCall _ (Atom (PStr f) :: _) => negb (smem f (f_sum ++ f_prod))
  | _ => false
  end.
Definition int32 (d : dtype) : bool := match d with INT32 => true | _ => false end.
(** What a library lacks: TensorFlow does not mix types of elements (the length of a vector
    and a number appended to a vector are of type int32), nor multiply matrices of type
    uint8; only TensorFlow adds an axis to a number; in PyTorch [.unsqueeze(0)] is put
    behind the second argument of [matrix_append] as it is. *)
Definition call_ok (L : lib) (d : dtype) (f : string) (args : list expr) : bool :=
  if String.eqb f "list_append" then match L with TF => int32 d | _ => false end
  else if String.eqb f "matrix_append" then match L, args with TORCH, [_; b] => tight b | _, _ => true end
  else if smem f ["list_length"; "matrix_vec_mul"] then match L with TF => int32 d | _ => true end
  else if smem f (f_at ++ f_range ++ f_range_len) then forallb position (tl args)
  else true.
Fixpoint portable (L : lib) (d : dtype) (e : expr) : bool :=
  match e with
  | Atom _ => true
  | Node k _ args =>
      match k, args with
      | KVar, [Atom (PStr x)] => negb (String.eqb x (module L))
      | KCall, Atom (PStr f) :: rest => call_ok L d f rest
      | _, _ => true
      end && forallb (portable L d) args
  end.
(** In the body of the selecting function, for PyTorch: a comparison that involves an array
    has one as its first operand, and [and] and [or] do not mix truth values and arrays. *)
Definition uses (e : expr) : bool := match var_names e with [] => false | _ => true end.
Fixpoint torch_cond (e : expr) : bool :=
  match e with
  | Node (KEq | KLt | KLe | KGt | KGe) _ [a; b] => uses a || negb (uses b)
  | Node (KAnd | KOr) _ [a; b] => Bool.eqb (uses a) (uses b) && torch_cond a && torch_cond b
  | Node KNot _ [a] => torch_cond a
  | _ => true
  end.
Definition select_ok (L : lib) (fns : list (string * expr)) : Prop :=
  L = TORCH -> forall h p q c a b, chosen fns = Some (h, (p, q), (c, a, b)) -> torch_cond c = true.
