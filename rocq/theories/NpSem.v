(** Specification of C45: NumPy values and the meaning of the expressions that the code
    generator writes; the meaning of the tensor functions; and for which expressions the
    two agree.  No model of code in /repo. *)

From Coq Require Import String Ascii List ZArith Bool.
From Verif Require Import Ast Semantics Dict PyGram RktModel LibSem NpModel.
Import ListNotations.
Local Open Scope string_scope.
Local Open Scope list_scope.

(** ** arrays *)
Inductive elt : Type := EI (z : Z) | EB (b : bool).
(** a scalar, a vector, or a matrix given by its rows (at least one row, all of one length) *)
Inductive arr (A : Type) : Type := AS (a : A) | AV (l : list A) | AM (m : list (list A)).
Arguments AS {A} a.
Arguments AV {A} l.
Arguments AM {A} m.
(** values of Python: arrays and numbers, lists and tuples, types of elements *)
Inductive nval : Type := NA (a : arr elt) | NSeq (l : list nval) | NType (x : string).

Definition zipO {A B C} (f : A -> B -> option C) (l : list A) (r : list B) : option (list C) :=
  mapO (fun p => f (fst p) (snd p)) (combine l r).
(** Broadcasting (NumPy user guide): along each axis the lengths are the same or one of
    them is 1.  Missing axes are added in front. *)
Definition stretch {A B C} (f : A -> B -> option C) (l : list A) (r : list B) : option (list C) :=
  if Nat.eqb (List.length l) (List.length r) then zipO f l r
  else match l, r with
       | [a], _ => mapO (f a) r
       | _, [b] => mapO (fun a => f a b) l
       | _, _ => None
       end.
Definition broadcast {A B C} (f : A -> B -> option C) (x : arr A) (y : arr B) : option (arr C) :=
  match x, y with
  | AS a, AS b => option_map AS (f a b)
  | AS a, AV r => option_map AV (mapO (f a) r)
  | AS a, AM n => option_map AM (mapO (mapO (f a)) n)
  | AV l, AS b => option_map AV (mapO (fun a => f a b) l)
  | AV l, AV r => option_map AV (stretch f l r)
  | AV l, AM n => option_map AM (stretch (stretch f) [l] n)
  | AM m, AS b => option_map AM (mapO (mapO (fun a => f a b)) m)
  | AM m, AV r => option_map AM (stretch (stretch f) m [r])
  | AM m, AM n => option_map AM (stretch (stretch f) m n)
  end.

(** truth and number of an element *)
Definition etrue (e : elt) : bool := match e with EI z => negb (Z.eqb z 0) | EB b => b end.
Definition ez (e : elt) : Z := match e with EI z => z | EB b => if b then 1%Z else 0%Z end.
Definition ecmp (o : cmp) (x y : elt) : option elt :=
  Some (EB (match o with
            | OEq => Z.eqb (ez x) (ez y) | OLt => Z.ltb (ez x) (ez y) | OLe => Z.leb (ez x) (ez y)
            | OGt => Z.ltb (ez y) (ez x) | OGe => Z.leb (ez y) (ez x)
            end)).
Definition elogic (f : bool -> bool -> bool) (x y : elt) : option elt := Some (EB (f (etrue x) (etrue y))).
Definition emap {A B} (f : A -> option B) (x : arr A) : option (arr B) :=
  match x with
  | AS a => option_map AS (f a)
  | AV l => option_map AV (mapO f l)
  | AM m => option_map AM (mapO (mapO f) m)
  end.
(** the truth of an array with several elements is ambiguous: ValueError *)
Definition ntrue (v : nval) : option bool := match v with NA (AS e) => Some (etrue e) | _ => None end.

(** positions, counted from the end if negative, and slices *)
Definition nindex {A} (l : list A) (i : Z) : option A :=
  let n := Z.of_nat (List.length l) in
  let j := if Z.ltb i 0 then (i + n)%Z else i in
  if Z.ltb j 0 then None else nth_error l (Z.to_nat j).
Definition nclamp {A} (l : list A) (i : Z) : nat :=
  let n := Z.of_nat (List.length l) in Z.to_nat (if Z.ltb i 0 then Z.max 0 (i + n) else Z.min i n).
Definition nslice {A} (lo hi : option Z) (l : list A) : list A :=
  let a := match lo with Some i => nclamp l i | None => 0 end in
  let b := match hi with Some i => nclamp l i | None => List.length l end in
  firstn (b - a) (skipn a l).

Section Np.
  (** Elements of arrays are machine integers: [W z] is what becomes of the number [z].
      (Python's own integers are exact; [W] is also used for them, which makes no
      difference for the numbers that [W] leaves alone.) *)
  Variable W : Z -> Z.
  Definition ei (z : Z) : option elt := Some (EI (W z)).

  (** Operations on elements.  In an array, the result of a division by 0 is 0.  Arithmetic
      with truth values and [/] are left out. *)
  Definition eop (o : bin) (x y : elt) : option elt :=
    match x, y with
    | EI a, EI b =>
        match o with
        | OAdd => ei (a + b) | OSub => ei (a - b) | OMul => ei (a * b)
        | OFloor => if Z.eqb b 0 then ei 0 else ei (a / b)
        | OMod => if Z.eqb b 0 then ei 0 else ei (a mod b)
        | ODiv => None
        end
    | _, _ => None
    end.
  (** ZeroDivisionError for numbers *)
  Definition nbin (o : bin) (x y : arr elt) : option nval :=
    match o, x, y with
    | (OFloor | OMod), AS _, AS (EI 0%Z) => None
    | _, _, _ => option_map NA (broadcast (eop o) x y)
    end.

  (** In sums and products of many numbers, [W] is applied to the result: modulo a power of
      2, this is the same as applying it after every step. *)
  Fixpoint esum (l : list elt) : option Z :=
    match l with [] => Some 0%Z | EI z :: r => option_map (Z.add z) (esum r) | _ => None end.
  Fixpoint eprod (l : list elt) : option Z :=
    match l with [] => Some 1%Z | EI z :: r => option_map (Z.mul z) (eprod r) | _ => None end.
  Fixpoint emax (l : list elt) : option Z :=
    match l with
    | [] => None
    | [EI z] => Some z
    | EI z :: r => option_map (Z.max z) (emax r)
    | _ => None
    end.
  Definition flat (x : arr elt) : list elt := match x with AS e => [e] | AV l => l | AM m => concat m end.
  Definition edot (l r : list elt) : option elt :=
    if Nat.eqb (List.length l) (List.length r)
    then match zipO (fun x y => match x, y with EI a, EI b => Some (EI (a * b)) | _, _ => None end) l r with
         | Some p => match esum p with Some z => ei z | None => None end
         | None => None
         end
    else None.
  Definition num_cols {A} (m : list (list A)) : nat := match m with r :: _ => List.length r | [] => 0 end.
  (** all parts are vectors, or all are matrices with the same number of columns *)
  Definition nconcat (l : list nval) : option nval :=
    match l with
    | [NA (AV x); NA (AV y)] => Some (NA (AV (x ++ y)))
    | [NA (AM x); NA (AM y)] => if Nat.eqb (num_cols x) (num_cols y) then Some (NA (AM (x ++ y))) else None
    | _ => None
    end.
  Definition as_elt (v : nval) : option elt := match v with NA (AS e) => Some e | _ => None end.
  Definition as_elts (v : nval) : option (list elt) := match v with NSeq l => mapO as_elt l | _ => None end.
  (** an array from a list of numbers, or from a list of rows *)
  Definition narray (l : list nval) : option (arr elt) :=
    match mapO as_elt l with
    | Some es => Some (AV es)
    | None => match mapO as_elts l with
              | Some (r :: m) => if forallb (fun s => Nat.eqb (List.length s) (List.length r)) m then Some (AM (r :: m)) else None
              | _ => None
              end
    end.

  Definition ufuncs : list (string * (elt -> elt -> option elt)) :=
    [("equal", ecmp OEq); ("greater", ecmp OGt); ("greater_equal", ecmp OGe); ("less", ecmp OLt); ("less_equal", ecmp OLe);
     ("logical_and", elogic andb); ("logical_or", elogic orb)].
  Definition axis0 : option string * nval := (Some "axis", NA (AS (EI 0))).
  Definition is_axis0 (x : option string * nval) : bool :=
    match x with (Some k, NA (AS (EI 0%Z))) => String.eqb k "axis" | _ => false end.
  (** functions of NumPy on arguments, some of them with a keyword; the functions with
      results that are not integers are left out *)
  Definition npcall (f : string) (args : list (option string * nval)) : option nval :=
    match args with
    | [(None, NA x); (None, NA y)] =>
        match dget ufuncs f with
        | Some g => option_map NA (broadcast g x y)
        | None => if String.eqb f "matmul"
                  then match x, y with AM m, AV v => option_map (fun l => NA (AV l)) (mapO (fun r => edot r v) m) | _, _ => None end
                  else None
        end
    | [(None, NA c); (None, NA x); (None, NA y)] =>
        if String.eqb f "where"
        then match broadcast (fun a b => Some (a, b)) x y with
             | Some z => option_map NA (broadcast (fun c (p : elt * elt) => Some (if etrue c then fst p else snd p)) c z)
             | None => None
             end
        else None
    | [(None, NA x)] =>
        if String.eqb f "logical_not" then option_map NA (emap (fun e => Some (EB (negb (etrue e)))) x)
        else if String.eqb f "sum" then match esum (flat x) with Some z => option_map (fun e => NA (AS e)) (ei z) | None => None end
        else if String.eqb f "prod" then match eprod (flat x) with Some z => option_map (fun e => NA (AS e)) (ei z) | None => None end
        else if String.eqb f "max" then option_map (fun z => NA (AS (EI z))) (emax (flat x))
        else None
    | [(None, NSeq l)] => if String.eqb f "array" then option_map NA (narray l) else None
    | [(None, NSeq l); k] => if String.eqb f "concatenate" && is_axis0 k then nconcat l else None
    | [(None, NA x); k] =>
        if String.eqb f "expand_dims" && is_axis0 k
        then match x with AS e => Some (NA (AV [e])) | AV l => Some (NA (AM [l])) | AM _ => None end
        else None
    | _ => None
    end.

  (** the variables *)
  Variable E : string -> option nval.
  Fixpoint npvalue (p : pexp) : option nval :=
    match p with
    | PName x => E x
    | PNum z => Some (NA (AS (EI z)))
    | PBoolE b => Some (NA (AS (EB b)))
    | PBin o a b => match npvalue a, npvalue b with Some (NA x), Some (NA y) => nbin o x y | _, _ => None end
    | PNeg a => match npvalue a with Some (NA (AS (EI z))) => Some (NA (AS (EI (- z)))) | _ => None end
    | PCmp a l =>
        (* as in PyGram.v, element by element *)
        match npvalue a with
        | Some (NA x) => (fix chain (x : arr elt) (l : list (cmp * pexp)) : option nval :=
                            match l with
                            | [] => None
                            | (o, b) :: l =>
                                match npvalue b with
                                | Some (NA y) =>
                                    match broadcast (ecmp o) x y with
                                    | Some z => match l with
                                                | [] => Some (NA z)
                                                | _ => match ntrue (NA z) with
                                                       | Some true => chain y l
                                                       | Some false => Some (NA z)
                                                       | None => None
                                                       end
                                                end
                                    | None => None
                                    end
                                | _ => None
                                end
                            end) x l
        | _ => None
        end
    | PNot a => match npvalue a with Some v => option_map (fun b => NA (AS (EB (negb b)))) (ntrue v) | None => None end
    | PAnd a b => match npvalue a with Some v => match ntrue v with Some true => npvalue b | Some false => Some v | None => None end | None => None end
    | POr a b => match npvalue a with Some v => match ntrue v with Some true => Some v | Some false => npvalue b | None => None end | None => None end
    | PCond c a b => match npvalue c with
                     | Some v => match ntrue v with Some true => npvalue a | Some false => npvalue b | None => None end
                     | None => None
                     end
    | PCall f args =>
        match mapO (fun a => match a with PKw k b => option_map (pair (Some k)) (npvalue b) | _ => option_map (pair None) (npvalue a) end) args with
        | Some vs =>
            match f with
            | PAttr (PName "np") g => npcall g vs
            | PAttr a "astype" =>
                match npvalue a, vs with
                | Some (NA x), [(None, NType _)] =>
                    option_map NA (emap (fun e => match e with EI z => ei z | EB _ => None end) x)
                | _, _ => None
                end
            | _ => None
            end
        | None => None
        end
    | PIndex a i =>
        match npvalue a, npvalue i with
        | Some (NA (AV l)), Some (NA (AS (EI z))) => option_map (fun e => NA (AS e)) (nindex l z)
        | Some (NA (AM m)), Some (NA (AS (EI z))) => option_map (fun r => NA (AV r)) (nindex m z)
        | _, _ => None
        end
    | PSlice a lo hi =>
        let bound o := match o with
                       | None => Some None
                       | Some b => match npvalue b with Some (NA (AS (EI z))) => Some (Some z) | _ => None end
                       end in
        match npvalue a, bound lo, bound hi with
        | Some (NA (AV l)), Some lo, Some hi => Some (NA (AV (nslice lo hi l)))
        | Some (NA (AM m)), Some lo, Some hi => Some (NA (AM (nslice lo hi m)))
        | _, _, _ => None
        end
    | PCols a lo hi =>
        match npvalue a, npvalue lo, npvalue hi with
        | Some (NA (AM m)), Some (NA (AS (EI i))), Some (NA (AS (EI j))) => Some (NA (AM (map (nslice (Some i) (Some j)) m)))
        | _, _, _ => None
        end
    | PAttr a x =>
        match a with
        | PName "np" => if smem x ["uint8"; "int32"; "float32"] then Some (NType x) else None
        | _ => match npvalue a with
               | Some (NA v) => if String.eqb x "size" then Some (NA (AS (EI (Z.of_nat (List.length (flat v)))))) else None
               | _ => None
               end
        end
    | PTuple l => option_map NSeq (mapO npvalue l)
    | PList l => option_map NSeq (mapO (fun x : bool * pexp => if fst x then None else npvalue (snd x)) l)
    | PKw _ _ => None
    end.
End Np.

(** ** the tensor functions *)
Definition rectb (m : list (list Z)) : bool :=
  match m with [] => false | r :: _ => forallb (fun s => Nat.eqb (List.length s) (List.length r)) m end.
Definition same_dim (m n : list (list Z)) : bool :=
  rectb m && rectb n && Nat.eqb (List.length m) (List.length n) && Nat.eqb (num_cols m) (num_cols n).
(** division by a positive number (by others, the solver and Python differ) *)
Definition pdiv (a b : Z) : option Z := if Z.ltb 0 b then Some (a / b)%Z else None.
Definition tadd (a b : Z) : option Z := Some (a + b)%Z.
Definition tsub (a b : Z) : option Z := Some (a - b)%Z.
Definition tmul (a b : Z) : option Z := Some (a * b)%Z.
Definition flip {A B C} (f : A -> B -> C) : B -> A -> C := fun b a => f a b.
Definition vec_elemwise : list (string * (Z -> Z -> option Z)) :=
  [("vec_elemwise_add", tadd); ("vec_elemwise_sub", tsub); ("vec_elemwise_mul", tmul); ("vec_elemwise_div", pdiv)].
Definition mat_elemwise : list (string * (Z -> Z -> option Z)) :=
  [("matrix_elemwise_add", tadd); ("matrix_elemwise_sub", tsub); ("matrix_elemwise_mul", tmul); ("matrix_elemwise_div", pdiv)].
(** with a scalar as first argument; the operation is applied to the scalar and an element *)
Definition vec_scalar : list (string * (Z -> Z -> option Z)) :=
  [("vec_scalar_add", tadd); ("vec_scalar_mul", tmul); ("vec_scalar_sub", flip tsub); ("vec_scalar_div", flip pdiv);
   ("scalar_vec_sub", tsub); ("scalar_vec_div", pdiv)].
Definition mat_scalar : list (string * (Z -> Z -> option Z)) :=
  [("matrix_scalar_add", tadd); ("matrix_scalar_mul", tmul); ("matrix_scalar_sub", flip tsub); ("matrix_scalar_div", flip pdiv);
   ("scalar_matrix_sub", tsub); ("scalar_matrix_div", pdiv)].
Definition zdot (l r : list Z) : Z := fold_right Z.add 0%Z (map (fun p => (fst p * snd p)%Z) (combine l r)).
Definition inb {A} (l : list A) (i : Z) : bool := Z.leb 0 i && Z.ltb i (Z.of_nat (List.length l)).
Definition between_ {A} (i j : Z) (l : list A) : list A := firstn (Z.to_nat j - Z.to_nat i) (skipn (Z.to_nat i) l).
(** at least one row, rows of one length *)
Definition rows (m : list (list Z)) : option dval := if rectb m then Some (DM m) else None.
Definition rows_of (m : option (list (list Z))) : option dval := match m with Some m => rows m | None => None end.

(** What the functions compute, on arguments that fit: vectors and matrices of the same
    dimensions, positions in range, matrices with at least one row. *)
Definition tmean (f : string) (ds : list dval) : option dval :=
  match ds with
  | [DL l; DL r] =>
      match dget vec_elemwise f with
      | Some g => if Nat.eqb (List.length l) (List.length r) then option_map DL (zipO g l r) else None
      | None => None
      end
  | [DM m; DM n] =>
      match dget mat_elemwise f with Some g => if same_dim m n then rows_of (zipO (zipO g) m n) else None | None => None end
  | [DZ a; DL l] => match dget vec_scalar f with Some g => option_map DL (mapO (g a) l) | None => None end
  | [DZ a; DM m] => match dget mat_scalar f with Some g => rows_of (mapO (mapO (g a)) m) | None => None end
  | [DM m; DL v] =>
      if String.eqb f "matrix_vec_mul"
      then if negb (Nat.eqb (List.length v) 0) && rectb m && Nat.eqb (num_cols m) (List.length v) then Some (DL (map (fun r => zdot r v) m)) else None
      else if String.eqb f "matrix_append"
      then if rectb m && Nat.eqb (num_cols m) (List.length v) then rows (m ++ [v]) else None
      else None
  | [DL l] =>
      if String.eqb f "list_length" then Some (DZ (Z.of_nat (List.length l)))
      else if String.eqb f "reduce_sum" then Some (DZ (fold_right Z.add 0%Z l))
      else if String.eqb f "reduce_mul" then Some (DZ (fold_right Z.mul 1%Z l))
      else if String.eqb f "reduce_max" then match l with [] => None | x :: r => Some (DZ (fold_right Z.max x r)) end
      else None
  | [DL l; DZ i] =>
      if String.eqb f "list_get" then if inb l i then Some (DZ (nth (Z.to_nat i) l 0%Z)) else None
      else if String.eqb f "list_append" then Some (DL (l ++ [i]))
      else if String.eqb f "list_take" then if Z.leb 0 i then Some (DL (firstn (Z.to_nat i) l)) else None
      else None
  | [DM m; DZ i] =>
      if negb (rectb m) then None
      else if String.eqb f "matrix_get" then if inb m i then Some (DL (nth (Z.to_nat i) m [])) else None
      else if String.eqb f "matrix_take" then if Z.leb 0 i then rows (firstn (Z.to_nat i) m) else None
      else if String.eqb f "matrix_tail" then if Z.leb 0 i then rows (skipn (Z.to_nat i) m) else None
      else None
  | [DL l; DZ i; DZ j] =>
      if Z.leb 0 i && Z.leb 0 j
      then if String.eqb f "vec_slice" then Some (DL (between_ i j l))
           else if String.eqb f "vec_slice_with_length" then Some (DL (between_ i (i + j) l))
           else None
      else None
  | [DM m; DZ i; DZ j] =>
      if Z.leb 0 i && Z.leb 0 j && rectb m
      then if String.eqb f "matrix_row_slice" then rows (between_ i j m)
           else if String.eqb f "matrix_row_slice_with_length" then rows (between_ i (i + j) m)
           else if String.eqb f "matrix_col_slice" then rows (map (between_ i j) m)
           else if String.eqb f "matrix_col_slice_with_length" then rows (map (between_ i (i + j)) m)
           else None
      else None
  | _ => None
  end.

(** The function that the generator takes for selections (the last one with such a name):
    its name, its parameters, and the condition and the branches of its body. *)
Definition var_of (e : expr) : option string := match e with Node KVar _ [Atom (PStr x)] => Some x | _ => None end.
Definition ite_of (e : expr) : option (expr * expr * expr) := match e with Node KIte _ [c; a; b] => Some (c, a, b) | _ => None end.
Definition fun_of (e : expr) : option (expr * list expr) :=
  match e with Node (KFnDeclRec | KFnDecl | KTarget) _ (_ :: body :: ps) => Some (body, ps) | _ => None end.
Definition chosen (fns : list (string * expr)) : option (string * (string * string) * (expr * expr * expr)) :=
  match filter (fun x => ends_with "select_two_args" (fst x)) (rev fns) with
  | (h, s) :: _ =>
      match fun_of s with
      | Some (body, [x; y]) =>
          match ite_of body, var_of x, var_of y with Some cab, Some p, Some q => Some (h, (p, q), cab) | _, _, _ => None end
      | _ => None
      end
  | [] => None
  end.
Definition no_vars : env := fun _ => None.
Definition bind2 (p q : string) (x y : Z) : env := upd (upd no_vars p (VInt x)) q (VInt y).

(** An interpretation of expressions in which the tensor functions have this meaning, and
    the selecting function that of its body. *)
Record tensor_like (fns : list (string * expr)) (I : interp) : Prop := {
  tl_div : forall a b, (0 < b)%Z -> i_div I a b = Some (a / b)%Z;
  tl_mod : forall a b, (0 < b)%Z -> i_mod I a b = Some (a mod b)%Z;
  tl_lib : follows tmean I;
  tl_sel : forall h g m n, (forall x y, i_call I h [VInt x; VInt y] = option_map VInt (g x y)) -> same_dim m n = true ->
    i_call I "matrix_selection_two_args" [vm m; vm n; VFn h] = option_map vm (zipO (zipO g) m n);
  tl_fun : forall h p q c a b, chosen fns = Some (h, (p, q), (c, a, b)) ->
    forall x y, i_call I h [VInt x; VInt y] = eval I (bind2 p q x y) (Node KIte TInt [c; a; b]) }.

(** ** how values correspond *)
Definition proper (d : dval) : Prop :=
  match d with DZ _ | DB _ | DL _ => True | DM m => rectb m = true | DT _ => False end.
Definition arr_of (d : dval) : arr elt :=
  match d with
  | DZ z => AS (EI z) | DB b => AS (EB b) | DL l => AV (map EI l) | DM m => AM (map (map EI) m) | DT _ => AV []
  end.
(** the variables have the same values, as arrays *)
Definition same_vars (r : env) (E : string -> option nval) : Prop :=
  forall x d, proper d -> r x = Some (emb d) -> E x = Some (NA (arr_of d)).

(** slices given by their length *)
Definition f_range_len : list string := ["vec_slice_with_length"; "matrix_row_slice_with_length"; "matrix_col_slice_with_length"].

Section Fits.
  Variables (lo hi : Z) (I : interp).
  Definition within (d : dval) : Prop :=
    let ok z := (lo <= z <= hi)%Z in
    match d with DZ z => ok z | DB _ => True | DL l => Forall ok l | DM m => Forall (Forall ok) m | DT _ => False end.
  (** the end of a slice given by its length *)
  Definition end_fits (f : string) (ds : list dval) : Prop :=
    match ds with [_; DZ i; DZ j] => if smem f f_range_len then (lo <= i + j <= hi)%Z else True | _ => True end.
  (** what is asked of the selections *)
  Variable Sel : env -> list expr -> Prop.
  (** Every part of the expression that is evaluated has a value that is an integer, a truth
      value, a vector or a matrix, with integers between [lo] and [hi]; divisors are
      positive; the operands of [==] are integers; the arguments of functions fit. *)
  Fixpoint fits (r : env) (e : expr) : Prop :=
    (exists d, proper d /\ within d /\ eval I r e = Some (emb d)) /\
    match e with
    | Atom _ => True
    | Node k t args =>
        let all := (fix all (l : list expr) : Prop := match l with [] => True | a :: l => fits r a /\ all l end) in
        match k with
        | KIte => match args with
                  | [c; a; b] => fits r c /\ (eval I r c = Some (VBool true) -> fits r a) /\ (eval I r c = Some (VBool false) -> fits r b)
                  | _ => True
                  end
        | KVar | KLit => True
        | KCall => match args with
                   | Atom (PStr f) :: rest =>
                       if String.eqb f "matrix_selection_two_args"
                       then match rest with m :: n :: _ => fits r m /\ fits r n /\ Sel r rest | _ => True end
                       else all rest /\ exists ds v, Forall proper ds /\ mapO (eval I r) rest = Some (map emb ds) /\ tmean f ds = Some v /\ end_fits f ds
                   | _ => True
                   end
        | KEq => all args /\ Forall (fun a => exists z, eval I r a = Some (VInt z)) args
        | KDiv | KMod => all args /\ forall a b, mapO (eval I r) args = Some [VInt a; VInt b] -> (0 < b)%Z
        | _ => all args
        end
    end.
End Fits.
(** The parts of the body of the selecting function do so for all pairs of elements. *)
Definition select_fits (fns : list (string * expr)) (lo hi : Z) (I : interp) (r : env) (args : list expr) : Prop :=
  match args, chosen fns with
  | [m; n; s], Some (h, (p, q), (c, a, b)) =>
      exists M N, eval I r m = Some (vm M) /\ eval I r n = Some (vm N) /\ eval I r s = Some (VFn h) /\
        same_dim M N = true /\ num_cols M <> 0 /\
        forall x y, In (x, y) (combine (concat M) (concat N)) ->
          Forall (fits lo hi I (fun _ _ => False) (bind2 p q x y)) [c; a; b]
  | _, _ => False
  end.

(** ** the expressions whose text is right *)

(** how tightly texts bind: 0 conditional, 1 or, 2 and, 3 not, 4 comparison, 5 sum, 6
    product, 7 number, 8 the rest *)
Definition f_sum : list string :=
  ["vec_elemwise_add"; "matrix_elemwise_add"; "vec_scalar_add"; "matrix_scalar_add"; "vec_elemwise_sub"; "matrix_elemwise_sub";
   "scalar_vec_sub"; "scalar_matrix_sub"; "vec_scalar_sub"; "matrix_scalar_sub"].
Definition f_prod : list string :=
  ["vec_elemwise_mul"; "matrix_elemwise_mul"; "vec_scalar_mul"; "matrix_scalar_mul"; "vec_elemwise_div"; "matrix_elemwise_div";
   "scalar_vec_div"; "scalar_matrix_div"; "vec_scalar_div"; "matrix_scalar_div"].
Definition f_np1 : list string := ["reduce_sum"; "reduce_mul"; "reduce_max"].
Definition f_np2 : list string := ["matrix_vec_mul"; "list_append"; "matrix_append"].
Definition f_at : list string := ["list_get"; "matrix_get"; "list_take"; "matrix_take"; "matrix_tail"].
Definition f_range : list string := ["vec_slice"; "matrix_row_slice"; "matrix_col_slice"].

Definition prim (t : ty) : bool := match t with TInt | TBool => true | _ => false end.
(** the type that the generator works out for an arithmetic expression *)
Definition join_ty (t u : ty) : ty := match t with TInt => u | _ => t end.
Definition arith_level (k : kind) : option nat :=
  match k with KAdd | KSub => Some 5 | KMul | KDiv | KMod => Some 6 | _ => None end.
Definition is_cmp (k : kind) : bool := match k with KEq | KLt | KLe | KGt | KGe => true | _ => false end.
Definition lit (z : Z) : expr := Node KLit TInt [Atom (PInt z)].
Definition blit (b : bool) : expr := Node KLit TBool [Atom (PBool b)].
Definition var (x : string) (t : ty) : expr := Node KVar t [Atom (PStr x)].

Section Body.
  (** parameters of the selecting function; type and level of the texts put in their place *)
  Variables (p q : string) (tp : ty) (lp : nat) (tq : ty) (lq : nat).
  Inductive arith_part : expr -> ty -> nat -> Prop :=
  | a_first t : arith_part (var p t) tp lp
  | a_second t : arith_part (var q t) tq lq
  | a_lit z : arith_part (lit z) TInt 7
  | a_op k l t e f te lf tf le : arith_level k = Some l -> arith_part e te le -> arith_part f tf lf ->
      arith_part (Node k t [e; f]) (join_ty te tf) l.
  Inductive bool_part : expr -> ty -> nat -> Prop :=
  | b_lit b : bool_part (blit b) TBool 8
  | b_cmp k t e f le lf : is_cmp k = true -> arith_part e TInt le -> arith_part f TInt lf -> 5 <= le -> 5 <= lf ->
      bool_part (Node k t [e; f]) TBool 4
  | b_cmps k t e f te le tf lf : is_cmp k = true -> arith_part e te le -> arith_part f tf lf -> te <> TInt \/ tf <> TInt ->
      bool_part (Node k t [e; f]) (TList TBool) 8
  | b_and t e f te le tf lf : bool_part e te le -> bool_part f tf lf ->
      bool_part (Node KAnd t [e; f]) (if prim te && prim tf then TBool else TList TBool) (if prim te && prim tf then 2 else 8)
  | b_or t e f te le tf lf : bool_part e te le -> bool_part f tf lf ->
      bool_part (Node KOr t [e; f]) (if prim te && prim tf then TBool else TList TBool) (if prim te && prim tf then 1 else 8)
  | b_not t e te le : bool_part e te le -> prim te = true -> 3 <= le -> bool_part (Node KNot t [e]) TBool 3
  | b_nots t e te le : bool_part e te le -> prim te = false -> bool_part (Node KNot t [e]) (TList TBool) 8.
End Body.

Fixpoint var_names (e : expr) : list string :=
  match e with
  | Atom _ => []
  | Node KVar _ [Atom (PStr x)] => [x]
  | Node _ _ args => flat_map var_names args
  end.

Section Shown.
  Variable fns : list (string * expr).
  (** [shown e t l]: the text of [e] is right; [t] is its type for the generator, [l] how
      tightly it binds *)
  Inductive shown : expr -> ty -> nat -> Prop :=
  | s_var x t : py_name x = true -> x <> "np" -> shown (var x t) t 8
  | s_lit z : shown (lit z) TInt 7
  | s_blit b : shown (blit b) TBool 8
  | s_arith k l t e f te le tf lf : arith_level k = Some l -> shown e te le -> shown f tf lf ->
      shown (Node k t [e; f]) (join_ty te tf) l
  | s_cmp k t e f le lf : is_cmp k = true -> shown e TInt le -> shown f TInt lf -> 5 <= le -> 5 <= lf ->
      shown (Node k t [e; f]) TBool 4
  | s_and t e f te le tf lf : shown e te le -> shown f tf lf -> prim te = true -> prim tf = true -> shown (Node KAnd t [e; f]) TBool 2
  | s_or t e f te le tf lf : shown e te le -> shown f tf lf -> prim te = true -> prim tf = true -> shown (Node KOr t [e; f]) TBool 1
  | s_not t e te le : shown e te le -> prim te = true -> 3 <= le -> shown (Node KNot t [e]) TBool 3
  | s_ite t c a b u tc lc la lb : shown c tc lc -> 1 <= lc -> shown a u la -> 1 <= la -> shown b u lb -> type_of a = Ok u ->
      shown (Node KIte t [c; a; b]) u 0
  | s_sum f t a b ta la tb lb : smem f f_sum = true -> shown a ta la -> shown b tb lb -> shown (Node KCall t [Atom (PStr f); a; b]) t 5
  | s_prod f t a b ta la tb lb : smem f f_prod = true -> shown a ta la -> shown b tb lb -> shown (Node KCall t [Atom (PStr f); a; b]) t 6
  | s_np1 f t a ta la : smem f f_np1 = true -> shown a ta la -> shown (Node KCall t [Atom (PStr f); a]) t 8
  | s_np2 f t a b ta la tb lb : smem f f_np2 = true -> shown a ta la -> shown b tb lb -> shown (Node KCall t [Atom (PStr f); a; b]) t 8
  | s_size t a ta : shown a ta 8 -> shown (Node KCall t [Atom (PStr "list_length"); a]) t 8
  | s_at f t a i ta ti li : smem f f_at = true -> shown a ta 8 -> shown i ti li -> shown (Node KCall t [Atom (PStr f); a; i]) t 8
  | s_range f t a i j ta ti li tj lj : smem f f_range = true -> shown a ta 8 -> shown i ti li -> shown j tj lj ->
      shown (Node KCall t [Atom (PStr f); a; i; j]) t 8
  | s_range_len f t a i j ta ti li tj lj : smem f f_range_len = true -> shown a ta 8 -> shown i ti li -> 5 <= li -> shown j tj lj -> 6 <= lj ->
      shown (Node KCall t [Atom (PStr f); a; i; j]) t 8
  (** selections: the variables of the arguments are not called like the parameters; some
      part of the body uses a parameter *)
  | s_select t m n s ts h p q c a b lm ln tc lc ta la tb lb :
      chosen fns = Some (h, (p, q), (c, a, b)) -> p <> q ->
      shown m (TMatrix TInt) lm -> shown n (TMatrix TInt) ln ->
      (forall x, In x (var_names m ++ var_names n) -> x <> p /\ x <> q) ->
      bool_part p q (TMatrix TInt) lm (TMatrix TInt) ln c tc lc ->
      arith_part p q (TMatrix TInt) lm (TMatrix TInt) ln a ta la -> arith_part p q (TMatrix TInt) lm (TMatrix TInt) ln b tb lb ->
      (exists x, In x (var_names c ++ var_names a ++ var_names b)) ->
      shown (Node KCall t [Atom (PStr "matrix_selection_two_args"); m; n; var s ts]) t 8.
End Shown.
