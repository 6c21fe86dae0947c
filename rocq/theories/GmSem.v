(** What the C statements of Gemmini kernels do, and what the theorem about the kernels asks
    of a summary (reference definitions, no model of code in /repo).  The functions of the
    accelerator are described as the portable code in gemmini.h runs them, which is not part
    of /repo. *)

From Coq Require Import String Ascii List ZArith Bool.
From Verif Require Import Ast Semantics SmtPrelude SmtProofs RktModel LibSem PyGram NpSem GmModel.
Import ListNotations.
Local Open Scope Z_scope.
Local Open Scope list_scope.
Local Open Scope string_scope.

(** arrays [elem_t x[LEN][LEN]] and numbers; what is read from an array is an [elem_t] *)
Inductive gv : Type := Arr (m : nat -> nat -> Z) | Num (z : Z).
Definition state : Type := string -> option gv.
Definition put (st : state) (x : string) (v : gv) : state := fun y => if String.eqb x y then Some v else st y.

(** [elem_t] is [int8_t]: assignments wrap around, the functions of the accelerator saturate *)
Definition wrap8 (z : Z) : Z := (z + 128) mod 256 - 128.
Definition clip8 (z : Z) : Z := Z.max (-128) (Z.min 127 z).
(** [int]: overflow is undefined *)
Definition int32 (z : Z) : option Z := if Z.leb (-2147483648) z && Z.leb z 2147483647 then Some z else None.

Section Run.
  (** LEN, and the contents of static arrays when a call starts *)
  Variables (len : nat) (junk : string -> nat -> nat -> Z).

  Definition position (z : Z) : option nat := if Z.leb 0 z && Z.ltb z (Z.of_nat len) then Some (Z.to_nat z) else None.

  (** The value of an expression.  Its text is read by the grammar of PyGram.v: for names,
      numbers, parentheses, indices and [+ - *] that of C is the same. *)
  Fixpoint ceval (st : state) (p : pexp) : option Z :=
    match p with
    | PNum z => int32 z
    | PName x => if String.eqb x "LEN" then Some (Z.of_nat len) else match st x with Some (Num z) => Some z | _ => None end
    | PNeg a => match ceval st a with Some x => int32 (- x) | None => None end
    | PBin o a b =>
        match ceval st a, ceval st b with
        | Some x, Some y => match o with OAdd => int32 (x + y) | OSub => int32 (x - y) | OMul => int32 (x * y) | _ => None end
        | _, _ => None
        end
    | PIndex (PIndex (PName x) i) j =>
        match st x, ceval st i, ceval st j with
        | Some (Arr m), Some a, Some b =>
            match position a, position b with Some a, Some b => Some (wrap8 (m a b)) | _, _ => None end
        | _, _, _ => None
        end
    | _ => None
    end.
  Definition value_of (st : state) (s : string) (z : Z) : Prop := exists p, written s p /\ ceval st p = Some z.

  (** [x[i][j] = z;] *)
  Definition store (st : state) (x : string) (i j : nat) (z : Z) : option state :=
    match st x with
    | Some (Arr m) =>
        if Nat.ltb i len && Nat.ltb j len
        then Some (put st x (Arr (fun a b => if Nat.eqb a i && Nat.eqb b j then wrap8 z else m a b)))
        else None
    | _ => None
    end.
  (** [n] rounds, counting from [k] *)
  Fixpoint loop (n k : nat) (body : nat -> state -> option state) (st : state) : option state :=
    match n with
    | O => Some st
    | S n => match body k st with Some st => loop n (S k) body st | None => None end
    end.
  Definition at_ (st : state) (x : string) (i : nat) : state := put st x (Num (Z.of_nat i)).
  (** the number of rounds from [lo] to [hi] *)
  Definition rounds (lo hi : Z) : nat := Z.to_nat (hi - lo).
  Definition for1 (hi : Z) (out : string) (p : pexp) (st : state) : option state :=
    loop (rounds 0 hi) 0 (fun i st => match ceval (at_ st "i" i) p with Some z => store st out i 0 z | None => None end) st.
  Definition for2 (lo hi lo2 hi2 : Z) (out : string) (p : pexp) (st : state) : option state :=
    loop (rounds lo hi) (Z.to_nat lo) (fun i st =>
      loop (rounds lo2 hi2) (Z.to_nat lo2) (fun j st =>
        match ceval (at_ (at_ st "i" i) "j" j) p with Some z => store st out i j z | None => None end) st) st.
  (** [r] rows of [c] cells, one after the other in memory; both operands are scaled *)
  Definition resadd (r c sa sb : Z) (a b m : nat -> nat -> Z) : nat -> nat -> Z :=
    fun i j => if Nat.ltb j len && Z.ltb (Z.of_nat (i * len + j)) (r * c)
               then clip8 (clip8 (sa * wrap8 (a i j)) + clip8 (sb * wrap8 (b i j))) else m i j.
  (** a matrix of LEN rows and one column times one of one row and LEN columns, as the
      strides in the template (70) say *)
  Definition matmul (a b : nat -> nat -> Z) : nat -> nat -> Z := fun i j => clip8 (wrap8 (a 0%nat i) * wrap8 (b 0%nat j)).

  (** A statement takes a state to a state.  There is no rule for [GEMMINI_ACC_SCALE], which
      is not defined for arrays and has no effect on them, nor for [tiled_global_average]. *)
  Inductive step : stm -> state -> state -> Prop :=
  | s_decl x st : step (SDecl x) st (put st x (Arr (junk x)))
  | s_resadd r c sa sb a b out zr zc za zb ma mb mo st :
      value_of st r zr -> value_of st c zc -> value_of st sa za -> value_of st sb zb -> 0 <= zr -> 0 <= zc ->
      zr * zc <= Z.of_nat (len * len) -> st a = Some (Arr ma) -> st b = Some (Arr mb) -> st out = Some (Arr mo) ->
      step (SResadd r c sa sb a b out) st (put st out (Arr (resadd zr zc za zb ma mb mo)))
  | s_for1 hi out rhs z p st st' : value_of st hi z -> written rhs p -> for1 z out p st = Some st' -> step (SFor1 hi out rhs) st st'
  | s_for2 lo hi lo2 hi2 out rhs zl z zl2 z2 p st st' : value_of st lo zl -> value_of st hi z -> value_of st lo2 zl2 -> value_of st hi2 z2 ->
      0 <= zl -> 0 <= zl2 -> written rhs p -> for2 zl z zl2 z2 out p st = Some st' -> step (SFor2 lo hi lo2 hi2 out rhs) st st'
  | s_copy x y m0 m st : st x = Some (Arr m0) -> st y = Some (Arr m) -> step (SCopy x y) st (put st x (Arr m))
  | s_matmul a b out ma mb mo st : st a = Some (Arr ma) -> st b = Some (Arr mb) -> st out = Some (Arr mo) ->
      step (SMatmul a b out) st (put st out (Arr (matmul ma mb)))
  | s_if c a b z st st' : value_of st c z -> steps (if Z.eqb z 0 then b else a) st st' -> step (SIf c a b) st st'
  | s_exp s z st : value_of st s z -> step (SExp s) st st
  with steps : list stm -> state -> state -> Prop :=
  | s_nil st : steps [] st st
  | s_cons x l st st1 st2 : step x st st1 -> steps l st1 st2 -> steps (x :: l) st st2.

  (** a variable has a value: vectors are in the first column *)
  Definition holds (st : state) (x : string) (v : dval) : Prop :=
    match v with
    | DZ z => st x = Some (Num z)
    | DB b => st x = Some (Num (if b then 1 else 0))
    | DL l => exists m, st x = Some (Arr m) /\ forall i z, nth_error l i = Some z -> m i 0%nat = z
    | DM l => exists m, st x = Some (Arr m) /\ forall i j row z, nth_error l i = Some row -> nth_error row j = Some z -> m i j = z
    | DT _ => False
    end.

  (** ** what the theorem asks of a summary and its arguments *)

  (** elements of type [elem_t], and at most LEN of them in a direction *)
  Definition sized (v : dval) : Prop :=
    match v with
    | DL l => (List.length l <= len)%nat
    | DM m => (List.length m <= len)%nat /\ Forall (fun r => (List.length r <= len)%nat) m
    | _ => True
    end.
  Definition small (v : dval) : Prop := within (-128) 127 v /\ sized v.
  Definition short (z : Z) : Prop := -32768 <= z <= 32767.

  Section Fits.
    (** the parameters of the summary and their values *)
    Variables (params : list (string * ty)) (r : env).

    (** a number; [tight]: it can follow a minus sign without parentheses *)
    Inductive number : bool -> expr -> Z -> Prop :=
    | n_lit z : short z -> number true (Node KLit TInt [Atom (PInt z)]) z
    | n_var x z : In (x, TInt) params -> r x = Some (VInt z) -> -128 <= z <= 127 -> number true (Node KVar TInt [Atom (PStr x)]) z
    | n_add ta tb a b x y : number ta a x -> number tb b y -> short (x + y) -> number false (Node KAdd TInt [a; b]) (x + y)
    | n_sub ta tb a b x y : number ta a x -> number tb b y -> short (x - y) -> number false (Node KSub TInt [a; b]) (x - y)
    | n_mul ta tb a b x y : number ta a x -> number tb b y -> short (x * y) -> number true (Node KMul TInt [a; b]) (x * y).

    (** functions of two arrays, and of a number and an array *)
    Definition adds : list string := ["vec_elemwise_add"; "matrix_elemwise_add"].
    Definition subs : list string := ["vec_elemwise_sub"; "matrix_elemwise_sub"].
    Definition muls : list string := ["vec_elemwise_mul"; "matrix_elemwise_mul"].
    Definition less : list string := ["vec_scalar_sub"; "matrix_scalar_sub"].
    Definition from : list string := ["scalar_vec_sub"; "scalar_matrix_sub"].
    Definition call (f : string) (t : ty) (args : list expr) : expr := Node KCall t (Atom (PStr f) :: args).

    (** An expression has an array as value, and all its parts have values with elements of
        type [elem_t] (the negation of an array that is subtracted as well).  [stored]: it is
        not just a variable. *)
    Inductive fits : bool -> expr -> dval -> Prop :=
    | f_var x t v : In (x, t) params -> is_array t = true -> r x = Some (emb v) -> proper v -> small v ->
        match v with DL _ | DM _ => True | _ => False end -> fits false (Node KVar t [Atom (PStr x)]) v
    | f_two sa sb f t a b x y v : In f (adds ++ subs ++ muls) -> is_array t = true -> fits sa a x -> fits sb b y ->
        tmean f [x; y] = Some v -> small v -> (In f subs -> within (-127) 127 y) -> fits true (call f t [a; b]) v
    | f_less tight sb f t a b z y v : In f less -> is_array t = true -> number tight a z -> tight = true -> fits sb b y ->
        tmean f [DZ z; y] = Some v -> small v -> fits true (call f t [a; b]) v
    | f_from tight sb f t a b z y v : In f from -> is_array t = true -> number tight a z -> fits sb b y ->
        tmean f [DZ z; y] = Some v -> small v -> fits true (call f t [a; b]) v
    | f_scaled f t ta tb na nb a b xa xb za zb va vb ua ub v : In f adds -> is_array t = true ->
        number na a za -> number nb b zb -> fits false xa va -> fits false xb vb ->
        tmean "vec_scalar_mul" [DZ za; va] = Some ua -> tmean "vec_scalar_mul" [DZ zb; vb] = Some ub ->
        small ua -> small ub -> tmean f [ua; ub] = Some v -> small v ->
        fits true (call f t [call "vec_scalar_mul" ta [a; xa]; call "vec_scalar_mul" tb [b; xb]]) v
    | f_take tight sa t a b x z v : is_array t = true -> fits sa a x -> number tight b z -> z <= Z.of_nat len ->
        tmean "matrix_take" [x; DZ z] = Some v -> small v ->
        fits true (call "matrix_take" t [a; b]) v
    | f_true a b t va : fits true a va -> fits true (Node KIte t [Node KLit TBool [Atom (PBool true)]; a; b]) va
    | f_false a b t vb : fits true b vb -> fits true (Node KIte t [Node KLit TBool [Atom (PBool false)]; a; b]) vb
    | f_cond x a b t ta va vb w : In (x, TBool) params -> r x = Some (VBool w) -> fits true a va -> fits true b vb ->
        type_of a = Ok ta -> is_array ta = true ->
        fits true (Node KIte t [Node KVar TBool [Atom (PStr x)]; a; b]) (if w then va else vb).
  End Fits.

  (** names that are not used otherwise *)
  Definition free_name (x : string) : Prop :=
    py_name x = true /\ ~ In x ["out"; "i"; "j"; "LEN"; "True"; "False"] /\ forall n, x <> temp n.
End Run.
