(** The Python definitions of the operators that LLMLift shows to the language model
    and that its answers call: llmlift_scripts/dsl.py.  Python values are the values
    [dval] of RktModel; an exception is an [Err].  [ZeroDivisionError] is [ExValue].
    The functions test lengths with [len] and recurse on [x[1:]]; that is written
    here as structural recursion.  Arguments of other types than the annotated ones
    are not modelled: [py_dsl] answers [ExTypes] for them. *)

From Coq Require Import String List ZArith Bool.
From Verif Require Import Ast RktModel.
Import ListNotations.
Local Open Scope string_scope.
Local Open Scope Z_scope.

(** ** Python's operators on the values used here *)

(** [x // y] of Python: rounds down; raises for 0 (dsl.py:13, 22, 23, 199, 231, 260) *)
Definition floordiv (x y : Z) : res Z := if y =? 0 then Err ExValue else Ok (x / y).

(** a bound of a Python slice, clipped to [0..n]; negative ones count from the end *)
Definition bound (n i : Z) : Z := if i <? 0 then Z.max 0 (i + n) else Z.min i n.
(** [l[:en]] (dsl.py:93, 272) *)
Definition upto {A} (l : list A) (en : Z) : list A := firstn (Z.to_nat (bound (zlen l) en)) l.
(** [l[st:]] (dsl.py:93, 272) *)
Definition from {A} (l : list A) (st : Z) : list A := skipn (Z.to_nat (bound (zlen l) st)) l.
(** [l[st:en]] (dsl.py:36) *)
Definition slice {A} (l : list A) (st en : Z) : list A :=
  skipn (Z.to_nat (bound (zlen l) st)) (upto l en).

(** The scheme of the functions of two lists:
    [[] if len(x) < 1 or not len(x) == len(y) else [f(x[0], y[0]), *self(x[1:], y[1:])]]
    (dsl.py:43-50 and the other seven, 133-140, 209-216) *)
Fixpoint zipped {A B C} (f : A -> B -> res C) (x : list A) (y : list B) {struct x} : res (list C) :=
  if (zlen x <? 1) || negb (zlen x =? zlen y) then Ok []
  else match x, y with
       | a :: x', b :: y' => c <- f a b ;; r <- zipped f x' y' ;; Ok (c :: r)
       | _, _ => Err ExIndex
       end.

(** The scheme of the functions of one list:
    [[] if len(x) < 1 else [f(x[0]), *self(x[1:])]] (dsl.py:97-101 and the others) *)
Fixpoint each {A B} (f : A -> res B) (x : list A) : res (list B) :=
  match x with
  | [] => Ok []
  | a :: x' => b <- f a ;; r <- each f x' ;; Ok (b :: r)
  end.

(** ** the functions *)

(** dsl.py:4-5: an empty row raises IndexError *)
Definition py_firsts (m : list (list Z)) : res (list Z) :=
  each (fun r => match r with [] => Err ExIndex | a :: _ => Ok a end) m.

(** dsl.py:8-9, for [n] as a natural number; [*] and [%] have the same precedence *)
Fixpoint py_exp_nat (n : nat) : Z :=
  match n with O => 1 | S k => (py_exp_nat k * 3) mod 64 end.
(** dsl.py:8-9 *)
Definition py_integer_exp (n : Z) : Z := if n <=? 0 then 1 else py_exp_nat (Z.to_nat n).

(** dsl.py:16-25.  Only the last quotient is halved.  The recursion need not end:
    [fuel]. *)
Fixpoint py_integer_sqrt_helper (fuel : nat) (n guess : Z) : res Z :=
  match fuel with
  | O => Err ExFuel
  | S fuel' =>
      if (guess =? 0) || (guess =? 1) || (guess >? 64) then Ok 1
      else
        q <- floordiv n guess ;;
        if guess =? q then Ok guess
        else py_integer_sqrt_helper fuel' n (guess + q / 2)
  end.
(** dsl.py:12-13 *)
Definition py_integer_sqrt (fuel : nat) (n : Z) : res Z := py_integer_sqrt_helper fuel (n / 2) n.

(** dsl.py:28-29 *)
Definition py_ite_int (c : bool) (x y : Z) : Z := if c then x else y.

(** dsl.py:32-37 *)
Definition py_matrix_col_slice (m : list (list Z)) (st en : Z) : list (list Z) :=
  map (fun r => slice r st en) m.

(** dsl.py:219-224 *)
Definition py_vec_elemwise_add : list Z -> list Z -> res (list Z) := zipped (fun x y => Ok (x + y)).
(** dsl.py:227-232 *)
Definition py_vec_elemwise_div : list Z -> list Z -> res (list Z) := zipped (fun x y => floordiv x y).
(** dsl.py:235-240 *)
Definition py_vec_elemwise_mul : list Z -> list Z -> res (list Z) := zipped (fun x y => Ok (x * y)).
(** dsl.py:243-248 *)
Definition py_vec_elemwise_sub : list Z -> list Z -> res (list Z) := zipped (fun x y => Ok (x - y)).

(** dsl.py:40-50 *)
Definition py_matrix_elemwise_add (m n : list (list Z)) : res (list (list Z)) := zipped py_vec_elemwise_add m n.
(** dsl.py:53-63 *)
Definition py_matrix_elemwise_div (m n : list (list Z)) : res (list (list Z)) := zipped py_vec_elemwise_div m n.
(** dsl.py:66-76 *)
Definition py_matrix_elemwise_mul (m n : list (list Z)) : res (list (list Z)) := zipped py_vec_elemwise_mul m n.
(** dsl.py:79-89 *)
Definition py_matrix_elemwise_sub (m n : list (list Z)) : res (list (list Z)) := zipped py_vec_elemwise_sub m n.

(** dsl.py:92-93 *)
Definition py_matrix_row_slice (m : list (list Z)) (st en : Z) : list (list Z) := from (upto m en) st.

(** dsl.py:255-256 *)
Definition py_vec_scalar_add (a : Z) : list Z -> res (list Z) := each (fun x => Ok (a + x)).
(** dsl.py:259-260 *)
Definition py_vec_scalar_div (a : Z) : list Z -> res (list Z) := each (fun x => floordiv x a).
(** dsl.py:263-264 *)
Definition py_vec_scalar_mul (a : Z) : list Z -> res (list Z) := each (fun x => Ok (a * x)).
(** dsl.py:267-268 *)
Definition py_vec_scalar_sub (a : Z) : list Z -> res (list Z) := each (fun x => Ok (x - a)).
(** dsl.py:198-199 *)
Definition py_scalar_vec_div (a : Z) : list Z -> res (list Z) := each (fun x => floordiv a x).
(** dsl.py:202-203 *)
Definition py_scalar_vec_sub (a : Z) : list Z -> res (list Z) := each (fun x => Ok (a - x)).

(** dsl.py:96-101 *)
Definition py_matrix_scalar_add (a : Z) (m : list (list Z)) : res (list (list Z)) := each (py_vec_scalar_add a) m.
(** dsl.py:104-109 *)
Definition py_matrix_scalar_div (a : Z) (m : list (list Z)) : res (list (list Z)) := each (py_vec_scalar_div a) m.
(** dsl.py:112-117 *)
Definition py_matrix_scalar_mul (a : Z) (m : list (list Z)) : res (list (list Z)) := each (py_vec_scalar_mul a) m.
(** dsl.py:120-125 *)
Definition py_matrix_scalar_sub (a : Z) (m : list (list Z)) : res (list (list Z)) := each (py_vec_scalar_sub a) m.
(** dsl.py:182-187 *)
Definition py_scalar_matrix_div (a : Z) (m : list (list Z)) : res (list (list Z)) := each (py_scalar_vec_div a) m.
(** dsl.py:190-195 *)
Definition py_scalar_matrix_sub (a : Z) (m : list (list Z)) : res (list (list Z)) := each (py_scalar_vec_sub a) m.

(** dsl.py:206-216; the function argument may raise *)
Definition py_selection_two_args (x y : list Z) (f : Z -> Z -> res Z) : res (list Z) := zipped f x y.
(** dsl.py:128-140 *)
Definition py_matrix_selection_two_args (m n : list (list Z)) (f : Z -> Z -> res Z) : res (list (list Z)) :=
  zipped (fun x y => py_selection_two_args x y f) m n.
(** dsl.py:251-252 *)
Definition py_vec_map (x : list Z) (f : Z -> res Z) : res (list Z) := each f x.

(** dsl.py:158-167; [x[1:]] is not empty in the last branch *)
Fixpoint py_reduce_max (x : list Z) : Z :=
  match x with
  | [] => 0 - 32
  | a :: x' =>
      if zlen x =? 1 then a
      else if a >? py_reduce_max x' then a else py_reduce_max x'
  end.
(** dsl.py:170-171 *)
Fixpoint py_reduce_mul (x : list Z) : Z := match x with [] => 1 | a :: x' => a * py_reduce_mul x' end.
(** dsl.py:174-175 *)
Fixpoint py_reduce_sum (x : list Z) : Z := match x with [] => 0 | a :: x' => a + py_reduce_sum x' end.

(** dsl.py:147-155 *)
Fixpoint py_matrix_vec_mul (m : list (list Z)) (x : list Z) : res (list Z) :=
  match m with
  | [] => Ok []
  | r :: m' =>
      if (zlen r <? 1) || negb (zlen r =? zlen x) then Ok []
      else
        p <- py_vec_elemwise_mul r x ;;
        rest <- py_matrix_vec_mul m' x ;;
        Ok (py_reduce_sum p :: rest)
  end.

(** dsl.py:178-179 *)
Definition py_rests (m : list (list Z)) : list (list Z) :=
  match m with [] => [] | r :: _ => py_matrix_col_slice m 1 (zlen r) end.

(** dsl.py:143-144; the recursion is on [rests(matrix)]: [fuel] *)
Fixpoint py_matrix_transpose (fuel : nat) (m : list (list Z)) : res (list (list Z)) :=
  match fuel with
  | O => Err ExFuel
  | S fuel' =>
      if zlen m <? 1 then Ok []
      else c <- py_firsts m ;; r <- py_matrix_transpose fuel' (py_rests m) ;; Ok (c :: r)
  end.

(** dsl.py:271-272 *)
Definition py_vec_slice (l : list Z) (st en : Z) : list Z := from (upto l en) st.

(** ** a call by name, of the functions without function arguments and fuel *)
Definition py_dsl (f : string) (args : list dval) : res dval :=
  let vec r := v <- r ;; Ok (DL v) in
  let mat r := v <- r ;; Ok (DM v) in
  match args with
  | [DL l; DL r] =>
      if String.eqb f "vec_elemwise_add" then vec (py_vec_elemwise_add l r)
      else if String.eqb f "vec_elemwise_sub" then vec (py_vec_elemwise_sub l r)
      else if String.eqb f "vec_elemwise_mul" then vec (py_vec_elemwise_mul l r)
      else if String.eqb f "vec_elemwise_div" then vec (py_vec_elemwise_div l r)
      else Err ExTypes
  | [DM m; DM n] =>
      if String.eqb f "matrix_elemwise_add" then mat (py_matrix_elemwise_add m n)
      else if String.eqb f "matrix_elemwise_sub" then mat (py_matrix_elemwise_sub m n)
      else if String.eqb f "matrix_elemwise_mul" then mat (py_matrix_elemwise_mul m n)
      else if String.eqb f "matrix_elemwise_div" then mat (py_matrix_elemwise_div m n)
      else Err ExTypes
  | [DZ a; DL l] =>
      if String.eqb f "vec_scalar_add" then vec (py_vec_scalar_add a l)
      else if String.eqb f "vec_scalar_sub" then vec (py_vec_scalar_sub a l)
      else if String.eqb f "vec_scalar_mul" then vec (py_vec_scalar_mul a l)
      else if String.eqb f "vec_scalar_div" then vec (py_vec_scalar_div a l)
      else if String.eqb f "scalar_vec_sub" then vec (py_scalar_vec_sub a l)
      else if String.eqb f "scalar_vec_div" then vec (py_scalar_vec_div a l)
      else Err ExTypes
  | [DZ a; DM m] =>
      if String.eqb f "matrix_scalar_add" then mat (py_matrix_scalar_add a m)
      else if String.eqb f "matrix_scalar_sub" then mat (py_matrix_scalar_sub a m)
      else if String.eqb f "matrix_scalar_mul" then mat (py_matrix_scalar_mul a m)
      else if String.eqb f "matrix_scalar_div" then mat (py_matrix_scalar_div a m)
      else if String.eqb f "scalar_matrix_sub" then mat (py_scalar_matrix_sub a m)
      else if String.eqb f "scalar_matrix_div" then mat (py_scalar_matrix_div a m)
      else Err ExTypes
  | [DL l] =>
      if String.eqb f "reduce_sum" then Ok (DZ (py_reduce_sum l))
      else if String.eqb f "reduce_mul" then Ok (DZ (py_reduce_mul l))
      else if String.eqb f "reduce_max" then Ok (DZ (py_reduce_max l))
      else Err ExTypes
  | [DM m; DL v] =>
      if String.eqb f "matrix_vec_mul" then vec (py_matrix_vec_mul m v) else Err ExTypes
  | [DL l; DZ st; DZ en] =>
      if String.eqb f "vec_slice" then Ok (DL (py_vec_slice l st en)) else Err ExTypes
  | [DM m; DZ st; DZ en] =>
      if String.eqb f "matrix_row_slice" then Ok (DM (py_matrix_row_slice m st en))
      else if String.eqb f "matrix_col_slice" then Ok (DM (py_matrix_col_slice m st en))
      else Err ExTypes
  | _ => Err ExTypes
  end.
