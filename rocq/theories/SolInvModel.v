(** The other loop invariants stored in llmlift_scripts/correct_sols.py, and the states in
    which the loops of the benchmark programs arrive at their heads. *)

From Coq Require Import String List ZArith Bool.
From Verif Require Import Ast RktModel DslModel SolModel.
Import ListNotations.
Local Open Scope string_scope.
Local Open Scope Z_scope.

(** ** states of the loops *)

(** [row_vec] at the head of the inner loop (darken_blend_8.cc:9-10) *)
Definition row_prefix (pixel : Z -> Z -> res Z) (row col : Z) : res (list Z) :=
  for_ 0 col (push (fun c => pixel row c)) [].
(** [out] when [i] iterations are made: normal_blend_8.cc:4-12 *)
Definition normal_blend_8_at (base active : list Z) (opacity i : Z) : res (list Z) :=
  for_ 0 i (push (fun i => y <- at_ active i ;; x <- at_ base i ;;
    Ok (opacity * y + (32 - opacity) * x))) [].
(** normal_blend_f.cc:4-11 *)
Definition normal_blend_f_at (base active : list Z) (opacity i : Z) : res (list Z) :=
  for_ 0 i (push (fun i => y <- at_ active i ;; x <- at_ base i ;;
    Ok (opacity * y + (1 - opacity) * x))) [].
(** [ss] when [i] iterations are made: rmsnorm_part1.cc:4-10 *)
Definition rmsnorm_part1_at (input : list Z) (i : Z) : res Z :=
  for_ 0 i (fun i ss => x <- at_ input i ;; y <- at_ input i ;; Ok (ss + x * y)) 0.
(** rmsnorm_part2.cc:6-13 *)
Definition rmsnorm_part2_at (isqrt : Z -> res Z) (input weight : list Z) (ss i : Z) : res (list Z) :=
  let size := zlen input in
  for_ 0 i (push (fun i => q <- cdiv ss size ;; r <- isqrt (q + 1) ;; d <- cdiv 1 r ;;
    x <- at_ input i ;; w <- at_ weight i ;; Ok (d * x * w))) [].
(** [curr] when [col] iterations of the inner loop are made: matmul.cc:9-12 *)
Definition matmul_curr (weight : list (list Z)) (input : list Z) (row col : Z) : res Z :=
  for_ 0 col (fun col curr => w <- cell weight row col ;; x <- at_ input col ;; Ok (curr + w * x)) 0.
(** [output] when [row] iterations of the outer loop are made: matmul.cc:4-16 *)
Definition matmul_at (weight : list (list Z)) (input : list Z) (row : Z) : res (list Z) :=
  for_ 0 row (push (fun row => matmul_curr weight input row (zlen input))) [].

(** ** Python's [and]: the second operand is evaluated if the first one is true *)
Definition andR (a b : res bool) : res bool := c <- a ;; if c then b else Ok false.
(** [a == b] of lists of numbers *)
Definition same (a b : list Z) : bool := eqb_list Z.eqb a b.
(** [a == b] of lists of lists *)
Definition same2 (a b : list (list Z)) : bool := eqb_list (eqb_list Z.eqb) a b.

(** ** the expressions for [row_vec] *)

(** correct_sols.py:31: arguments [base[row][:col]], [active[row][:col]] *)
Definition rv_dissolve_blend_8 (opacity rand_cons : Z) (x y : list Z) : res (list Z) :=
  py_selection_two_args x y (fun b a =>
    q <- floordiv ((rand_cons mod 100) + 1) 100 ;; Ok (if opacity - q >=? 0 then a else b)).
(** correct_sols.py:45 *)
Definition rv_darken_blend_8 (x y : list Z) : res (list Z) :=
  py_selection_two_args x y (fun x y => Ok (py_ite_int (x >? y) y x)).
(** correct_sols.py:59 *)
Definition rv_multiply_blend_8 (x y : list Z) : res (list Z) :=
  p <- py_vec_elemwise_mul x y ;; py_vec_scalar_div 32 p.
(** correct_sols.py:72 *)
Definition rv_linear_burn_8 (x y : list Z) : res (list Z) :=
  s <- py_vec_elemwise_add x y ;; py_vec_scalar_sub 32 s.
(** correct_sols.py:86 *)
Definition rv_color_burn_8 (x y : list Z) : res (list Z) :=
  py_selection_two_args x y (fun x y => q <- floordiv (32 - x) y ;; Ok (py_ite_int (y =? 0) 32 (32 - q))).
(** correct_sols.py:101 *)
Definition rv_lighten_blend_8 (x y : list Z) : res (list Z) :=
  py_selection_two_args x y (fun x y => Ok (py_ite_int (x <? y) y x)).
(** correct_sols.py:121 *)
Definition rv_screen_blend_8 (x y : list Z) : res (list Z) :=
  s <- py_vec_elemwise_add x y ;; p <- py_vec_elemwise_mul x y ;; q <- py_vec_scalar_div 32 p ;; py_vec_elemwise_sub s q.
(** correct_sols.py:135 *)
Definition rv_linear_dodge_8 (x y : list Z) : res (list Z) := py_vec_elemwise_add x y.
(** correct_sols.py:154 *)
Definition rv_color_dodge_8 (x y : list Z) : res (list Z) :=
  d <- py_scalar_vec_sub 32 y ;; q <- py_vec_elemwise_div x d ;;
  py_selection_two_args y q (fun a b => Ok (py_ite_int (a =? 32) 32 b)).
(** correct_sols.py:177 *)
Definition rv_overlay_blend_8 (x y : list Z) : res (list Z) :=
  py_selection_two_args x y (fun x y =>
    q <- floordiv (2 * x * x) 32 ;; q' <- floordiv (2 * x * x) 32 ;;
    Ok (py_ite_int (x >=? 128) (2 * x + x - q - 32) q')).

(** ** invariants of the inner loops *)

(** [row_vec == rv(base[row][:col], active[row][:col])]; [cut] is the slice *)
Definition row_vec_is (cut : list Z -> Z -> list Z) (rv : list Z -> list Z -> res (list Z))
    (base active : list (list Z)) (row_vec : list Z) (row col : Z) : res bool :=
  b <- at_ base row ;; a <- at_ active row ;; v <- rv (cut b col) (cut a col) ;; Ok (same row_vec v).
(** [out == ps(base[:row], active[:row])] *)
Definition out_is (rows : list (list Z) -> Z -> list (list Z)) (ps : list (list Z) -> list (list Z) -> res (list (list Z)))
    (base active out : list (list Z)) (row : Z) : res bool :=
  v <- ps (rows base row) (rows active row) ;; Ok (same2 out v).
(** [col <= len(base[0])] *)
Definition col_le (base : list (list Z)) (col : Z) : res bool := b <- at_ base 0 ;; Ok (col <=? zlen b).

(** dissolve_blend_8 (correct_sols.py:30-31), darken_blend_8 (43-46), color_burn_8 (84-87), lighten_blend_8 (99-102),
    linear_dodge_8 (133-136), color_dodge_8 (152-155), overlay_blend_8 (175-178) *)
Definition inv2_row_first (ps : list (list Z) -> list (list Z) -> res (list (list Z))) (rv : list Z -> list Z -> res (list Z))
    (base active out : list (list Z)) (row_vec : list Z) (row col : Z) : res bool :=
  andR (Ok (row >=? 0)) (andR (Ok (row <? zlen base)) (andR (Ok (col >=? 0)) (andR (col_le base col)
    (andR (row_vec_is upto rv base active row_vec row col) (out_is upto ps base active out row))))).
(** multiply_blend_8 (correct_sols.py:58-59), linear_burn_8 (71-72) *)
Definition inv2_col_first (ps : list (list Z) -> list (list Z) -> res (list (list Z))) (rv : list Z -> list Z -> res (list Z))
    (base active out : list (list Z)) (row_vec : list Z) (row col : Z) : res bool :=
  andR (Ok (col >=? 0)) (andR (col_le base col) (andR (Ok (row >=? 0)) (andR (Ok (row <? zlen base))
    (andR (out_is (fun m k => py_matrix_row_slice m 0 k) ps base active out row)
          (row_vec_is (fun l k => py_vec_slice l 0 k) rv base active row_vec row col))))).
(** screen_blend_8 (correct_sols.py:120-121): [row <= len(base)] *)
Definition inv2_screen_blend_8 (ps : list (list Z) -> list (list Z) -> res (list (list Z))) (rv : list Z -> list Z -> res (list Z))
    (base active out : list (list Z)) (row_vec : list Z) (row col : Z) : res bool :=
  andR (Ok (col >=? 0)) (andR (col_le base col) (andR (Ok (row >=? 0)) (andR (Ok (row <=? zlen base))
    (andR (out_is upto ps base active out row) (row_vec_is upto rv base active row_vec row col))))).

(** ** invariants of the programs on vectors *)

(** [i >= 0 and i <= n and out == v] for lists *)
Definition inv_list (i n : Z) (v : res (list Z)) (out : list Z) : res bool :=
  andR (Ok (i >=? 0)) (andR (Ok (i <=? n)) (w <- v ;; Ok (same out w))).
(** the same for numbers *)
Definition inv_int (i n : Z) (v : res Z) (out : Z) : res bool :=
  andR (Ok (i >=? 0)) (andR (Ok (i <=? n)) (w <- v ;; Ok (out =? w))).

(** correct_sols.py:7-9 *)
Definition inv_normal_blend_f (base active : list Z) (i opacity : Z) (out : list Z) : res bool :=
  inv_list i (zlen base) (a <- py_vec_scalar_mul opacity (upto active i) ;; b <- py_vec_scalar_mul (1 - opacity) (upto base i) ;;
    py_vec_elemwise_add a b) out.
(** correct_sols.py:17-19 *)
Definition inv_normal_blend_8 (base active : list Z) (i opacity : Z) (out : list Z) : res bool :=
  inv_list i (zlen base) (a <- py_vec_scalar_mul opacity (upto active i) ;; b <- py_vec_scalar_mul (32 - opacity) (upto base i) ;;
    py_vec_elemwise_add a b) out.
(** correct_sols.py:187-189 *)
Definition inv_softmax_part1 (i : Z) (input : list Z) (max_pos max_val : Z) : res bool :=
  inv_int i max_pos (Ok (py_reduce_max (py_vec_slice input 0 i))) max_val.
(** correct_sols.py:197-199 *)
Definition inv_softmax_part2 (i : Z) (input : list Z) (max_pos max_val : Z) (output : list Z) : res bool :=
  inv_list i max_pos (d <- py_vec_scalar_sub max_val (py_vec_slice input 0 i) ;; py_vec_map d (fun x => Ok (py_integer_exp x))) output.
(** correct_sols.py:207-209 *)
Definition inv_softmax_part3 (i max_pos : Z) (output : list Z) (sum : Z) : res bool :=
  inv_int i max_pos (Ok (py_reduce_sum (upto output i))) sum.
(** correct_sols.py:217-219 *)
Definition inv_softmax_part4 (i max_pos : Z) (output : list Z) (sum : Z) (unnormalized_output : list Z) : res bool :=
  inv_list i max_pos (py_vec_scalar_div sum (py_vec_slice unnormalized_output 0 i)) output.
(** correct_sols.py:227-229 *)
Definition inv_rmsnorm_part1 (i : Z) (input : list Z) (ss : Z) (weight : list Z) : res bool :=
  inv_int i (zlen input) (p <- py_vec_elemwise_mul (upto input i) (upto input i) ;; Ok (py_reduce_sum p)) ss.
(** correct_sols.py:237-239; [fuel] bounds the recursion of [integer_sqrt] *)
Definition inv_rmsnorm_part2 (fuel : nat) (i : Z) (input output : list Z) (ss : Z) (weight : list Z) : res bool :=
  inv_list i (zlen input) (q <- floordiv ss (zlen input) ;; r <- py_integer_sqrt fuel (q + 1) ;; d <- floordiv 1 r ;;
    p <- py_vec_scalar_mul d (upto input i) ;; py_vec_elemwise_mul p (upto weight i)) output.
(** correct_sols.py:247-249: the outer loop of matmul *)
Definition inv1_matmul (input output : list Z) (row : Z) (weight : list (list Z)) : res bool :=
  andR (Ok ((0 <=? row) && (row <=? zlen weight)))
    (v <- py_matrix_vec_mul (py_matrix_row_slice weight 0 row) input ;; Ok (same output v)).
(** correct_sols.py:250-251: the inner loop of matmul *)
Definition inv2_matmul (col curr : Z) (input output : list Z) (row : Z) (weight : list (list Z)) : res bool :=
  andR (Ok ((0 <=? row) && (row <? zlen weight))) (andR (Ok ((0 <=? col) && (col <=? zlen input)))
    (andR (v <- py_matrix_vec_mul (py_matrix_row_slice weight 0 row) input ;; Ok (same output v))
      (w <- at_ weight row ;; p <- py_vec_elemwise_mul (py_vec_slice w 0 col) (py_vec_slice input 0 col) ;;
       Ok (curr =? py_reduce_sum p)))).
(** correct_sols.py:260-262 *)
Definition inv_transformer_part3 (hidden_dim i : Z) (input output : list Z) : res bool :=
  inv_list i hidden_dim
    (n <- py_scalar_vec_sub 0 (py_vec_slice input 0 i) ;;
     ex <- py_vec_map n (fun x => Ok (py_integer_exp x)) ;;
     s <- py_vec_scalar_add 1 ex ;; q <- py_scalar_vec_div 1 s ;;
     py_vec_elemwise_mul (py_vec_slice input 0 i) q) output.
(** correct_sols.py:270-272: the inputs change places *)
Definition inv_transformer_part4 (hidden_dim i : Z) (input1 input2 output : list Z) : res bool :=
  inv_list i hidden_dim (py_vec_elemwise_mul (py_vec_slice input2 0 i) (py_vec_slice input1 0 i)) output.
