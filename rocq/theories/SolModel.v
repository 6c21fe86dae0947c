(** The benchmark programs and their reference solutions: benchmarks/blend/cpp,
    benchmarks/llama/cpp, tests/llvm/tenspiler/*.cc and llmlift_scripts/correct_sols.py.
    Simplifications: [int] is unbounded; reading outside of a vector (undefined in C++)
    and dividing by zero are errors. *)

From Coq Require Import String List ZArith Bool.
From Verif Require Import Ast RktModel DslModel.
Import ListNotations.
Local Open Scope string_scope.
Local Open Scope Z_scope.

(** ** C++ *)

(** [l[i]] of a vector (darken_blend_8.cc:7, 12) *)
Definition at_ {A} (l : list A) (i : Z) : res A :=
  if i <? 0 then Err ExIndex
  else match nth_error l (Z.to_nat i) with Some a => Ok a | None => Err ExIndex end.
(** [x / y] of C++: rounds towards zero (multiply_blend_8.cc:12) *)
Definition cdiv (x y : Z) : res Z := if y =? 0 then Err ExValue else Ok (Z.quot x y).
(** [x % y] of C++ (dissolve_blend_8.cc:12) *)
Definition cmod (x y : Z) : res Z := if y =? 0 then Err ExValue else Ok (Z.rem x y).

(** [k] iterations beginning with the value [i] of the loop variable *)
Fixpoint iter {T} (k : nat) (i : Z) (body : Z -> T -> res T) (s : T) : res T :=
  match k with
  | O => Ok s
  | S k' => s' <- body i s ;; iter k' (i + 1) body s'
  end.
(** [for (int i = i0; i < n; i++) body] where [body] does not change [i] and [n] *)
Definition for_ {T} (i0 n : Z) (body : Z -> T -> res T) (s : T) : res T := iter (Z.to_nat (n - i0)) i0 body s.
(** [out.push_back(e)] for an expression [e] that depends on the loop variable *)
Definition push {A} (f : Z -> res A) (i : Z) (out : list A) : res (list A) := p <- f i ;; Ok (out ++ [p])%list.

(** [m[row][col]] *)
Definition cell (m : list (list Z)) (row col : Z) : res Z := r <- at_ m row ;; at_ r col.

(** The two loops that the programs in benchmarks/blend/cpp share (darken_blend_8.cc:4-21);
    [pixel row col] is the value of [pixel].  [blend_rows]: [out] after [k] iterations
    of the outer loop. *)
Definition blend_rows (pixel : Z -> Z -> res Z) (base : list (list Z)) (k : Z) : res (list (list Z)) :=
  r0 <- at_ base 0 ;;
  let n := zlen r0 in
  for_ 0 k (push (fun row => for_ 0 n (push (fun col => pixel row col)) [])) [].
(** the loop ends when [row] is [m] *)
Definition blend (pixel : Z -> Z -> res Z) (base : list (list Z)) : res (list (list Z)) :=
  let m := zlen base in blend_rows pixel base m.

(** screen_blend_8.cc:4-18: the value of [pixel] *)
Definition screen_blend_8_pixel (base active : list (list Z)) (row col : Z) : res Z :=
  x <- cell base row col ;; y <- cell active row col ;;
           q <- cdiv (x * y) 32 ;; Ok (x + y - q).
(** screen_blend_8.cc:4-18 *)
Definition screen_blend_8 (base active : list (list Z)) : res (list (list Z)) :=
  blend (screen_blend_8_pixel base active) base.
(** overlay_blend_8.cc:4-22: the value of [pixel] *)
Definition overlay_blend_8_pixel (base active : list (list Z)) (row col : Z) : res Z :=
  x <- cell base row col ;;
           if x >=? 16 then q <- cdiv (2 * x * x) 32 ;; Ok (2 * x + x - q - 32)
           else cdiv (2 * x * x) 32.
(** overlay_blend_8.cc:4-22 *)
Definition overlay_blend_8 (base active : list (list Z)) : res (list (list Z)) :=
  blend (overlay_blend_8_pixel base active) base.
(** lighten_blend_8.cc:4-22: the value of [pixel] *)
Definition lighten_blend_8_pixel (base active : list (list Z)) (row col : Z) : res Z :=
  x <- cell base row col ;; y <- cell active row col ;;
           if x <? y then Ok y else Ok x.
(** lighten_blend_8.cc:4-22 *)
Definition lighten_blend_8 (base active : list (list Z)) : res (list (list Z)) :=
  blend (lighten_blend_8_pixel base active) base.
(** darken_blend_8.cc:4-22: the value of [pixel] *)
Definition darken_blend_8_pixel (base active : list (list Z)) (row col : Z) : res Z :=
  x <- cell base row col ;; y <- cell active row col ;;
           if x >? y then Ok y else Ok x.
(** darken_blend_8.cc:4-22 *)
Definition darken_blend_8 (base active : list (list Z)) : res (list (list Z)) :=
  blend (darken_blend_8_pixel base active) base.
(** multiply_blend_8.cc:4-18: the value of [pixel] *)
Definition multiply_blend_8_pixel (base active : list (list Z)) (row col : Z) : res Z :=
  x <- cell base row col ;; y <- cell active row col ;; cdiv (x * y) 32.
(** multiply_blend_8.cc:4-18 *)
Definition multiply_blend_8 (base active : list (list Z)) : res (list (list Z)) :=
  blend (multiply_blend_8_pixel base active) base.
(** color_dodge_8.cc:4-22: the value of [pixel] *)
Definition color_dodge_8_pixel (base active : list (list Z)) (row col : Z) : res Z :=
  y <- cell active row col ;;
           if y =? 32 then Ok 32 else x <- cell base row col ;; cdiv x (32 - y).
(** color_dodge_8.cc:4-22 *)
Definition color_dodge_8 (base active : list (list Z)) : res (list (list Z)) :=
  blend (color_dodge_8_pixel base active) base.
(** linear_burn_8.cc:4-18: the value of [pixel] *)
Definition linear_burn_8_pixel (base active : list (list Z)) (row col : Z) : res Z :=
  x <- cell base row col ;; y <- cell active row col ;; Ok (x + y - 32).
(** linear_burn_8.cc:4-18 *)
Definition linear_burn_8 (base active : list (list Z)) : res (list (list Z)) :=
  blend (linear_burn_8_pixel base active) base.
(** dissolve_blend_8.cc:4-23: the value of [pixel] *)
Definition dissolve_blend_8_pixel (base active : list (list Z)) (opacity rand_cons : Z) (row col : Z) : res Z :=
  r <- cmod rand_cons 100 ;; rand_val <- cdiv (r + 1) 100 ;;
           if opacity - rand_val >=? 0 then cell active row col else cell base row col.
(** dissolve_blend_8.cc:4-23 *)
Definition dissolve_blend_8 (base active : list (list Z)) (opacity rand_cons : Z) : res (list (list Z)) :=
  blend (dissolve_blend_8_pixel base active opacity rand_cons) base.
(** linear_dodge_8.cc:4-18: the value of [pixel] *)
Definition linear_dodge_8_pixel (base active : list (list Z)) (row col : Z) : res Z :=
  x <- cell base row col ;; y <- cell active row col ;; Ok (x + y).
(** linear_dodge_8.cc:4-18 *)
Definition linear_dodge_8 (base active : list (list Z)) : res (list (list Z)) :=
  blend (linear_dodge_8_pixel base active) base.
(** color_burn_8.cc:4-22: the value of [pixel] *)
Definition color_burn_8_pixel (base active : list (list Z)) (row col : Z) : res Z :=
  y <- cell active row col ;;
           if y =? 0 then Ok 32
           else x <- cell base row col ;; q <- cdiv (32 - x) y ;; Ok (32 - q).
(** color_burn_8.cc:4-22 *)
Definition color_burn_8 (base active : list (list Z)) : res (list (list Z)) :=
  blend (color_burn_8_pixel base active) base.

(** normal_blend_8.cc:4-12 *)
Definition normal_blend_8 (base active : list Z) (opacity : Z) : res (list Z) :=
  for_ 0 (zlen base) (push (fun i => y <- at_ active i ;; x <- at_ base i ;;
    Ok (opacity * y + (32 - opacity) * x))) [].
(** normal_blend_f.cc:4-11 *)
Definition normal_blend_f (base active : list Z) (opacity : Z) : res (list Z) :=
  for_ 0 (zlen base) (push (fun i => y <- at_ active i ;; x <- at_ base i ;;
    Ok (opacity * y + (1 - opacity) * x))) [].

(** matmul.cc:4-16 *)
Definition matmul (weight : list (list Z)) (input : list Z) : res (list Z) :=
  let m := zlen weight in
  let n := zlen input in
  for_ 0 m (push (fun row => for_ 0 n (fun col curr =>
    w <- cell weight row col ;; x <- at_ input col ;; Ok (curr + w * x)) 0)) [].
(** transformer_part3.cc:6-13.  The function [integer_exp] defined in the file (4) is
    replaced by the DSL's: [iexp]. *)
Definition transformer_part3 (iexp : Z -> res Z) (input : list Z) (hidden_dim : Z) : res (list Z) :=
  for_ 0 hidden_dim (push (fun i => x <- at_ input i ;; x' <- at_ input i ;; ex <- iexp (0 - x') ;;
    q <- cdiv 1 (1 + ex) ;; Ok (x * q))) [].
(** transformer_part4.cc:4-10 *)
Definition transformer_part4 (input1 input2 : list Z) (hidden_dim : Z) : res (list Z) :=
  for_ 0 hidden_dim (push (fun i => x <- at_ input1 i ;; y <- at_ input2 i ;; Ok (x * y))) [].
(** softmax_part1.cc:4-10 *)
Definition softmax_part1 (input : list Z) (max_pos : Z) : res Z :=
  max_val <- at_ input 0 ;;
  for_ 1 max_pos (fun i mv => x <- at_ input i ;; if x >? mv then Ok x else Ok mv) max_val.
(** softmax_part2.cc:6-13; [integer_exp] (4) is replaced by [iexp] *)
Definition softmax_part2 (iexp : Z -> res Z) (input : list Z) (max_pos max_val : Z) : res (list Z) :=
  for_ 0 max_pos (push (fun i => x <- at_ input i ;; iexp (x - max_val))) [].
(** softmax_part3.cc:4-10 *)
Definition softmax_part3 (output : list Z) (max_pos : Z) : res Z :=
  for_ 0 max_pos (fun i sum => x <- at_ output i ;; Ok (sum + x)) 0.
(** softmax_part4.cc:4-10 *)
Definition softmax_part4 (unnormalized_output : list Z) (max_pos sum : Z) : res (list Z) :=
  for_ 0 max_pos (push (fun i => x <- at_ unnormalized_output i ;; cdiv x sum)) [].
(** rmsnorm_part1.cc:4-10 *)
Definition rmsnorm_part1 (input weight : list Z) : res Z :=
  for_ 0 (zlen input) (fun i ss => x <- at_ input i ;; y <- at_ input i ;; Ok (ss + x * y)) 0.
(** rmsnorm_part2.cc:6-13; [integer_sqrt] (4) is replaced by [isqrt] *)
Definition rmsnorm_part2 (isqrt : Z -> res Z) (input weight : list Z) (ss : Z) : res (list Z) :=
  let size := zlen input in
  for_ 0 size (push (fun i => q <- cdiv ss size ;; r <- isqrt (q + 1) ;; d <- cdiv 1 r ;;
    x <- at_ input i ;; w <- at_ weight i ;; Ok (d * x * w))) [].

(** ** the reference solutions: Python that calls the functions of dsl.py *)

(** correct_sols.py:2-5 *)
Definition ps_normal_blend_f (base active : list Z) (opacity : Z) : res (list Z) :=
  a <- py_vec_scalar_mul opacity active ;; b <- py_vec_scalar_mul (1 - opacity) base ;; py_vec_elemwise_add a b.
(** correct_sols.py:12-15 *)
Definition ps_normal_blend_8 (base active : list Z) (opacity : Z) : res (list Z) :=
  a <- py_vec_scalar_mul opacity active ;; b <- py_vec_scalar_mul (32 - opacity) base ;; py_vec_elemwise_add a b.
(** correct_sols.py:22-25 *)
Definition ps_dissolve_blend_8 (base active : list (list Z)) (opacity rand_cons : Z) : res (list (list Z)) :=
  py_matrix_selection_two_args base active (fun b a =>
    q <- floordiv ((rand_cons mod 100) + 1) 100 ;; Ok (if opacity - q >=? 0 then a else b)).
(** correct_sols.py:35-38 *)
Definition ps_darken_blend_8 (base active : list (list Z)) : res (list (list Z)) :=
  py_matrix_selection_two_args base active (fun x y => Ok (py_ite_int (x >? y) y x)).
(** correct_sols.py:50-53 *)
Definition ps_multiply_blend_8 (base active : list (list Z)) : res (list (list Z)) :=
  p <- py_matrix_elemwise_mul base active ;; py_matrix_scalar_div 32 p.
(** correct_sols.py:63-66 *)
Definition ps_linear_burn_8 (base active : list (list Z)) : res (list (list Z)) :=
  s <- py_matrix_elemwise_add base active ;; py_matrix_scalar_sub 32 s.
(** correct_sols.py:76-79; the arguments of [ite_int] are evaluated before the call *)
Definition ps_color_burn_8 (base active : list (list Z)) : res (list (list Z)) :=
  py_matrix_selection_two_args base active (fun x y =>
    q <- floordiv (32 - x) y ;; Ok (py_ite_int (y =? 0) 32 (32 - q))).
(** correct_sols.py:91-94 *)
Definition ps_lighten_blend_8 (base active : list (list Z)) : res (list (list Z)) :=
  py_matrix_selection_two_args base active (fun x y => Ok (py_ite_int (x <? y) y x)).
(** correct_sols.py:106-115 *)
Definition ps_screen_blend_8 (base active : list (list Z)) : res (list (list Z)) :=
  s <- py_matrix_elemwise_add base active ;;
  p <- py_matrix_elemwise_mul base active ;; q <- py_matrix_scalar_div 32 p ;;
  py_matrix_elemwise_sub s q.
(** correct_sols.py:125-128 *)
Definition ps_linear_dodge_8 (base active : list (list Z)) : res (list (list Z)) :=
  py_matrix_elemwise_add base active.
(** correct_sols.py:140-147 *)
Definition ps_color_dodge_8 (base active : list (list Z)) : res (list (list Z)) :=
  d <- py_scalar_matrix_sub 32 active ;; q <- py_matrix_elemwise_div base d ;;
  py_matrix_selection_two_args active q (fun a b => Ok (py_ite_int (a =? 32) 32 b)).
(** correct_sols.py:159-170 *)
Definition ps_overlay_blend_8 (base active : list (list Z)) : res (list (list Z)) :=
  py_matrix_selection_two_args base active (fun x y =>
    q <- floordiv (2 * x * x) 32 ;; q' <- floordiv (2 * x * x) 32 ;;
    Ok (py_ite_int (x >=? 128) (2 * x + x - q - 32) q')).
(** correct_sols.py:182-185 *)
Definition ps_softmax_part1 (input : list Z) (max_pos : Z) : res Z :=
  Ok (py_reduce_max (py_vec_slice input 0 max_pos)).
(** correct_sols.py:192-195 *)
Definition ps_softmax_part2 (input : list Z) (max_pos max_val : Z) : res (list Z) :=
  d <- py_vec_scalar_sub max_val (py_vec_slice input 0 max_pos) ;; py_vec_map d (fun x => Ok (py_integer_exp x)).
(** correct_sols.py:202-205 *)
Definition ps_softmax_part3 (output : list Z) (max_pos : Z) : res Z := Ok (py_reduce_sum (upto output max_pos)).
(** correct_sols.py:212-215 *)
Definition ps_softmax_part4 (unnormalized_output : list Z) (max_pos sum : Z) : res (list Z) :=
  py_vec_scalar_div sum (py_vec_slice unnormalized_output 0 max_pos).
(** correct_sols.py:222-225 *)
Definition ps_rmsnorm_part1 (input weight : list Z) : res Z :=
  p <- py_vec_elemwise_mul input input ;; Ok (py_reduce_sum p).
(** correct_sols.py:232-235; [fuel] bounds the recursion of [integer_sqrt] *)
Definition ps_rmsnorm_part2 (fuel : nat) (input weight : list Z) (ss : Z) : res (list Z) :=
  q <- floordiv ss (zlen input) ;; r <- py_integer_sqrt fuel (q + 1) ;; d <- floordiv 1 r ;;
  p <- py_vec_scalar_mul d input ;; py_vec_elemwise_mul p weight.
(** correct_sols.py:242-245 *)
Definition ps_matmul (weight : list (list Z)) (input : list Z) : res (list Z) := py_matrix_vec_mul weight input.
(** correct_sols.py:255-258 *)
Definition ps_transformer_part3 (input : list Z) (hidden_dim : Z) : res (list Z) :=
  n <- py_scalar_vec_sub 0 (upto input hidden_dim) ;;
  ex <- py_vec_map n (fun x => Ok (py_integer_exp x)) ;;
  s <- py_vec_scalar_add 1 ex ;; q <- py_scalar_vec_div 1 s ;;
  py_vec_elemwise_mul (upto input hidden_dim) q.
(** correct_sols.py:265-268 *)
Definition ps_transformer_part4 (input1 input2 : list Z) (hidden_dim : Z) : res (list Z) :=
  py_vec_elemwise_mul (py_vec_slice input1 0 hidden_dim) (py_vec_slice input2 0 hidden_dim).

(** ** stored loop invariants *)

(** [invariant1] of darken_blend_8 (correct_sols.py:39-41), multiply_blend_8 (54-56),
    linear_burn_8 (67-69), color_burn_8 (80-82), lighten_blend_8 (95-97), linear_dodge_8
    (129-131), color_dodge_8 (148-150) and overlay_blend_8 (171-173): the result is the
    one of the reference solution [ps] on the first [row] rows.  [rows m row] is
    [m[:row]], or [matrix_row_slice(m, 0, row)] in multiply_blend_8 and linear_burn_8.
    [and] evaluates from left to right. *)
Definition inv1 (rows : list (list Z) -> Z -> list (list Z))
    (ps : list (list Z) -> list (list Z) -> res (list (list Z)))
    (base active out : list (list Z)) (row : Z) : res bool :=
  if (row >=? 0) && (row <=? zlen base) then
    v <- ps (rows base row) (rows active row) ;;
    Ok (eqb_list (eqb_list Z.eqb) out v)
  else Ok false.
(** [invariant1] of dissolve_blend_8 (correct_sols.py:27-29) *)
Definition inv1_dissolve_blend_8 (base active out : list (list Z)) (opacity rand_cons row : Z) : res bool :=
  if (row >=? 0) && (row <=? zlen base) then
    v <- ps_dissolve_blend_8 (upto base row) (upto active row) opacity rand_cons ;;
    Ok (eqb_list (eqb_list Z.eqb) out v)
  else Ok false.
(** correct_sols.py:116-118: in [invariant1] of screen_blend_8 the first operand is not
    sliced *)
Definition inv1_screen_blend_8 (base active out : list (list Z)) (row : Z) : res bool :=
  if (row >=? 0) && (row <=? zlen base) then
    s <- py_matrix_elemwise_add base active ;;
    p <- py_matrix_elemwise_mul (upto base row) (upto active row) ;; q <- py_matrix_scalar_div 32 p ;;
    v <- py_matrix_elemwise_sub s q ;;
    Ok (eqb_list (eqb_list Z.eqb) out v)
  else Ok false.
