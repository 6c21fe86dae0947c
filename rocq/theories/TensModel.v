(** The tensor DSL of metalift/utils/tenspiler/tenspiler_common.py and the lemmas
    about it in axioms.py, as the IR expressions the Python code builds. *)

From Coq Require Import String List ZArith Bool.
From Verif Require Import Ast UtilModel ObjModel.
Import ListNotations.
Local Open Scope Z_scope.
Local Open Scope string_scope.

(** vc_util.py:52-59 on objects *)
Definition or_objs (os : list obj) : res obj :=
  e <- or_objects (map o_src os) ;; create_object TBool e.
Definition and_objs (os : list obj) : res obj :=
  e <- and_objects (map o_src os) ;; create_object TBool e.

(** tenspiler_common.py:376-389: the common objects *)
Definition v_a : obj := int_var "a".
Definition v_x : obj := list_var (TList TInt) "x".
Definition v_y : obj := list_var (TList TInt) "y".
Definition v_mx : obj := list_var (TMatrix TInt) "matrix_x".
Definition v_my : obj := list_var (TMatrix TInt) "matrix_y".
Definition v_tx : obj := list_var (TTensor3D TInt) "tensor3d_x".
Definition v_ty : obj := list_var (TTensor3D TInt) "tensor3d_y".
Definition v_opacity : obj := int_var "opacity".
Definition v_rand_cons : obj := int_var "rand_cons".
(** 441-443, 475-494: function objects *)
Definition fn_var (ts : list ty) (n : string) : obj := {| o_ty := TFn ts; o_src := mkVar n (TFn ts) |}.
Definition v_select : obj := fn_var [TInt; TInt; TInt] "select_two_args_arg".
Definition v_dissolve : obj := fn_var [TInt; TInt; TInt; TInt; TInt] "dissolve_select_two_args_arg".
Definition v_map_fn : obj := fn_var [TInt; TInt] "map_int_to_int".

(** [lst[0]], [lst[1:]] *)
Definition at0 (o : obj) : res obj := getitem o (IxInt 0).
Definition from1 (o : obj) : res obj := getitem o (IxSlice (Some (SInt 1)) None None).
(** [len < 1] *)
Definition lt1 (n : obj) : res obj := int_cmp KLt n (int_lit 1).

(** tenspiler_common.py:392-398 *)
Definition reduce_sum_body (lst : obj) : res obj :=
  vec_size <- o_len lst ;; cur <- at0 lst ;; lst_rest <- from1 lst ;;
  recursed <- call "reduce_sum" TInt [lst_rest] ;;
  general_answer <- int_op KAdd cur recursed ;;
  c <- lt1 vec_size ;; ite c (int_lit 0) general_answer.
(** 401 *)
Definition reduce_sum : res expr :=
  b <- reduce_sum_body v_x ;; fn_decl_recursive "reduce_sum" TInt b [v_x].

(** 404-410 *)
Definition reduce_mul_body (lst : obj) : res obj :=
  vec_size <- o_len lst ;; cur <- at0 lst ;; lst_rest <- from1 lst ;;
  recursed <- call "reduce_mul" TInt [lst_rest] ;;
  general_answer <- int_op KMul cur recursed ;;
  c <- lt1 vec_size ;; ite c (int_lit 1) general_answer.
(** 413 *)
Definition reduce_mul : res expr :=
  b <- reduce_mul_body v_x ;; fn_decl_recursive "reduce_mul" TInt b [v_x].

(** 416-423 *)
Definition reduce_max_body (lst : obj) : res obj :=
  vec_size <- o_len lst ;; cur <- at0 lst ;; lst_rest <- from1 lst ;;
  recursed <- call "reduce_max" TInt [lst_rest] ;;
  gt <- int_cmp KGt cur recursed ;;
  general_answer <- ite gt cur recursed ;;
  c <- lt1 vec_size ;;
  m32 <- int_op KSub (int_lit 0) (int_lit 32) ;;
  e1 <- int_eq vec_size (int_lit 1) ;;
  first <- at0 lst ;;
  inner <- ite e1 first general_answer ;;
  ite c m32 inner.
(** 426 *)
Definition reduce_max : res expr :=
  b <- reduce_max_body v_x ;; fn_decl_recursive "reduce_max" TInt b [v_x].

(** 429-435 *)
Definition matrix_vec_mul_body (matrix vec : obj) : res obj :=
  mlen <- o_len matrix ;; m0 <- at0 matrix ;; m0len <- o_len m0 ;; vlen <- o_len vec ;;
  c1 <- lt1 mlen ;; c2 <- lt1 m0len ;; c3 <- int_ne m0len vlen ;;
  invalid_cond <- or_objs [c1; c2; c3] ;;
  prod <- call "vec_elemwise_mul" (TList TInt) [m0; vec] ;;
  cur <- call "reduce_sum" TInt [prod] ;;
  mrest <- from1 matrix ;;
  recursed <- call "matrix_vec_mul" (TList TInt) [mrest; vec] ;;
  empty <- list_empty TInt ;;
  general <- prepend recursed cur ;;
  ite invalid_cond empty general.
(** 438-440 *)
Definition matrix_vec_mul : res expr :=
  b <- matrix_vec_mul_body v_mx v_x ;; fn_decl_recursive "matrix_vec_mul" (TList TInt) b [v_mx; v_x].

(** the condition [or_objects(left.len() < 1, left.len() != right.len())] *)
Definition bad_lengths (left right : obj) : res obj :=
  l1 <- o_len left ;; l2 <- o_len right ;; c1 <- lt1 l1 ;; c2 <- int_ne l1 l2 ;; or_objs [c1; c2].

(** 707-747 [elemwise_body] *)
Definition elemwise_body (left right : obj) (compute_fn : obj -> obj -> res obj)
  (vec_fn matrix_fn tensor3d_fn : string) : res obj :=
  if is_tensor3d_type (o_ty left) && is_tensor3d_type (o_ty right) then
    l0 <- at0 left ;; r0 <- at0 right ;; cur <- call matrix_fn (TMatrix TInt) [l0; r0] ;;
    l1 <- from1 left ;; r1 <- from1 right ;; recursed <- call tensor3d_fn (TTensor3D TInt) [l1; r1] ;;
    general <- prepend recursed cur ;;
    c <- bad_lengths left right ;; e <- tensor3d_empty TInt ;; ite c e general
  else if is_matrix_type (o_ty left) && is_matrix_type (o_ty right) then
    l0 <- at0 left ;; r0 <- at0 right ;; cur <- call vec_fn (TList TInt) [l0; r0] ;;
    l1 <- from1 left ;; r1 <- from1 right ;; recursed <- call matrix_fn (TMatrix TInt) [l1; r1] ;;
    general <- prepend recursed cur ;;
    c <- bad_lengths left right ;; e <- matrix_empty TInt ;; ite c e general
  else
    match o_ty left, o_ty right with
    | TList t1, TList t2 =>
        if is_primitive_type t1 && is_primitive_type t2 then
          l0 <- at0 left ;; r0 <- at0 right ;; cur <- compute_fn l0 r0 ;;
          l1 <- from1 left ;; r1 <- from1 right ;; recursed <- call vec_fn (TList TInt) [l1; r1] ;;
          general <- prepend recursed cur ;;
          c <- bad_lengths left right ;; e <- list_empty TInt ;; ite c e general
        else Err ExNYI
    | _, _ => Err ExNYI
    end.

(** 750-773 [scalar_body] *)
Definition scalar_body (scalar v : obj) (compute_fn : obj -> obj -> res obj)
  (vec_fn matrix_fn : string) : res obj :=
  if is_matrix_type (o_ty v) then
    v0 <- at0 v ;; cur <- call vec_fn (TList TInt) [scalar; v0] ;;
    v1 <- from1 v ;; recursed <- call matrix_fn (TMatrix TInt) [scalar; v1] ;;
    general <- prepend recursed cur ;;
    n <- o_len v ;; c0 <- lt1 n ;; c <- or_objs [c0] ;; e <- matrix_empty TInt ;; ite c e general
  else
    match o_ty v with
    | TList t =>
        if is_primitive_type t then
          v0 <- at0 v ;; cur <- compute_fn scalar v0 ;;
          v1 <- from1 v ;; recursed <- call vec_fn (TList TInt) [scalar; v1] ;;
          general <- prepend recursed cur ;;
          n <- o_len v ;; c0 <- lt1 n ;; c <- or_objs [c0] ;; e <- list_empty TInt ;; ite c e general
        else Err ExNYI
    | _ => Err ExNYI
    end.

(** [lambda int_x, int_y: int_x + int_y] etc. *)
Definition op (k : kind) : obj -> obj -> res obj := fun p q => int_op k p q.
(** [lambda scalar, int_x: int_x - scalar] etc. *)
Definition rop (k : kind) : obj -> obj -> res obj := fun p q => int_op k q p.

(** 776-788 *)
Definition vec_elemwise_add : res expr :=
  b <- elemwise_body v_x v_y (op KAdd) "vec_elemwise_add" "matrix_elemwise_add" "tensor3d_elemwise_add" ;;
  fn_decl_recursive "vec_elemwise_add" (TList TInt) b [v_x; v_y].
(** 789-802 *)
Definition matrix_elemwise_add : res expr :=
  b <- elemwise_body v_mx v_my (op KAdd) "vec_elemwise_add" "matrix_elemwise_add" "tensor3d_elemwise_add" ;;
  fn_decl_recursive "matrix_elemwise_add" (TMatrix TInt) b [v_mx; v_my].
(** 803-816 *)
Definition tensor3d_elemwise_add : res expr :=
  b <- elemwise_body v_tx v_ty (op KAdd) "vec_elemwise_add" "matrix_elemwise_add" "tensor3d_elemwise_add" ;;
  fn_decl_recursive "tensor3d_elemwise_add" (TTensor3D TInt) b [v_tx; v_ty].
(** 818-831 *)
Definition vec_elemwise_sub : res expr :=
  b <- elemwise_body v_x v_y (op KSub) "vec_elemwise_sub" "matrix_elemwise_sub" "tensor3d_elemwise_sub" ;;
  fn_decl_recursive "vec_elemwise_sub" (TList TInt) b [v_x; v_y].
(** 832-845; the lambda passed here adds, but is not used for matrices *)
Definition matrix_elemwise_sub : res expr :=
  b <- elemwise_body v_mx v_my (op KAdd) "vec_elemwise_sub" "matrix_elemwise_sub" "tensor3d_elemwise_sub" ;;
  fn_decl_recursive "matrix_elemwise_sub" (TMatrix TInt) b [v_mx; v_my].
(** 847-860 *)
Definition vec_elemwise_mul : res expr :=
  b <- elemwise_body v_x v_y (op KMul) "vec_elemwise_mul" "matrix_elemwise_mul" "tensor3d_elemwise_mul" ;;
  fn_decl_recursive "vec_elemwise_mul" (TList TInt) b [v_x; v_y].
(** 861-874 *)
Definition matrix_elemwise_mul : res expr :=
  b <- elemwise_body v_mx v_my (op KMul) "vec_elemwise_mul" "matrix_elemwise_mul" "tensor3d_elemwise_mul" ;;
  fn_decl_recursive "matrix_elemwise_mul" (TMatrix TInt) b [v_mx; v_my].
(** 875-888; the lambda passed here adds, but is not used *)
Definition tensor3d_elemwise_mul : res expr :=
  b <- elemwise_body v_tx v_ty (op KAdd) "vec_elemwise_mul" "matrix_elemwise_mul" "tensor3d_elemwise_mul" ;;
  fn_decl_recursive "tensor3d_elemwise_mul" (TTensor3D TInt) b [v_tx; v_ty].
(** 890-903 *)
Definition vec_elemwise_div : res expr :=
  b <- elemwise_body v_x v_y (op KDiv) "vec_elemwise_div" "matrix_elemwise_div" "tensor3d_elemwise_div" ;;
  fn_decl_recursive "vec_elemwise_div" (TList TInt) b [v_x; v_y].
(** 904-917 *)
Definition matrix_elemwise_div : res expr :=
  b <- elemwise_body v_mx v_my (op KDiv) "vec_elemwise_div" "matrix_elemwise_div" "tensor3d_elemwise_div" ;;
  fn_decl_recursive "matrix_elemwise_div" (TMatrix TInt) b [v_mx; v_my].

(** 919-931 *)
Definition vec_scalar_add : res expr :=
  b <- scalar_body v_a v_x (op KAdd) "vec_scalar_add" "matrix_scalar_add" ;;
  fn_decl_recursive "vec_scalar_add" (TList TInt) b [v_a; v_x].
(** 932-944 *)
Definition matrix_scalar_add : res expr :=
  b <- scalar_body v_a v_mx (op KAdd) "vec_scalar_add" "matrix_scalar_add" ;;
  fn_decl_recursive "matrix_scalar_add" (TMatrix TInt) b [v_a; v_mx].
(** 946-958 *)
Definition vec_scalar_mul : res expr :=
  b <- scalar_body v_a v_x (op KMul) "vec_scalar_mul" "matrix_scalar_mul" ;;
  fn_decl_recursive "vec_scalar_mul" (TList TInt) b [v_a; v_x].
(** 959-971 *)
Definition matrix_scalar_mul : res expr :=
  b <- scalar_body v_a v_mx (op KMul) "vec_scalar_mul" "matrix_scalar_mul" ;;
  fn_decl_recursive "matrix_scalar_mul" (TMatrix TInt) b [v_a; v_mx].
(** 973-985 *)
Definition vec_scalar_div : res expr :=
  b <- scalar_body v_a v_x (rop KDiv) "vec_scalar_div" "matrix_scalar_div" ;;
  fn_decl_recursive "vec_scalar_div" (TList TInt) b [v_a; v_x].
(** 986-998 *)
Definition scalar_vec_div : res expr :=
  b <- scalar_body v_a v_x (op KDiv) "scalar_vec_div" "scalar_matrix_div" ;;
  fn_decl_recursive "scalar_vec_div" (TList TInt) b [v_a; v_x].
(** 999-1011 *)
Definition matrix_scalar_div : res expr :=
  b <- scalar_body v_a v_mx (rop KDiv) "vec_scalar_div" "matrix_scalar_div" ;;
  fn_decl_recursive "matrix_scalar_div" (TMatrix TInt) b [v_a; v_mx].
(** 1012-1024 *)
Definition scalar_matrix_div : res expr :=
  b <- scalar_body v_a v_mx (op KDiv) "scalar_vec_div" "scalar_matrix_div" ;;
  fn_decl_recursive "scalar_matrix_div" (TMatrix TInt) b [v_a; v_mx].
(** 1026-1038 *)
Definition vec_scalar_sub : res expr :=
  b <- scalar_body v_a v_x (rop KSub) "vec_scalar_sub" "matrix_scalar_sub" ;;
  fn_decl_recursive "vec_scalar_sub" (TList TInt) b [v_a; v_x].
(** 1039-1051 *)
Definition scalar_vec_sub : res expr :=
  b <- scalar_body v_a v_x (op KSub) "scalar_vec_sub" "scalar_matrix_sub" ;;
  fn_decl_recursive "scalar_vec_sub" (TList TInt) b [v_a; v_x].
(** 1052-1064 *)
Definition matrix_scalar_sub : res expr :=
  b <- scalar_body v_a v_mx (rop KSub) "vec_scalar_sub" "matrix_scalar_sub" ;;
  fn_decl_recursive "matrix_scalar_sub" (TMatrix TInt) b [v_a; v_mx].
(** 1065-1077; the lambda passed here is the wrong way round, but is not used *)
Definition scalar_matrix_sub : res expr :=
  b <- scalar_body v_a v_mx (rop KSub) "scalar_vec_sub" "scalar_matrix_sub" ;;
  fn_decl_recursive "scalar_matrix_sub" (TMatrix TInt) b [v_a; v_mx].

(** 1080-1083 *)
Definition vec_map_body (vec map_fn : obj) : res obj :=
  v0 <- at0 vec ;; cur <- call_value map_fn [v0] ;;
  v1 <- from1 vec ;; recursed <- call "vec_map" (TList TInt) [v1; map_fn] ;;
  n <- o_len vec ;; c <- lt1 n ;; e <- list_empty TInt ;; general <- prepend recursed cur ;; ite c e general.
(** 1086-1092 *)
Definition vec_map : res expr :=
  b <- vec_map_body v_x v_map_fn ;; fn_decl_recursive "vec_map" (TList TInt) b [v_x; v_map_fn].

(** 591-602 [selection_two_args_body] *)
Definition selection_body (left right fn : obj) : res obj :=
  l0 <- at0 left ;; r0 <- at0 right ;; cur <- call_value fn [l0; r0] ;;
  l1 <- from1 left ;; r1 <- from1 right ;;
  recursed <- call "selection_two_args" (TList TInt) [l1; r1; fn] ;;
  general <- prepend recursed cur ;; c <- bad_lengths left right ;; e <- list_empty TInt ;; ite c e general.
(** 605-612 *)
Definition selection_two_args : res expr :=
  b <- selection_body v_x v_y v_select ;;
  fn_decl_recursive "selection_two_args" (TList TInt) b [v_x; v_y; v_select].
(** 521-532 *)
Definition matrix_selection_body (left right fn : obj) : res obj :=
  l0 <- at0 left ;; r0 <- at0 right ;; cur <- call "selection_two_args" (TList TInt) [l0; r0; fn] ;;
  l1 <- from1 left ;; r1 <- from1 right ;;
  recursed <- call "matrix_selection_two_args" (TMatrix TInt) [l1; r1; fn] ;;
  general <- prepend recursed cur ;; c <- bad_lengths left right ;; e <- matrix_empty TInt ;; ite c e general.
(** 535-542 *)
Definition matrix_selection_two_args : res expr :=
  b <- matrix_selection_body v_mx v_my v_select ;;
  fn_decl_recursive "matrix_selection_two_args" (TMatrix TInt) b [v_mx; v_my; v_select].
(** 615-632 *)
Definition dissolve_selection_body (left right op rc fn : obj) : res obj :=
  l0 <- at0 left ;; r0 <- at0 right ;; cur <- call_value fn [l0; r0; op; rc] ;;
  l1 <- from1 left ;; r1 <- from1 right ;;
  recursed <- call "dissolve_selection_two_args" (TList TInt) [l1; r1; op; rc; fn] ;;
  general <- prepend recursed cur ;; c <- bad_lengths left right ;; e <- list_empty TInt ;; ite c e general.
(** 635-646 *)
Definition dissolve_selection_two_args : res expr :=
  b <- dissolve_selection_body v_x v_y v_opacity v_rand_cons v_dissolve ;;
  fn_decl_recursive "dissolve_selection_two_args" (TList TInt) b [v_x; v_y; v_opacity; v_rand_cons; v_dissolve].
(** 545-564 *)
Definition dissolve_matrix_selection_body (left right op rc fn : obj) : res obj :=
  l0 <- at0 left ;; r0 <- at0 right ;;
  cur <- call "dissolve_selection_two_args" (TList TInt) [l0; r0; op; rc; fn] ;;
  l1 <- from1 left ;; r1 <- from1 right ;;
  recursed <- call "dissolve_matrix_selection_two_args" (TMatrix TInt) [l1; r1; op; rc; fn] ;;
  general <- prepend recursed cur ;; c <- bad_lengths left right ;; e <- matrix_empty TInt ;; ite c e general.
(** 567-578 *)
Definition dissolve_matrix_selection_two_args : res expr :=
  b <- dissolve_matrix_selection_body v_mx v_my v_opacity v_rand_cons v_dissolve ;;
  fn_decl_recursive "dissolve_matrix_selection_two_args" (TMatrix TInt) b
    [v_mx; v_my; v_opacity; v_rand_cons; v_dissolve].

(** ** axioms.py *)

(** axioms.py:31-38 *)
Definition ax_index : obj := int_var "index".
Definition ax_a : obj := list_var (TList TInt) "a".
Definition ax_b : obj := list_var (TList TInt) "b".
Definition ax_i : obj := int_var "i".
Definition ax_x : obj := list_var (TMatrix TInt) "x".
Definition ax_y : obj := list_var (TMatrix TInt) "y".

(** [a[:index]], [a[1:index]] *)
Definition upto (o i : obj) : res obj := getitem o (IxSlice None (Some (SObj i)) None).
Definition from1to (o i : obj) : res obj := getitem o (IxSlice (Some (SInt 1)) (Some (SObj i)) None).

(** ir.py:2813-2814 [Axiom(e, *vars)] *)
Definition axiom (e : obj) (vars : list obj) : res expr := mkAxiom (o_src e :: map o_src vars).

(** axioms.py:41-46 [vec_elemwise_add_axiom] with 227-229; the same text with
    another function and operation at 49-54/231-233, 97-102/255-257, 134-139/267-269,
    142-149/271-273 (matrices, with the vector function as operation), 152-159/275-277,
    180-187/291-293 *)
Definition elemwise_axiom (f : string) (t : ty) (cur : obj -> obj -> res obj) (p q : obj) : res expr :=
  n1 <- o_len p ;; n2 <- o_len q ;;
  c1 <- int_cmp KGe ax_index (int_lit 0) ;; c2 <- int_cmp KLt ax_index n1 ;; c3 <- int_eq n1 n2 ;;
  hyp <- and_objs [c1; c2; c3] ;;
  pu <- upto p ax_index ;; qu <- upto q ax_index ;; lhs <- call f t [pu; qu] ;;
  p1 <- from1to p ax_index ;; q1 <- from1to q ax_index ;; rec <- call f t [p1; q1] ;;
  p0 <- at0 p ;; q0 <- at0 q ;; cu <- cur p0 q0 ;; rhs <- prepend rec cu ;;
  eq <- list_eq lhs rhs ;; e <- implies hyp eq ;;
  axiom e [p; q; ax_index].

(** axioms.py:57-62 [scalar_vec_sub_axiom] with 235-237; the same text at 65-70/239-241,
    73-78/243-245, 81-86/247-249, 89-94/251-253, 126-131/263-265 and for matrices at
    162-167/283-285, 190-195/295-297, 198-203/279-281 *)
Definition scalar_axiom (f : string) (t : ty) (cur : obj -> obj -> res obj) (p : obj) (vars : list obj) : res expr :=
  n1 <- o_len p ;;
  c1 <- int_cmp KGe ax_index (int_lit 0) ;; c2 <- int_cmp KLt ax_index n1 ;;
  hyp <- and_objs [c1; c2] ;;
  pu <- upto p ax_index ;; lhs <- call f t [ax_i; pu] ;;
  p1 <- from1to p ax_index ;; rec <- call f t [ax_i; p1] ;;
  p0 <- at0 p ;; cu <- cur ax_i p0 ;; rhs <- prepend rec cu ;;
  eq <- list_eq lhs rhs ;; e <- implies hyp eq ;;
  axiom e vars.

(** [call_vec_elemwise_add(x[0], y[0])] etc. *)
Definition vcall (f : string) : obj -> obj -> res obj := fun p q => call f (TList TInt) [p; q].

Definition vec_elemwise_add_axiom := elemwise_axiom "vec_elemwise_add" (TList TInt) (op KAdd) ax_a ax_b.
Definition vec_elemwise_mul_axiom := elemwise_axiom "vec_elemwise_mul" (TList TInt) (op KMul) ax_a ax_b.
Definition vec_elemwise_sub_axiom := elemwise_axiom "vec_elemwise_sub" (TList TInt) (op KSub) ax_a ax_b.
Definition vec_elemwise_div_axiom := elemwise_axiom "vec_elemwise_div" (TList TInt) (op KDiv) ax_a ax_b.
Definition matrix_elemwise_add_axiom :=
  elemwise_axiom "matrix_elemwise_add" (TMatrix TInt) (vcall "vec_elemwise_add") ax_x ax_y.
Definition matrix_elemwise_sub_axiom :=
  elemwise_axiom "matrix_elemwise_sub" (TMatrix TInt) (vcall "vec_elemwise_sub") ax_x ax_y.
Definition matrix_elemwise_mul_axiom :=
  elemwise_axiom "matrix_elemwise_mul" (TMatrix TInt) (vcall "vec_elemwise_mul") ax_x ax_y.

Definition scalar_vec_sub_axiom :=
  scalar_axiom "scalar_vec_sub" (TList TInt) (op KSub) ax_a [ax_a; ax_i; ax_index].
Definition vec_scalar_sub_axiom :=
  scalar_axiom "vec_scalar_sub" (TList TInt) (rop KSub) ax_a [ax_a; ax_i; ax_index].
Definition vec_scalar_add_axiom :=
  scalar_axiom "vec_scalar_add" (TList TInt) (op KAdd) ax_a [ax_a; ax_i; ax_index].
Definition scalar_vec_div_axiom :=
  scalar_axiom "scalar_vec_div" (TList TInt) (op KDiv) ax_a [ax_i; ax_a; ax_index].
Definition vec_scalar_mul_axiom :=
  scalar_axiom "vec_scalar_mul" (TList TInt) (op KMul) ax_a [ax_a; ax_i; ax_index].
Definition vec_scalar_div_axiom :=
  scalar_axiom "vec_scalar_div" (TList TInt) (rop KDiv) ax_a [ax_a; ax_i; ax_index].
Definition matrix_scalar_mul_axiom :=
  scalar_axiom "matrix_scalar_mul" (TMatrix TInt) (vcall "vec_scalar_mul") ax_x [ax_x; ax_i; ax_index].
Definition matrix_scalar_div_axiom :=
  scalar_axiom "matrix_scalar_div" (TMatrix TInt) (vcall "vec_scalar_div") ax_x [ax_x; ax_i; ax_index].
Definition matrix_scalar_sub_axiom :=
  scalar_axiom "matrix_scalar_sub" (TMatrix TInt) (vcall "vec_scalar_sub") ax_x [ax_x; ax_i; ax_index].

(** axioms.py:105-110 with 259; [max_pos] is the variable [i] *)
Definition reduce_sum_axiom : res expr :=
  c1 <- int_cmp KGe ax_index (int_lit 0) ;; c2 <- int_cmp KLe ax_index ax_i ;;
  c3 <- int_cmp KGe ax_i (int_lit 0) ;; hyp <- and_objs [c1; c2; c3] ;;
  i1 <- int_op KAdd ax_index (int_lit 1) ;; du <- upto ax_a i1 ;; lhs <- call "reduce_sum" TInt [du] ;;
  dv <- upto ax_a ax_index ;; s <- call "reduce_sum" TInt [dv] ;;
  di <- getitem ax_a (IxObj ax_index) ;; rhs <- int_op KAdd s di ;;
  eq <- int_eq lhs rhs ;; e <- implies hyp eq ;; axiom e [ax_a; ax_index; ax_i].

(** axioms.py:113-123 with 261 *)
Definition reduce_max_axiom : res expr :=
  c1 <- int_cmp KGe ax_index (int_lit 0) ;; c2 <- int_cmp KLe ax_index ax_i ;;
  c3 <- int_cmp KGe ax_i (int_lit 0) ;; hyp <- and_objs [c1; c2; c3] ;;
  i1 <- int_op KAdd ax_index (int_lit 1) ;; du <- upto ax_a i1 ;; lhs <- call "reduce_max" TInt [du] ;;
  dv <- upto ax_a ax_index ;; m <- call "reduce_max" TInt [dv] ;;
  di <- getitem ax_a (IxObj ax_index) ;;
  g <- int_cmp KGt di m ;; rhs <- ite g di m ;;
  eq <- int_eq lhs rhs ;; e <- implies hyp eq ;; axiom e [ax_a; ax_index; ax_i].

(** axioms.py:170-177 with 287-289 *)
Definition matrix_vec_mul_axiom : res expr :=
  n1 <- o_len ax_x ;;
  c1 <- int_cmp KGe ax_index (int_lit 0) ;; c2 <- int_cmp KLt ax_index n1 ;; hyp <- and_objs [c1; c2] ;;
  xu <- upto ax_x ax_index ;; lhs <- call "matrix_vec_mul" (TList TInt) [xu; ax_b] ;;
  x1 <- from1to ax_x ax_index ;; rec <- call "matrix_vec_mul" (TList TInt) [x1; ax_b] ;;
  x0 <- at0 ax_x ;; pr <- call "vec_elemwise_mul" (TList TInt) [x0; ax_b] ;; cu <- call "reduce_sum" TInt [pr] ;;
  rhs <- prepend rec cu ;; eq <- list_eq lhs rhs ;; e <- implies hyp eq ;; axiom e [ax_x; ax_b; ax_index].

(** axioms.py:206-213 with 299-301: the calls have no function argument *)
Definition matrix_selection_two_args_axiom :=
  elemwise_axiom "matrix_selection_two_args" (TMatrix TInt) (vcall "selection_two_args") ax_x ax_y.

(** axioms.py:216-224 with 303-310 *)
Definition dissolve_matrix_selection_two_args_axiom : res expr :=
  let o := int_var "opacity" in let rd := int_var "rand" in
  n1 <- o_len ax_x ;; n2 <- o_len ax_y ;;
  c1 <- int_cmp KGe ax_index (int_lit 0) ;; c2 <- int_cmp KLt ax_index n1 ;; c3 <- int_eq n1 n2 ;;
  hyp <- and_objs [c1; c2; c3] ;;
  pu <- upto ax_x ax_index ;; qu <- upto ax_y ax_index ;;
  lhs <- call "dissolve_matrix_selection_two_args" (TMatrix TInt) [pu; qu; o; rd] ;;
  p1 <- from1to ax_x ax_index ;; q1 <- from1to ax_y ax_index ;;
  rec <- call "dissolve_matrix_selection_two_args" (TMatrix TInt) [p1; q1; o; rd] ;;
  p0 <- at0 ax_x ;; q0 <- at0 ax_y ;; cu <- call "dissolve_selection_two_args" (TList TInt) [p0; q0; o; rd] ;;
  rhs <- prepend rec cu ;; eq <- list_eq lhs rhs ;; e <- implies hyp eq ;;
  axiom e [ax_x; ax_y; o; rd; ax_index].
